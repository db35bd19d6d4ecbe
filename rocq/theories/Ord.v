(** Ordered types and the model of [numpy.unique]. *)
From Coq Require Import List Permutation ZArith Arith Lia Sorted Bool.
From Verif Require Import Spec.
Import ListNotations.

(** A strict total order given by a comparison function. *)
Class Cmp (A : Type) := {
  cmp : A -> A -> comparison;
  cmp_eq : forall x y, cmp x y = Eq <-> x = y;
  cmp_opp : forall x y, cmp y x = CompOpp (cmp x y);
  cmp_trans : forall x y z, cmp x y = Lt -> cmp y z = Lt -> cmp x z = Lt }.

#[export] Instance Cmp_Z : Cmp Z.
Proof.
  refine {| cmp := Z.compare |}.
  - apply Z.compare_eq_iff.
  - intros x y. apply Z.compare_antisym.
  - intros x y z. rewrite !Z.compare_lt_iff. lia.
Defined.

#[export] Instance Cmp_nat : Cmp nat.
Proof.
  refine {| cmp := Nat.compare |}.
  - apply Nat.compare_eq_iff.
  - intros x y. apply Nat.compare_antisym.
  - intros x y z. rewrite !Nat.compare_lt_iff. lia.
Defined.

(** lexicographic comparison of rows (numpy compares rows of [unique(axis=0)] this way) *)
Fixpoint lexcmp {A} `{Cmp A} (r s : list A) : comparison :=
  match r, s with
  | [], [] => Eq
  | [], _ :: _ => Lt
  | _ :: _, [] => Gt
  | x :: r', y :: s' => match cmp x y with Eq => lexcmp r' s' | c => c end
  end.

Lemma cmp_refl {A} `{Cmp A} (x : A) : cmp x x = Eq.
Proof. apply cmp_eq. reflexivity. Qed.

#[export] Instance Cmp_list {A} `{Cmp A} : Cmp (list A).
Proof.
  refine {| cmp := lexcmp |}.
  - intros x. induction x as [|a x IH]; intros [|b y]; simpl; split; intros E; try congruence.
    + destruct (cmp a b) eqn:C; try discriminate. apply cmp_eq in C. apply IH in E. congruence.
    + injection E as -> ->. rewrite cmp_refl. apply IH. reflexivity.
  - intros x. induction x as [|a x IH]; intros [|b y]; simpl; try reflexivity.
    rewrite (cmp_opp a b). destruct (cmp a b); simpl; auto.
  - intros x. induction x as [|a x IH]; intros [|b y] [|c z]; simpl; intros E1 E2; try congruence.
    destruct (cmp a b) eqn:Cab; try discriminate.
    + apply cmp_eq in Cab. subst b. destruct (cmp a c) eqn:Cac; try congruence. eapply IH; eauto.
    + destruct (cmp b c) eqn:Cbc; try discriminate.
      * apply cmp_eq in Cbc. subst c. rewrite Cab. reflexivity.
      * rewrite (cmp_trans a b c Cab Cbc). reflexivity.
Defined.

Section Unique.
Context {A : Type} `{Cmp A}.

Definition lt (x y : A) : Prop := cmp x y = Lt.

Lemma lt_irrefl x : ~ lt x x.
Proof. unfold lt. rewrite cmp_refl. discriminate. Qed.

Lemma lt_trans x y z : lt x y -> lt y z -> lt x z.
Proof. apply cmp_trans. Qed.

Lemma gt_lt x y : cmp x y = Gt -> lt y x.
Proof. intros E. unfold lt. rewrite cmp_opp, E. reflexivity. Qed.

Fixpoint insert_u (x : A) (l : list A) : list A :=
  match l with
  | [] => [x]
  | y :: ys => match cmp x y with
               | Lt => x :: y :: ys
               | Eq => y :: ys
               | Gt => y :: insert_u x ys
               end
  end.

(** [numpy.unique(a)]: the sorted distinct elements (for [axis=0]: the distinct rows in
    lexicographic order). *)
Definition unique (l : list A) : list A := fold_right insert_u [] l.

Lemma insert_u_In x l y : In y (insert_u x l) <-> y = x \/ In y l.
Proof.
  induction l as [|z zs IH]; simpl.
  - split; intros [E|E]; auto.
  - destruct (cmp x z) eqn:C; simpl.
    + apply cmp_eq in C. subst z. split; [intros [E|E]; auto|intros [E|[E|E]]; auto].
    + split; [intros [E|[E|E]]; auto|intros [E|[E|E]]; auto].
    + rewrite IH. tauto.
Qed.

Lemma unique_In l x : In x (unique l) <-> In x l.
Proof.
  unfold unique. induction l as [|y ys IH]; simpl; [tauto|].
  rewrite insert_u_In, IH. split; intros [E|E]; auto.
Qed.

Lemma insert_u_sorted x l : StronglySorted lt l -> StronglySorted lt (insert_u x l).
Proof.
  induction l as [|y ys IH]; intros HS; simpl; [constructor; constructor|].
  inversion HS as [|? ? HS' HF]; subst.
  destruct (cmp x y) eqn:C.
  - exact HS.
  - constructor; [exact HS|]. constructor; [exact C|].
    rewrite Forall_forall in *. intros z Hz. eapply lt_trans; [exact C|auto].
  - constructor; [apply IH; exact HS'|].
    rewrite Forall_forall in *. intros z Hz. apply insert_u_In in Hz.
    destruct Hz as [->|Hz]; [apply gt_lt; exact C|auto].
Qed.

Lemma unique_sorted l : StronglySorted lt (unique l).
Proof. unfold unique. induction l; simpl; [constructor|apply insert_u_sorted; assumption]. Qed.

Lemma sorted_NoDup l : StronglySorted lt l -> NoDup l.
Proof.
  induction 1 as [|x xs HS IH HF]; constructor; [|exact IH].
  intros Hin. rewrite Forall_forall in HF. exact (lt_irrefl x (HF x Hin)).
Qed.

Lemma unique_NoDup l : NoDup (unique l).
Proof. apply sorted_NoDup, unique_sorted. Qed.

Context `{EqDec A}.

Lemma unique_perm_distinct l : Permutation (unique l) (distinct l).
Proof.
  apply NoDup_Permutation; [apply unique_NoDup|apply NoDup_nodup|].
  intros x. unfold distinct. rewrite unique_In, nodup_In. reflexivity.
Qed.

Lemma unique_length l : length (unique l) = length (distinct l).
Proof. apply Permutation_length, unique_perm_distinct. Qed.

(** position of a value in an array (the dictionary/index lookup of numpy's inverse) *)
Fixpoint index_of (x : A) (u : list A) : nat :=
  match u with
  | [] => 0
  | y :: ys => if eq_dec x y then 0 else S (index_of x ys)
  end.

Lemma index_of_lt x u : In x u -> index_of x u < length u.
Proof.
  induction u as [|y ys IH]; intros Hin; [destruct Hin|]. simpl.
  destruct (eq_dec x y); [lia|]. destruct Hin as [->|Hin]; [congruence|].
  specialize (IH Hin). lia.
Qed.

Lemma nth_index_of x u d : In x u -> nth (index_of x u) u d = x.
Proof.
  induction u as [|y ys IH]; intros Hin; [destruct Hin|]. simpl.
  destruct (eq_dec x y); [auto|]. destruct Hin as [->|Hin]; [congruence|]. apply IH; exact Hin.
Qed.

Lemma index_of_inj x y u : In x u -> In y u -> index_of x u = index_of y u -> x = y.
Proof.
  intros Hx Hy E. rewrite <- (nth_index_of x u x Hx), E. apply nth_index_of. exact Hy.
Qed.

Lemma index_of_nth i u d : NoDup u -> i < length u -> index_of (nth i u d) u = i.
Proof.
  intros ND Hi. apply (proj1 (NoDup_nth u d) ND); auto.
  - apply index_of_lt. apply nth_In. exact Hi.
  - apply nth_index_of. apply nth_In. exact Hi.
Qed.

Lemma index_of_lt_iff x y u :
  StronglySorted lt u -> In x u -> In y u -> (index_of x u < index_of y u <-> lt x y).
Proof.
  intros HS. revert x y. induction HS as [|z zs HS IH HF]; intros x y Hx Hy; [destruct Hx|].
  simpl. rewrite Forall_forall in HF.
  destruct (eq_dec x z) as [->|Nx], (eq_dec y z) as [->|Ny].
  - split; [lia|]. intros L. destruct (lt_irrefl _ L).
  - destruct Hy as [->|Hy]; [congruence|]. split; [intros _; auto|lia].
  - destruct Hx as [->|Hx]; [congruence|]. split; [lia|].
    intros L. destruct (lt_irrefl z). eapply lt_trans; [exact (HF x Hx)|exact L].
  - destruct Hx as [->|Hx]; [congruence|]. destruct Hy as [->|Hy]; [congruence|].
    rewrite <- (IH x y Hx Hy). lia.
Qed.

(** [unique(a, return_inverse=True)[1]] *)
Definition inverse (l : list A) : list nat := map (fun x => index_of x (unique l)) l.

(** [unique(a, return_counts=True)[1]] *)
Definition unique_counts (l : list A) : list nat := map (fun v => count l v) (unique l).

Lemma inverse_length l : length (inverse l) = length l.
Proof. unfold inverse. apply map_length. Qed.

End Unique.
