(** C51: normalisation to the unit interval. *)
From Coq Require Import Reals Lra Lia List ZArith Arith Bool.
From Verif Require Import Res MBase MNorm.
Import ListNotations.
Local Open Scope R_scope.

Lemma fold_min l x : fold_left Rmin l x <= x /\ (forall y, In y l -> fold_left Rmin l x <= y) /\ (fold_left Rmin l x = x \/ In (fold_left Rmin l x) l).
Proof.
  revert x. induction l as [|a r IH]; intros x; cbn [fold_left]; [split; [lra|]; split; [intros y []|left; reflexivity]|].
  destruct (IH (Rmin x a)) as (A & B & C). pose proof (Rmin_l x a). pose proof (Rmin_r x a). split; [lra|]. split.
  - intros y [<-|I]; [lra|apply B, I].
  - destruct C as [C|C]; [|right; right; exact C]. rewrite C. unfold Rmin; destruct (Rle_dec x a); [left; reflexivity|right; left; reflexivity].
Qed.
Lemma fold_max l x : x <= fold_left Rmax l x /\ (forall y, In y l -> y <= fold_left Rmax l x) /\ (fold_left Rmax l x = x \/ In (fold_left Rmax l x) l).
Proof.
  revert x. induction l as [|a r IH]; intros x; cbn [fold_left]; [split; [lra|]; split; [intros y []|left; reflexivity]|].
  destruct (IH (Rmax x a)) as (A & B & C). pose proof (Rmax_l x a). pose proof (Rmax_r x a). split; [lra|]. split.
  - intros y [<-|I]; [lra|apply B, I].
  - destruct C as [C|C]; [|right; right; exact C]. rewrite C. unfold Rmax; destruct (Rle_dec x a); [right; left; reflexivity|left; reflexivity].
Qed.
Lemma minR_spec l : l <> [] -> In (minR l) l /\ forall y, In y l -> minR l <= y.
Proof.
  destruct l as [|x r]; [congruence|]. intros _. cbn [minR]. destruct (fold_min r x) as (A & B & C). split; [destruct C as [->|C]; [left; reflexivity|right; exact C]|].
  intros y [<-|I]; [exact A|apply B, I].
Qed.
Lemma maxR_spec l : l <> [] -> In (maxR l) l /\ forall y, In y l -> y <= maxR l.
Proof.
  destruct l as [|x r]; [congruence|]. intros _. cbn [maxR]. destruct (fold_max r x) as (A & B & C). split; [destruct C as [->|C]; [left; reflexivity|right; exact C]|].
  intros y [<-|I]; [exact A|apply B, I].
Qed.

(** not all values equal *)
Definition varied (l : list R) : Prop := exists x y, In x l /\ In y l /\ x < y.

Lemma varied_range l : varied l -> l <> [] /\ minR l < maxR l.
Proof.
  intros (x & y & Ix & Iy & L). assert (NE : l <> []) by (intros ->; destruct Ix). split; [exact NE|].
  pose proof (proj2 (minR_spec l NE) x Ix). pose proof (proj2 (maxR_spec l NE) y Iy). lra.
Qed.
Lemma normalize_ok l : varied l -> normalize_0_1 l = Ok (map (fun x => (x - minR l) / (maxR l - minR l)) l).
Proof.
  intros V. destruct (varied_range l V) as [NE L]. unfold normalize_0_1. destruct l as [|x r]; [congruence|].
  apply mapM_ok. intros y _. unfold np_div. destruct (Req_EM_T (maxR (x :: r) - minR (x :: r)) 0); [lra|reflexivity].
Qed.

(** a non-constant array: same length, values in [0,1], 0 and 1 attained, order (and ties) preserved *)
Theorem C51_unit_interval : forall l, varied l -> exists n, normalize_0_1 l = Ok n /\ length n = length l /\
  Forall (fun v => 0 <= v <= 1) n /\ In 0 n /\ In 1 n /\
  forall i j, (i < length l)%nat -> (j < length l)%nat -> (nth i n 0 < nth j n 0 <-> nth i l 0 < nth j l 0).
Proof.
  intros l V. destruct (varied_range l V) as [NE L]. rewrite (normalize_ok l V). eexists. split; [reflexivity|].
  assert (P : 0 < / (maxR l - minR l)) by (apply Rinv_0_lt_compat; lra).
  split; [apply map_length|]. split.
  { rewrite Forall_map, Forall_forall. intros x I. pose proof (proj2 (minR_spec l NE) x I). pose proof (proj2 (maxR_spec l NE) x I). split.
    - apply Rmult_le_pos; lra.
    - apply Rmult_le_reg_r with (maxR l - minR l); [lra|]. unfold Rdiv. rewrite Rmult_assoc, Rinv_l, Rmult_1_r, Rmult_1_l by lra. lra. }
  split. { apply in_map_iff. exists (minR l). split; [unfold Rdiv; rewrite Rminus_diag_eq by reflexivity; ring|apply minR_spec, NE]. }
  split. { apply in_map_iff. exists (maxR l). split; [field; lra|apply maxR_spec, NE]. }
  intros i j Hi Hj.
  assert (N : forall k, (k < length l)%nat -> nth k (map (fun x => (x - minR l) / (maxR l - minR l)) l) 0 = (nth k l 0 - minR l) / (maxR l - minR l)).
  { intros k Hk. set (f := fun x => (x - minR l) / (maxR l - minR l)). rewrite (nth_indep _ 0 (f 0)) by (rewrite map_length; exact Hk). apply (map_nth f). }
  rewrite !N by assumption. unfold Rdiv. split; intros H.
  - apply Rmult_lt_reg_r in H; [lra|exact P].
  - apply Rmult_lt_compat_r; [exact P|lra].
Qed.
Print Assumptions C51_unit_interval.

(** the result does not depend on the unit or the origin of the data *)
Theorem C51_affine_invariant : forall l a c, varied l -> 0 < a -> normalize_0_1 (map (fun x => a * x + c) l) = normalize_0_1 l.
Proof.
  intros l a c V A. destruct (varied_range l V) as [NE L].
  assert (V' : varied (map (fun x => a * x + c) l)).
  { destruct V as (x & y & Ix & Iy & XY). exists (a * x + c), (a * y + c). repeat split; [apply in_map_iff; eauto..|]. pose proof (Rmult_lt_compat_l a x y A XY). lra. }
  assert (NE' : map (fun x => a * x + c) l <> []) by (destruct l; [congruence|discriminate]).
  assert (Emin : minR (map (fun x => a * x + c) l) = a * minR l + c).
  { destruct (minR_spec _ NE') as [I B], (minR_spec l NE) as [I' B']. apply Rle_antisym.
    - apply B. apply in_map_iff. eauto.
    - apply in_map_iff in I. destruct I as (x & <- & Ix). specialize (B' x Ix). pose proof (Rmult_le_compat_l a _ _ (Rlt_le _ _ A) B') as M; lra. }
  assert (Emax : maxR (map (fun x => a * x + c) l) = a * maxR l + c).
  { destruct (maxR_spec _ NE') as [I B], (maxR_spec l NE) as [I' B']. apply Rle_antisym.
    - apply in_map_iff in I. destruct I as (x & <- & Ix). specialize (B' x Ix). pose proof (Rmult_le_compat_l a _ _ (Rlt_le _ _ A) B') as M; lra.
    - apply B. apply in_map_iff. eauto. }
  rewrite !normalize_ok by assumption. f_equal. rewrite map_map. apply map_ext. intros x. rewrite Emin, Emax. replace (a * maxR l + c - (a * minR l + c)) with (a * (maxR l - minR l)) by ring. replace (a * x + c - (a * minR l + c)) with (a * (x - minR l)) by ring. field. lra.
Qed.

(** and normalising twice is normalising once *)
Theorem C51_idempotent : forall l n, varied l -> normalize_0_1 l = Ok n -> normalize_0_1 n = Ok n.
Proof.
  intros l n V E. pose proof E as E0. rewrite (normalize_ok l V) in E. injection E as <-. destruct (varied_range l V) as [NE L].
  assert (P : 0 < / (maxR l - minR l)) by (apply Rinv_0_lt_compat; lra).
  pose proof (C51_affine_invariant l (/ (maxR l - minR l)) (- (minR l / (maxR l - minR l))) V P) as A.
  rewrite E0 in A. rewrite <- A. f_equal. apply map_ext. intros x. field. lra.
Qed.

(** each column of a 2-D array is treated on its own *)
Theorem C51_columns : forall cols ns, normalize_0_1_cols cols = Ok ns -> length ns = length cols /\
  forall i, (i < length cols)%nat -> normalize_0_1 (nth i cols []) = Ok (nth i ns []).
Proof.
  intros cols. unfold normalize_0_1_cols. induction cols as [|c r IH]; intros ns E; cbn [mapM] in E.
  - injection E as <-. split; [reflexivity|]. intros i Hi. inversion Hi.
  - apply bind_ok in E. destruct E as (y & Ey & E). apply bind_ok in E. destruct E as (ys & Eys & E). injection E as <-.
    destruct (IH ys Eys) as [L N]. split; [simpl; rewrite L; reflexivity|]. intros [|i] Hi; [exact Ey|]. simpl. apply N. simpl in Hi. lia.
Qed.

(** constant data cannot be normalised: 0/0; no data at all is refused *)
Theorem C51_constant_refuted : forall l, l <> [] -> (forall x y, In x l -> In y l -> x = y) -> normalize_0_1 l = NonFinite.
Proof.
  intros l NE H. unfold normalize_0_1. destruct l as [|x r]; [congruence|].
  assert (E : maxR (x :: r) - minR (x :: r) = 0).
  { rewrite (H (maxR (x :: r)) (minR (x :: r))); [lra|apply maxR_spec; discriminate|apply minR_spec; discriminate]. }
  cbn [mapM]. unfold np_div at 1. rewrite E. destruct (Req_EM_T 0 0); [reflexivity|congruence].
Qed.
Theorem C51_empty_rejected : normalize_0_1 [] = Raise ValueError.
Proof. reflexivity. Qed.
Example C51_example : varied [3; 3; 5; 4] /\ normalize_0_1 [3; 3; 5; 4] = Ok [0; 0; 1; 1 / 2].
Proof.
  assert (V : varied [3; 3; 5; 4]) by (exists 3, 5; simpl; intuition lra). split; [exact V|]. rewrite (normalize_ok _ V).
  assert (N : minR [3; 3; 5; 4] = 3). { destruct (minR_spec [3; 3; 5; 4] ltac:(discriminate)) as [[E|[E|[E|[E|[]]]]] B]; rewrite <- E in *; try reflexivity; specialize (B 3 ltac:(simpl; auto)); lra. }
  assert (X : maxR [3; 3; 5; 4] = 5). { destruct (maxR_spec [3; 3; 5; 4] ltac:(discriminate)) as [[E|[E|[E|[E|[]]]]] B]; rewrite <- E in *; try reflexivity; specialize (B 5 ltac:(simpl; auto)); lra. }
  rewrite N, X. cbn [map]. repeat f_equal; lra.
Qed.
