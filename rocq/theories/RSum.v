(** Finite sums of reals over lists and elementary logarithm inequalities. *)
From Coq Require Import Reals Lra Lia List Permutation.
Import ListNotations.
Local Open Scope R_scope.

Fixpoint sumf {A} (f : A -> R) (l : list A) : R :=
  match l with
  | [] => 0
  | x :: xs => f x + sumf f xs
  end.

Definition sumR (l : list R) : R := sumf (fun x => x) l.

(** indicator of a decided proposition *)
Definition ind (b : bool) : R := if b then 1 else 0.

Section Sums.
Context {A : Type}.
Implicit Types (f g : A -> R) (l : list A).

Lemma sumf_ext f g l : (forall x, In x l -> f x = g x) -> sumf f l = sumf g l.
Proof.
  induction l as [|x xs IH]; intros H; simpl; [reflexivity|].
  rewrite (H x) by (left; reflexivity).
  rewrite IH by (intros y Hy; apply H; right; exact Hy). reflexivity.
Qed.

Lemma sumf_app f l1 l2 : sumf f (l1 ++ l2) = sumf f l1 + sumf f l2.
Proof. induction l1 as [|x xs IH]; simpl; [lra | rewrite IH; lra]. Qed.

Lemma sumf_plus f g l : sumf (fun x => f x + g x) l = sumf f l + sumf g l.
Proof. induction l as [|x xs IH]; simpl; [lra | rewrite IH; lra]. Qed.

Lemma sumf_minus f g l : sumf (fun x => f x - g x) l = sumf f l - sumf g l.
Proof. induction l as [|x xs IH]; simpl; [lra | rewrite IH; lra]. Qed.

Lemma sumf_opp f l : sumf (fun x => - f x) l = - sumf f l.
Proof. induction l as [|x xs IH]; simpl; [lra | rewrite IH; lra]. Qed.

Lemma sumf_scal c f l : sumf (fun x => c * f x) l = c * sumf f l.
Proof. induction l as [|x xs IH]; simpl; [lra | rewrite IH; lra]. Qed.

Lemma sumf_scal_r c f l : sumf (fun x => f x * c) l = sumf f l * c.
Proof. induction l as [|x xs IH]; simpl; [lra | rewrite IH; lra]. Qed.

Lemma sumf_div c f l : sumf (fun x => f x / c) l = sumf f l / c.
Proof. unfold Rdiv. apply sumf_scal_r. Qed.

Lemma sumf_const c l : sumf (fun _ => c) l = INR (length l) * c.
Proof.
  induction l as [|x xs IH]; [simpl; lra|].
  cbn [sumf length]. rewrite IH, S_INR. lra.
Qed.

Lemma sumf_zero l : sumf (fun _ => 0) l = 0.
Proof. rewrite sumf_const. lra. Qed.

Lemma sumf_le f g l : (forall x, In x l -> f x <= g x) -> sumf f l <= sumf g l.
Proof.
  induction l as [|x xs IH]; intros H; simpl; [lra|].
  pose proof (H x (or_introl eq_refl)).
  assert (sumf f xs <= sumf g xs) by (apply IH; intros y Hy; apply H; right; exact Hy). lra.
Qed.

Lemma sumf_nonneg f l : (forall x, In x l -> 0 <= f x) -> 0 <= sumf f l.
Proof. intros H. rewrite <- (sumf_zero l). apply sumf_le. exact H. Qed.

Lemma sumf_pos f l : l <> [] -> (forall x, In x l -> 0 < f x) -> 0 < sumf f l.
Proof.
  destruct l as [|x xs]; [congruence|]. intros _ H. cbn [sumf].
  pose proof (H x (or_introl eq_refl)).
  assert (0 <= sumf f xs).
  { apply sumf_nonneg. intros y Hy. left. apply H. right. exact Hy. } lra.
Qed.

(** a sum of non-negative terms vanishes only if every term does *)
Lemma sumf_zero_all f l :
  (forall x, In x l -> 0 <= f x) -> sumf f l = 0 -> forall x, In x l -> f x = 0.
Proof.
  induction l as [|a xs IH]; intros H E x Hx; [destruct Hx|].
  cbn [sumf] in E.
  assert (0 <= f a) by (apply H; left; reflexivity).
  assert (0 <= sumf f xs) by (apply sumf_nonneg; intros y Hy; apply H; right; exact Hy).
  destruct Hx as [<-|Hx]; [lra|].
  apply IH; auto; [intros y Hy; apply H; right; exact Hy | lra].
Qed.

Lemma sumf_perm f l1 l2 : Permutation l1 l2 -> sumf f l1 = sumf f l2.
Proof. induction 1; simpl; lra. Qed.

Lemma sumf_In_le f l x : (forall y, In y l -> 0 <= f y) -> In x l -> f x <= sumf f l.
Proof.
  induction l as [|a xs IH]; intros H Hx; [destruct Hx|]. cbn [sumf].
  assert (0 <= f a) by (apply H; left; reflexivity).
  assert (0 <= sumf f xs) by (apply sumf_nonneg; intros y Hy; apply H; right; exact Hy).
  destruct Hx as [<-|Hx]; [lra|].
  assert (f x <= sumf f xs) by (apply IH; auto; intros y Hy; apply H; right; exact Hy). lra.
Qed.

Lemma sumf_INR (h : A -> nat) l :
  sumf (fun x => INR (h x)) l = INR (fold_right (fun x s => h x + s)%nat 0%nat l).
Proof.
  induction l as [|x xs IH]; [reflexivity|].
  cbn [sumf fold_right]. rewrite IH, plus_INR. reflexivity.
Qed.

Lemma sumf_filter f (p : A -> bool) l :
  sumf f (filter p l) = sumf (fun x => ind (p x) * f x) l.
Proof.
  induction l as [|x xs IH]; simpl; [reflexivity|].
  destruct (p x); simpl; rewrite IH; unfold ind; lra.
Qed.

Lemma sumf_ind_length (p : A -> bool) l :
  sumf (fun x => ind (p x)) l = INR (length (filter p l)).
Proof.
  induction l as [|x xs IH]; [reflexivity|].
  cbn [sumf filter]. rewrite IH. destruct (p x); [|unfold ind; lra].
  cbn [length]. rewrite S_INR. unfold ind. lra.
Qed.

Lemma sumf_sumR f l : sumf f l = sumR (map f l).
Proof. unfold sumR. induction l as [|x xs IH]; simpl; [reflexivity | rewrite IH; reflexivity]. Qed.

End Sums.

Lemma sumf_map {A B} (h : A -> B) (f : B -> R) (l : list A) :
  sumf f (map h l) = sumf (fun x => f (h x)) l.
Proof. induction l as [|x xs IH]; simpl; [reflexivity | rewrite IH; reflexivity]. Qed.

Lemma sumf_swap {A B} (f : A -> B -> R) (l : list A) (m : list B) :
  sumf (fun a => sumf (fun b => f a b) m) l = sumf (fun b => sumf (fun a => f a b) l) m.
Proof.
  induction l as [|x xs IH]; simpl; [rewrite sumf_zero; reflexivity|].
  rewrite IH, sumf_plus. reflexivity.
Qed.

Lemma sumR_app l1 l2 : sumR (l1 ++ l2) = sumR l1 + sumR l2.
Proof. apply sumf_app. Qed.

Lemma ind_true : ind true = 1. Proof. reflexivity. Qed.
Lemma ind_false : ind false = 0. Proof. reflexivity. Qed.
Lemma ind_bounds b : 0 <= ind b <= 1. Proof. destruct b; unfold ind; lra. Qed.
Lemma ind_andb a b : ind (a && b) = ind a * ind b.
Proof. destruct a, b; unfold ind; simpl; lra. Qed.

(** ** Logarithms *)
Lemma ln_le_sub1 x : 0 < x -> ln x <= x - 1.
Proof.
  intros H. pose proof (exp_ineq1_le (ln x)). rewrite exp_ln in H0 by exact H. lra.
Qed.

Lemma ln_lt_sub1 x : 0 < x -> x <> 1 -> ln x < x - 1.
Proof.
  intros H N.
  assert (ln x <> 0). { intros E. apply N. rewrite <- (exp_ln x H), E. apply exp_0. }
  pose proof (exp_ineq1 _ H0). rewrite exp_ln in H1 by exact H. lra.
Qed.

Lemma ln_div x y : 0 < x -> 0 < y -> ln (x / y) = ln x - ln y.
Proof.
  intros Hx Hy. unfold Rdiv. rewrite ln_mult by (auto; apply Rinv_0_lt_compat; exact Hy).
  rewrite ln_Rinv by exact Hy. lra.
Qed.

Lemma ln_ge_1inv t : 0 < t -> 1 - / t <= ln t.
Proof.
  intros H. pose proof (ln_le_sub1 (/ t) (Rinv_0_lt_compat _ H)).
  rewrite ln_Rinv in H0 by exact H. lra.
Qed.

Lemma ln_gt_1inv t : 0 < t -> t <> 1 -> 1 - / t < ln t.
Proof.
  intros H N.
  assert (/ t <> 1). { intros E. apply N. rewrite <- (Rinv_inv t), E. apply Rinv_1. }
  pose proof (ln_lt_sub1 (/ t) (Rinv_0_lt_compat _ H) H0).
  rewrite ln_Rinv in H1 by exact H. lra.
Qed.

Lemma ln_nonneg x : 1 <= x -> 0 <= ln x.
Proof.
  intros H. destruct (Req_dec x 1) as [->|N]; [rewrite ln_1; lra|].
  rewrite <- ln_1. left. apply ln_increasing; lra.
Qed.

Lemma ln_nonpos x : 0 < x <= 1 -> ln x <= 0.
Proof. intros [H0 H1]. pose proof (ln_le_sub1 x H0). lra. Qed.

Lemma ln_monotone x y : 0 < x -> x <= y -> ln x <= ln y.
Proof. intros H [L|<-]; [left; apply ln_increasing; assumption | lra]. Qed.

Lemma ln_neq0 b : 0 < b -> b <> 1 -> ln b <> 0.
Proof. intros H N E. apply N. rewrite <- (exp_ln b H), E. apply exp_0. Qed.

Lemma ln_pos b : 1 < b -> 0 < ln b.
Proof. intros H. rewrite <- ln_1. apply ln_increasing; lra. Qed.

Lemma INR_pos n : (0 < n)%nat -> 0 < INR n.
Proof. intros H. apply lt_0_INR. exact H. Qed.

Lemma INR_ge1 n : (0 < n)%nat -> 1 <= INR n.
Proof. intros H. change 1 with (INR 1). apply le_INR. lia. Qed.
