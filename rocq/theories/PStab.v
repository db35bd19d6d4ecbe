(** Proofs: the plug-in entropy under changes of single sample points. *)
From Coq Require Import Reals List ZArith Arith Bool Lia Lra Permutation.
From Verif Require Import Res RSum Spec SpecBase Info Info2 PBase PEst4 SpecStab.
Import ListNotations.
Local Open Scope R_scope.

(** n ln n, with 0 at 0 *)
Definition nlogn (n : nat) : R := INR n * ln (INR n).
Lemma nlogn_0 : nlogn 0 = 0. Proof. unfold nlogn. simpl. lra. Qed.
Lemma nlogn_1 : nlogn 1 = 0. Proof. unfold nlogn. simpl. rewrite ln_1. lra. Qed.

Lemma nlogn_step n : 0 <= nlogn (S n) - nlogn n <= 1 + ln (INR (S n)).
Proof.
  destruct n as [|n].
  - rewrite nlogn_0, nlogn_1. simpl. rewrite ln_1. lra.
  - unfold nlogn. set (m := S n). assert (M : 0 < INR m) by (apply lt_0_INR; unfold m; lia).
    assert (M1 : 1 <= INR m) by (apply (le_INR 1); unfold m; lia).
    rewrite (S_INR m).
    assert (L0 : 0 <= ln (INR m)) by (rewrite <- ln_1; apply ln_monotone; lra).
    assert (L1 : ln (INR m) <= ln (INR m + 1)) by (apply ln_monotone; lra).
    assert (L2 : ln (INR m + 1) - ln (INR m) <= / INR m).
    { rewrite <- ln_div by lra. replace ((INR m + 1) / INR m) with (1 + / INR m) by (field; lra).
      pose proof (Rinv_0_lt_compat _ M).
      pose proof (exp_ineq1 (/ INR m) ltac:(lra)) as X.
      apply Rlt_le. rewrite <- (ln_exp (/ INR m)) at 2. apply ln_increasing; lra. }
    split; [nra|].
    assert (INR m * (ln (INR m + 1) - ln (INR m)) <= 1).
    { apply Rle_trans with (INR m * / INR m); [apply Rmult_le_compat_l; lra|]. rewrite Rinv_r by lra. lra. }
    nra.
Qed.

Lemma sumf_cons {A} (f : A -> R) a l : sumf f (a :: l) = f a + sumf f l.
Proof. reflexivity. Qed.

Section Stab.
Context {A : Type} `{EqDec A}.

(** Σ n_v ln n_v over the occurring values *)
Definition sl (l : list A) : R := sumf (fun v => nlogn (count l v)) (distinct l).

Lemma count_cons (a : A) l v : count (a :: l) v = ((if eq_dec a v then 1 else 0) + count l v)%nat.
Proof. unfold count. simpl. destruct (eq_dec a v); reflexivity. Qed.

Lemma sumf_change (f g : A -> R) (a : A) U : NoDup U -> In a U -> (forall v, v <> a -> f v = g v) ->
  sumf f U = sumf g U + (f a - g a).
Proof.
  intros ND. induction U as [|u U IH]; intros I0 E; [destruct I0|].
  rewrite !sumf_cons. inversion ND as [|? ? N1 N2]; subst. destruct I0 as [->|I0].
  - rewrite (sumf_ext f g U); [lra|]. intros v Hv. apply E. intros ->. exact (N1 Hv).
  - rewrite (E u); [rewrite (IH N2 I0 E); lra|]. intros ->. exact (N1 I0).
Qed.

Lemma sl_cons a l : sl (a :: l) = sl l + (nlogn (S (count l a)) - nlogn (count l a)).
Proof.
  unfold sl, distinct. cbn [nodup]. destruct (in_dec eq_dec a l) as [I0|N0].
  - rewrite (sumf_change (fun v => nlogn (count (a :: l) v)) (fun v => nlogn (count l v)) a).
    + rewrite (count_cons a l a). destruct (eq_dec a a) as [_|Q]; [reflexivity|congruence].
    + apply NoDup_nodup.
    + apply nodup_In. exact I0.
    + intros v Hv. rewrite count_cons. destruct (eq_dec a v) as [->|_]; [congruence|reflexivity].
  - rewrite sumf_cons. rewrite (sumf_ext (fun v => nlogn (count (a :: l) v)) (fun v => nlogn (count l v))).
    + rewrite (count_cons a l a). destruct (eq_dec a a) as [_|Q]; [|congruence].
      assert (Z0 : count l a = 0%nat) by (unfold count; apply count_occ_not_In; exact N0).
      rewrite Z0, nlogn_0. simpl. lra.
    + intros v Hv. apply nodup_In in Hv. rewrite count_cons. destruct (eq_dec a v) as [->|_]; [contradiction|reflexivity].
Qed.

Lemma count_le_len l (v : A) : (count l v <= length l)%nat.
Proof. unfold count. apply count_occ_bound. Qed.

Lemma sl_step a l : 0 <= sl (a :: l) - sl l <= 1 + ln (INR (S (length l))).
Proof.
  rewrite sl_cons. pose proof (nlogn_step (count l a)) as [P Q].
  assert (L : ln (INR (S (count l a))) <= ln (INR (S (length l)))).
  { apply ln_monotone; [apply lt_0_INR; lia|]. apply le_INR. pose proof (count_le_len l a). lia. }
  lra.
Qed.

Lemma Ent_sl l : l <> [] -> Ent l = ln (INR (length l)) - sl l / INR (length l).
Proof.
  intros NE. assert (N : 0 < INR (length l)) by (apply lt_0_INR; destruct l; [congruence|simpl; lia]).
  unfold Ent, sl.
  rewrite (sumf_ext _ (fun v => nlogn (count l v) * / INR (length l) - INR (count l v) * (ln (INR (length l)) / INR (length l)))).
  - rewrite (sumf_minus (fun v => nlogn (count l v) * / INR (length l))), (sumf_scal_r _ (fun v => nlogn (count l v))), (sumf_scal_r _ (fun v => INR (count l v))).
    assert (T : sumf (fun v => INR (count l v)) (distinct l) = INR (length l)).
    { pose proof (prob_sum_distinct l NE) as P. unfold prob in P.
      rewrite (sumf_ext _ (fun v => INR (count l v) * / INR (length l))) in P by (intros; reflexivity).
      rewrite (sumf_scal_r _ (fun v => INR (count l v))) in P. apply (Rmult_eq_reg_r (/ INR (length l))); [rewrite P, Rinv_r; lra|].
      apply Rinv_neq_0_compat. lra. }
    rewrite T. unfold Rdiv. field. lra.
  - intros v Hv. apply nodup_In in Hv. unfold prob, nlogn.
    assert (C : 0 < INR (count l v)) by (apply lt_0_INR, (count_occ_In eq_dec); exact Hv).
    rewrite ln_div by assumption. field. lra.
Qed.

Lemma sl_perm l l' : Permutation l l' -> sl l = sl l'.
Proof.
  intros P. destruct l as [|x l]; [apply Permutation_nil in P; subst; reflexivity|].
  assert (NE' : l' <> []) by (intros ->; apply Permutation_sym, Permutation_nil in P; congruence).
  pose proof (Ent_perm _ _ P) as E. rewrite !Ent_sl in E by (congruence || assumption).
  rewrite <- (Permutation_length P) in E.
  assert (N : 0 < INR (length (x :: l))) by (apply lt_0_INR; simpl; lia).
  apply (Rmult_eq_reg_r (/ INR (length (x :: l)))); [unfold Rdiv in E; lra|]. apply Rinv_neq_0_compat. lra.
Qed.

Lemma sl_replace pre a b l : Rabs (sl (pre ++ a :: l) - sl (pre ++ b :: l)) <= 1 + ln (INR (length (pre ++ a :: l))).
Proof.
  rewrite <- (sl_perm _ _ (Permutation_middle pre l a)), <- (sl_perm _ _ (Permutation_middle pre l b)).
  replace (length (pre ++ a :: l)) with (S (length (pre ++ l))) by (rewrite !app_length; simpl; lia).
  pose proof (sl_step a (pre ++ l)). pose proof (sl_step b (pre ++ l)). apply Rabs_le. lra.
Qed.

Lemma sl_changed xs : forall pre ys, length xs = length ys ->
  Rabs (sl (pre ++ xs) - sl (pre ++ ys)) <= INR (changed xs ys) * (1 + ln (INR (length (pre ++ xs)))).
Proof.
  induction xs as [|x xs IH]; intros pre [|y ys] L; try discriminate L.
  - simpl. rewrite Rminus_diag_eq, Rabs_R0 by reflexivity. lra.
  - cbn [changed]. injection L as L. specialize (IH (pre ++ [y]) ys L). rewrite <- !app_assoc in IH. cbn [app] in IH.
    replace (length (pre ++ y :: xs)) with (length (pre ++ x :: xs)) in IH by (rewrite !app_length; reflexivity).
    destruct (eq_dec x y) as [->|N].
    + exact IH.
    + rewrite plus_INR. change (INR 1) with 1. pose proof (sl_replace pre x y xs) as R1.
      replace (sl (pre ++ x :: xs) - sl (pre ++ y :: ys)) with
        ((sl (pre ++ x :: xs) - sl (pre ++ y :: xs)) + (sl (pre ++ y :: xs) - sl (pre ++ y :: ys))) by lra.
      eapply Rle_trans; [apply Rabs_triang|]. lra.
Qed.

Lemma Ent_changed xs ys : length xs = length ys ->
  Rabs (Ent xs - Ent ys) <= INR (changed xs ys) * one_change (length xs).
Proof.
  intros L. destruct xs as [|x xs].
  { destruct ys; [|discriminate L]. rewrite Rminus_diag_eq, Rabs_R0 by reflexivity. simpl. lra. }
  assert (NE : ys <> []) by (intros ->; discriminate L).
  rewrite (Ent_sl (x :: xs)), (Ent_sl ys), <- L by (congruence || assumption). unfold one_change.
  pose proof (sl_changed (x :: xs) [] ys L) as B. cbn [app] in B.
  set (n := length (x :: xs)) in *. assert (N : 0 < INR n) by (apply lt_0_INR; unfold n; simpl; lia).
  replace (ln (INR n) - sl (x :: xs) / INR n - (ln (INR n) - sl ys / INR n)) with (- ((sl (x :: xs) - sl ys) / INR n)) by (field; lra).
  rewrite Rabs_Ropp. unfold Rdiv. rewrite Rabs_mult, (Rabs_right (/ INR n)) by (apply Rle_ge, Rlt_le, Rinv_0_lt_compat; lra).
  rewrite <- Rmult_assoc. apply Rmult_le_compat_r; [apply Rlt_le, Rinv_0_lt_compat; lra|exact B].
Qed.

(** one more sample point *)
Lemma Ent_append a l : l <> [] -> Rabs (Ent (a :: l) - Ent l) <= (1 + ln (INR (S (length l)))) / INR (length l).
Proof.
  intros NE. pose proof (Ent_sl (a :: l) ltac:(congruence)) as E1. pose proof (Ent_sl l NE) as E0.
  pose proof (sl_step a l) as St. pose proof (Ent_nonneg l) as P0.
  assert (P1 : Ent l <= ln (INR (length l))).
  { pose proof (Ent_le_lnK l NE). pose proof (distinct_length_pos l NE). pose proof (distinct_length_le l).
    eapply Rle_trans; [eassumption|]. apply ln_monotone; [apply lt_0_INR; lia|apply le_INR; lia]. }
  cbn [length] in E1. set (n := length l) in *.
  assert (N1 : 1 <= INR n) by (apply (le_INR 1); unfold n; destruct l; [congruence|simpl; lia]).
  rewrite S_INR in *. set (N := INR n) in *.
  assert (L2 : ln (N + 1) - ln N <= / N).
  { rewrite <- ln_div by lra. replace ((N + 1) / N) with (1 + / N) by (field; lra).
    pose proof (Rinv_0_lt_compat N ltac:(lra)). pose proof (exp_ineq1 (/ N) ltac:(lra)) as X.
    apply Rlt_le. rewrite <- (ln_exp (/ N)) at 2. apply ln_increasing; lra. }
  assert (L1 : ln N <= ln (N + 1)) by (apply ln_monotone; lra).
  assert (L0 : 0 <= ln N) by (rewrite <- ln_1; apply ln_monotone; lra).
  set (d := sl (a :: l) - sl l) in *.
  assert (S0 : sl l = N * (ln N - Ent l)) by (rewrite E0; field; lra).
  assert (S1 : sl (a :: l) = N * (ln N - Ent l) + d) by (unfold d; lra).
  rewrite S1 in E1. set (h := Ent l) in *. set (h' := Ent (a :: l)) in *. clearbody d h h'. clear E0 S0 S1.
  assert (D : h' - h = (ln (N + 1) - ln N) + (ln N - h) / (N + 1) - d / (N + 1)) by (rewrite E1; field; lra).
  assert (I0 : 0 < / (N + 1)) by (apply Rinv_0_lt_compat; lra).
  assert (I1 : / (N + 1) <= / N) by (apply Rinv_le_contravar; lra).
  rewrite D. unfold Rdiv. apply Rabs_le.
  set (u := / (N + 1)) in *. set (w := / N) in *. set (a0 := ln (N + 1)) in *. set (b0 := ln N) in *. clearbody u w a0 b0. clear D E1.
  split; nra.
Qed.
End Stab.

(** ** Number of distinct values *)
Section Distinct.
Context {A : Type} `{EqDec A}.
Lemma nvals_step (a : A) l : (length (distinct l) <= length (distinct (a :: l)) <= S (length (distinct l)))%nat.
Proof. unfold distinct. cbn [nodup]. destruct (in_dec eq_dec a l); simpl; lia. Qed.
Lemma nvals_perm (l l' : list A) : Permutation l l' -> length (distinct l) = length (distinct l').
Proof.
  intros P. apply Permutation_length, NoDup_Permutation; [apply NoDup_nodup|apply NoDup_nodup|].
  intros x. unfold distinct. rewrite !nodup_In. split; apply Permutation_in; [|apply Permutation_sym]; exact P.
Qed.
Lemma nvals_changed (xs : list A) : forall pre ys, length xs = length ys ->
  Rabs (INR (length (distinct (pre ++ xs))) - INR (length (distinct (pre ++ ys)))) <= INR (changed xs ys).
Proof.
  induction xs as [|x xs IH]; intros pre [|y ys] L; try discriminate L.
  - rewrite Rminus_diag_eq, Rabs_R0 by reflexivity. apply pos_INR.
  - cbn [changed]. injection L as L. specialize (IH (pre ++ [y]) ys L). rewrite <- !app_assoc in IH. cbn [app] in IH.
    destruct (eq_dec x y) as [->|N]; [exact IH|]. rewrite plus_INR. change (INR 1) with 1.
    assert (Q : Rabs (INR (length (distinct (pre ++ x :: xs))) - INR (length (distinct (pre ++ y :: xs)))) <= 1).
    { rewrite <- (nvals_perm _ _ (Permutation_middle pre xs x)), <- (nvals_perm _ _ (Permutation_middle pre xs y)).
      pose proof (nvals_step x (pre ++ xs)) as [P1 P2]. pose proof (nvals_step y (pre ++ xs)) as [P3 P4].
      apply le_INR in P1, P2, P3, P4. rewrite S_INR in P2, P4. apply Rabs_le. lra. }
    replace (INR (length (distinct (pre ++ x :: xs))) - INR (length (distinct (pre ++ y :: ys)))) with
      ((INR (length (distinct (pre ++ x :: xs))) - INR (length (distinct (pre ++ y :: xs))))
       + (INR (length (distinct (pre ++ y :: xs))) - INR (length (distinct (pre ++ y :: ys))))) by lra.
    eapply Rle_trans; [apply Rabs_triang|]. lra.
Qed.
End Distinct.

(** ** Counting changed entries *)
Lemma changed_map {A B} `{EqDec A} `{EqDec B} (f : A -> B) l : forall l', (changed (map f l) (map f l') <= changed l l')%nat.
Proof.
  induction l as [|x l IH]; intros [|y l']; cbn [map changed]; try lia. specialize (IH l').
  destruct (eq_dec x y) as [->|N]; [destruct (eq_dec (f y) (f y)) as [_|Q]; [lia|congruence]|].
  destruct (eq_dec (f x) (f y)); lia.
Qed.
Lemma changed_refl {A} `{EqDec A} (l : list A) : changed l l = 0%nat.
Proof. induction l as [|x l IH]; [reflexivity|]. cbn [changed]. rewrite IH. destruct (eq_dec x x); [reflexivity|congruence]. Qed.

(** entries of [ts] at which two functions differ *)
Definition diff {A} `{EqDec A} (f g : nat -> A) (ts : list nat) : list nat :=
  filter (fun t => if eq_dec (f t) (g t) then false else true) ts.
Lemma changed_diff {A} `{EqDec A} (f g : nat -> A) ts : changed (map f ts) (map g ts) = length (diff f g ts).
Proof.
  induction ts as [|t ts IH]; [reflexivity|]. unfold diff in *. cbn [map changed filter]. rewrite IH.
  destruct (eq_dec (f t) (g t)); reflexivity.
Qed.
Lemma diff_op {A B C} `{EqDec A} `{EqDec B} `{EqDec C} (c : A -> B -> C) f f' g g' ts :
  (length (diff (fun t => c (f t) (g t)) (fun t => c (f' t) (g' t)) ts) <= length (diff f f' ts) + length (diff g g' ts))%nat.
Proof.
  induction ts as [|t ts IH]; [simpl; lia|]. unfold diff in *. cbn [filter].
  destruct (eq_dec (c (f t) (g t)) (c (f' t) (g' t))) as [Q|Q];
    destruct (eq_dec (f t) (f' t)) as [Q1|Q1]; destruct (eq_dec (g t) (g' t)) as [Q2|Q2]; cbn [length]; try lia.
  exfalso. apply Q. rewrite Q1, Q2. reflexivity.
Qed.
Lemma diff_ext {A} `{EqDec A} (f f' g g' : nat -> A) ts : (forall t, In t ts -> f t = f' t /\ g t = g' t) ->
  diff f g ts = diff f' g' ts.
Proof. intros E. apply filter_ext_in. intros t Ht. destruct (E t Ht) as [-> ->]. reflexivity. Qed.
Lemma diff_refl {A} `{EqDec A} (f : nat -> A) ts : diff f f ts = [].
Proof. induction ts as [|t ts IH]; [reflexivity|]. unfold diff in *. cbn [filter]. destruct (eq_dec (f t) (f t)); [exact IH|congruence]. Qed.
Lemma diff_list {A} `{EqDec A} (F G : nat -> nat -> A) ts m js :
  (forall j, In j js -> (length (diff (fun t => F t j) (fun t => G t j) ts) <= m)%nat) ->
  (length (diff (fun t => map (F t) js) (fun t => map (G t) js) ts) <= length js * m)%nat.
Proof.
  induction js as [|j js IH]; intros B.
  - cbn [map]. rewrite diff_refl. simpl. lia.
  - cbn [map length]. pose proof (diff_op (@cons A) (fun t => F t j) (fun t => G t j) (fun t => map (F t) js) (fun t => map (G t) js) ts).
    specialize (IH (fun j' Hj => B j' (or_intror Hj))). specialize (B j (or_introl eq_refl)). lia.
Qed.
Lemma changed_seq {A} `{EqDec A} (d : A) xs ys : length xs = length ys ->
  changed xs ys = length (diff (fun t => nth t xs d) (fun t => nth t ys d) (seq 0 (length xs))).
Proof.
  intros L. rewrite <- changed_diff. rewrite <- (list_as_map d xs (length xs) eq_refl).
  rewrite <- (list_as_map d ys (length xs) (eq_sym L)). reflexivity.
Qed.
Lemma diff_shift {A} `{EqDec A} (d : A) xs ys c ts : length xs = length ys -> NoDup ts ->
  (forall t, In t ts -> (c <= t < length xs + c)%nat) ->
  (length (diff (fun t => nth (t - c) xs d) (fun t => nth (t - c) ys d) ts) <= changed xs ys)%nat.
Proof.
  intros L ND B. rewrite (changed_seq d xs ys L).
  rewrite <- (map_length (fun t => t - c)%nat). apply NoDup_incl_length.
  - assert (Hin : forall t, In t (diff (fun t => nth (t - c) xs d) (fun t => nth (t - c) ys d) ts) -> In t ts)
      by (intros t Ht; apply filter_In in Ht; tauto).
    assert (ND' : NoDup (diff (fun t => nth (t - c) xs d) (fun t => nth (t - c) ys d) ts)) by (apply NoDup_filter; exact ND).
    induction ND' as [|t r N1 N2 IH]; [constructor|]. cbn [map]. constructor.
    + intros Hx. apply in_map_iff in Hx. destruct Hx as (u & E & Hu).
      pose proof (B _ (Hin t (or_introl eq_refl))). pose proof (B _ (Hin u (or_intror Hu))).
      assert (u = t) by lia. subst. contradiction.
    + apply IH. intros u Hu. apply Hin. right. exact Hu.
  - intros u Hu. apply in_map_iff in Hu. destruct Hu as (t & <- & Ht). apply filter_In in Ht. destruct Ht as [Ht Hd].
    apply filter_In. split; [|exact Hd]. apply in_seq. specialize (B t Ht). lia.
Qed.
