(** Proofs: the conditional entropy is the best logarithmic loss. *)
From Coq Require Import Reals Lra Lia List ZArith Arith Bool Permutation.
From Verif Require Import Res RSum Spec SpecBase SpecDiv SpecPool SpecPinsker SpecPredict SpecEst Info Info2 Gibbs PBase PEst4 PDiv PDiv2 PStab PropsDiv PPool PCoarse PPinsker.
Import ListNotations.
Local Open Scope R_scope.

Lemma sum_sub {T} (f : T -> R) (U V : list T) : NoDup U -> incl U V -> (forall v, 0 <= f v) -> sumf f U <= sumf f V.
Proof.
  intros ND. revert V. induction ND as [|u U Nu ND IH]; intros V I0 P; [apply sumf_nonneg; intros; apply P|].
  destruct (in_split u V (I0 u (or_introl eq_refl))) as (V1 & V2 & ->).
  rewrite sumf_app. cbn [sumf]. assert (L : sumf f U <= sumf f (V1 ++ V2)).
  { apply IH; [|exact P]. intros v Hv. specialize (I0 v (or_intror Hv)). apply in_app_or in I0. apply in_or_app. destruct I0 as [J|[J|J]]; auto. subst. contradiction. }
  rewrite sumf_app in L. lra.
Qed.
Lemma sum_prod {T U} (f : T -> U -> R) (xs : list T) (ys : list U) : sumf (fun p => f (fst p) (snd p)) (list_prod xs ys) = sumf (fun x => sumf (f x) ys) xs.
Proof. induction xs as [|x xs IH]; [reflexivity|]. cbn [list_prod sumf]. rewrite sumf_app, IH, sumf_map. reflexivity. Qed.

Section Predict.
Context {C A : Type} `{EqDec C} `{EqDec A}.

Lemma sum_second (cs : list C) (xs : list A) c U : length cs = length xs -> NoDup U -> incl xs U ->
  sumf (fun x => INR (count (combine cs xs) (c, x))) U = INR (count cs c).
Proof.
  intros L ND. revert xs L. induction cs as [|a cs IH]; intros [|x xs] L I0; try discriminate.
  - simpl. rewrite sumf_zero. reflexivity.
  - cbn [combine]. rewrite count_cons. assert (IH' := IH xs ltac:(simpl in L; lia) (fun v Hv => I0 v (or_intror Hv))).
    rewrite (sumf_ext _ (fun x0 => (if eq_dec (a, x) (c, x0) then 1 else 0) + INR (count (combine cs xs) (c, x0)))).
    2:{ intros v _. rewrite count_cons, plus_INR. destruct (eq_dec (a, x) (c, v)); simpl; ring. }
    rewrite sumf_plus, IH', plus_INR. f_equal.
    assert (Hx : In x U) by (apply I0; left; reflexivity). clear -ND Hx.
    induction ND as [|u U Nu ND IHU]; [destruct Hx|]. cbn [sumf].
    destruct Hx as [<-|Hx].
    + rewrite (sumf_ext _ (fun _ => 0)), sumf_zero.
      * destruct (eq_dec (a, u) (c, u)), (eq_dec a c); simpl; try lra; congruence.
      * intros v Hv. destruct (eq_dec (a, u) (c, v)) as [E|_]; [|reflexivity]. assert (u = v) by congruence. subst. contradiction.
    + rewrite (IHU Hx). destruct (eq_dec (a, x) (c, u)) as [E|_]; [|ring]. assert (x = u) by congruence. subst. contradiction.
Qed.

Definition q0 (cs : list C) (xs : list A) (c : C) (x : A) : R := INR (count (combine cs xs) (c, x)) / INR (count cs c).

Lemma q0_pos cs xs c x : In (c, x) (combine cs xs) -> 0 < q0 cs xs c x.
Proof. intros J. unfold q0. apply Rdiv_lt_0_compat; apply count_pos_in; [exact J|apply (in_combine_l _ _ _ _ J)]. Qed.
Lemma q0_nonneg cs xs c x : 0 <= q0 cs xs c x.
Proof.
  unfold q0. destruct (count cs c) eqn:E.
  - assert (Z : count (combine cs xs) (c, x) = 0%nat) by (pose proof (count_fst_ge cs xs c x); lia). rewrite Z. simpl. unfold Rdiv. lra.
  - apply Rmult_le_pos; [apply pos_INR|]. left. apply Rinv_0_lt_compat, INR_pos. lia.
Qed.
Lemma q0_predictor (cs : list C) (xs : list A) : length cs = length xs -> predictor cs xs (q0 cs xs).
Proof.
  intros L. split; [apply q0_nonneg|]. split; [|apply q0_pos]. intros c Hc. right. unfold q0. rewrite sumf_div.
  rewrite sum_second; [|exact L|apply NoDup_nodup|intros v Hv; apply nodup_In; exact Hv].
  pose proof (count_pos_in cs c Hc). field. lra.
Qed.
Lemma q0_loss (cs : list C) (xs : list A) : length cs = length xs -> xs <> [] -> log_loss cs xs (q0 cs xs) = Ent (combine cs xs) - Ent cs.
Proof.
  intros L NE. assert (N : 0 < INR (length xs)) by (apply INR_pos; destruct xs; [congruence|simpl; lia]).
  apply (Rmult_eq_reg_l (INR (length xs))); [|lra]. unfold log_loss. rewrite <- L at 3. rewrite (Ent_pair_points cs xs L).
  replace (INR (length xs) * (sumf (fun p => - ln (q0 cs xs (fst p) (snd p))) (combine cs xs) / INR (length xs)))
    with (sumf (fun p => - ln (q0 cs xs (fst p) (snd p))) (combine cs xs)) by (field; lra).
  apply sumf_ext. intros [c x] J. cbn [fst snd]. unfold q0. rewrite ln_div; [ring|apply count_pos_in; exact J|apply count_pos_in, (in_combine_l _ _ _ _ J)].
Qed.

Lemma loss_min (cs : list C) (xs : list A) q : length cs = length xs -> xs <> [] -> predictor cs xs q -> log_loss cs xs (q0 cs xs) <= log_loss cs xs q.
Proof.
  intros L NE (Q0 & Q1 & Q2). assert (N : 0 < INR (length xs)) by (apply INR_pos; destruct xs; [congruence|simpl; lia]).
  unfold log_loss. apply Rmult_le_compat_r; [left; apply Rinv_0_lt_compat; exact N|].
  set (P := combine cs xs).
  set (t := fun p : C * A => q0 cs xs (fst p) (snd p) / q (fst p) (snd p)).
  assert (T0 : forall p, In p P -> 0 < t p) by (intros [c x] J; unfold t; cbn [fst snd]; apply Rdiv_lt_0_compat; [apply q0_pos; exact J|apply Q2; exact J]).
  assert (D : sumf (fun p => - ln (q (fst p) (snd p))) P = sumf (fun p => - ln (q0 cs xs (fst p) (snd p))) P + sumf (fun p => ln (t p)) P).
  { rewrite <- sumf_plus. apply sumf_ext. intros [c x] J. unfold t. cbn [fst snd]. rewrite (ln_div (q0 cs xs c x)); [ring|apply q0_pos; exact J|apply Q2; exact J]. }
  rewrite D. assert (0 <= sumf (fun p => ln (t p)) P); [|lra].
  assert (LB : INR (length P) - sumf (fun p => / t p) P <= sumf (fun p => ln (t p)) P).
  { rewrite <- (Rmult_1_r (INR (length P))), <- sumf_const, <- sumf_minus. apply sumf_le. intros p Hp. apply ln_ge_1inv, T0, Hp. }
  assert (LP : length P = length cs) by (unfold P; rewrite combine_length; lia).
  assert (INV : sumf (fun p => / t p) P <= INR (length P)); [|lra].
  rewrite points_group. rewrite (sumf_ext _ (fun p => INR (count cs (fst p)) * q (fst p) (snd p))).
  2:{ intros [c x] J. apply nodup_In in J. unfold t, q0. cbn [fst snd]. pose proof (count_pos_in _ _ J). pose proof (count_pos_in cs c (in_combine_l _ _ _ _ J)). pose proof (Q2 c x J).
      fold P. field. repeat split; lra. }
  apply Rle_trans with (sumf (fun p => INR (count cs (fst p)) * q (fst p) (snd p)) (list_prod (distinct cs) (distinct xs))).
  - apply sum_sub; [apply NoDup_nodup| |].
    + intros [c x] J. apply nodup_In in J. apply in_prod; apply nodup_In; [apply (in_combine_l _ _ _ _ J)|apply (in_combine_r _ _ _ _ J)].
    + intros p. apply Rmult_le_pos; [apply pos_INR|apply Q0].
  - rewrite (sum_prod (fun c x => INR (count cs c) * q c x)). rewrite LP.
    assert (E : INR (length cs) = sumf (fun c => INR (count cs c) * 1) (distinct cs)).
    { rewrite <- (points_group cs (fun _ => 1)), sumf_const. ring. }
    rewrite E. apply sumf_le. intros c Hc. rewrite sumf_scal. apply Rmult_le_compat_l; [apply pos_INR|]. apply Q1. apply (nodup_In eq_dec). exact Hc.
Qed.

Lemma best_is_entropy (cs : list C) (xs : list A) : length cs = length xs -> xs <> [] -> best_loss cs xs (Ent (combine cs xs) - Ent cs).
Proof.
  intros L NE. rewrite <- (q0_loss cs xs L NE). split; [exists (q0 cs xs); split; [apply q0_predictor; exact L|reflexivity]|].
  intros q Hq. apply loss_min; assumption.
Qed.
Lemma best_unique (cs : list C) (xs : list A) l l' : best_loss cs xs l -> best_loss cs xs l' -> l = l'.
Proof. intros ((q & Q & <-) & M) ((q' & Q' & <-) & M'). apply Rle_antisym; auto. Qed.

(** Fano *)
Definition fano_q (g : C -> A) (e : R) (K : nat) (c : C) (x : A) : R := if eq_dec x (g c) then 1 - e else e / (INR K - 1).

Lemma fano_sum g e (xs : list A) c : (2 <= nvals xs)%nat -> In (g c) xs -> sumf (fano_q g e (nvals xs) c) (distinct xs) = 1.
Proof.
  intros K2 J. unfold nvals in *. assert (ND : NoDup (distinct xs)) by apply NoDup_nodup. assert (J' : In (g c) (distinct xs)) by (apply nodup_In; exact J).
  set (U := distinct xs) in *. clearbody U.
  assert (E : sumf (fano_q g e (length U) c) U = (1 - e) + (INR (length U) - 1) * (e / (INR (length U) - 1))).
  { unfold fano_q. set (w := e / (INR (length U) - 1)). clearbody w. clear K2.
    induction ND as [|u U Nu ND IH]; [destruct J'|]. cbn [sumf length]. rewrite S_INR. destruct J' as [->|J'].
    - rewrite (sumf_ext _ (fun _ => w)), sumf_const.
      + destruct (eq_dec (g c) (g c)); [ring|congruence].
      + intros v Hv. destruct (eq_dec v (g c)) as [->|_]; [contradiction|reflexivity].
    - rewrite (IH J'). destruct (eq_dec u (g c)) as [->|_]; [contradiction|ring]. }
  rewrite E. assert (2 <= INR (length U)) by (change 2 with (INR 2); apply le_INR; exact K2). field. lra.
Qed.

Lemma fano (cs : list C) (xs : list A) (g : C -> A) : length cs = length xs -> xs <> [] -> (2 <= nvals xs)%nat -> (forall c, In c cs -> In (g c) xs) ->
  let e := share (fun p => negb (eqb (snd p) (g (fst p)))) (combine cs xs) in
  Ent (combine cs xs) - Ent cs <= coin e + e * ln (INR (nvals xs) - 1).
Proof.
  intros L NE K2 G e. assert (N : 0 < INR (length xs)) by (apply INR_pos; destruct xs; [congruence|simpl; lia]).
  set (P := combine cs xs) in *. assert (LP : length P = length xs) by (unfold P; rewrite combine_length; lia).
  set (bad := fun p : C * A => negb (eqb (snd p) (g (fst p)))) in e.
  assert (K1 : 1 <= INR (nvals xs) - 1) by (assert (2 <= INR (nvals xs)) by (change 2 with (INR 2); apply le_INR; exact K2); lra).
  assert (Cnt : INR (length P) * e = sumf (fun p => ind (bad p)) P) by (rewrite sumf_ind_length; unfold e, share; field; rewrite LP; lra).
  assert (EB : 0 <= e <= 1).
  { assert (NP : P <> []) by (intros E; rewrite E in LP; destruct xs; [congruence|discriminate]). unfold e. rewrite freq_prob. split; [apply prob_ge0|apply prob_le1]. }
  assert (B1 : forall p, In p P -> bad p = true -> 0 < e).
  { intros p Hp Hb. apply (Rmult_lt_reg_l (INR (length P))); [rewrite LP; exact N|]. rewrite Rmult_0_r, Cnt.
    apply Rlt_le_trans with (ind (bad p)); [rewrite Hb; unfold ind; lra|]. apply (sumf_In_le (fun p => ind (bad p))); [|exact Hp]. intros y _. apply ind_bounds. }
  assert (B2 : forall p, In p P -> bad p = false -> e < 1).
  { intros p Hp Hb. assert (0 < sumf (fun p => 1 - ind (bad p)) P).
    { apply Rlt_le_trans with (1 - ind (bad p)); [rewrite Hb; unfold ind; lra|]. apply (sumf_In_le (fun p => 1 - ind (bad p))); [|exact Hp]. intros y _. pose proof (ind_bounds (bad y)). lra. }
    rewrite sumf_minus, sumf_const, <- Cnt, Rmult_1_r in H1. apply (Rmult_lt_reg_l (INR (length P))); [rewrite LP; exact N|]. lra. }
  set (q := fano_q g e (nvals xs)).
  assert (QB : forall c x, q c x = if bad (c, x) then e / (INR (nvals xs) - 1) else 1 - e).
  { intros c x. unfold q, fano_q, bad, eqb. cbn [fst snd]. destruct (eq_dec x (g c)); reflexivity. }
  assert (QP : predictor cs xs q).
  { split; [|split].
    - intros c x. rewrite QB. destruct (bad (c, x)); [|lra]. apply Rmult_le_pos; [lra|left; apply Rinv_0_lt_compat; lra].
    - intros c Hc. right. apply fano_sum; [exact K2|apply G; exact Hc].
    - intros c x J. rewrite QB. destruct (bad (c, x)) eqn:E; [apply Rdiv_lt_0_compat; [apply (B1 (c, x) J E)|lra]|pose proof (B2 (c, x) J E); lra]. }
  apply Rle_trans with (log_loss cs xs q); [apply (best_is_entropy cs xs L NE); exact QP|]. right.
  unfold log_loss. fold P.
  assert (S0 : sumf (fun p => - ln (q (fst p) (snd p))) P = sumf (fun p => ind (bad p) * (ln (INR (nvals xs) - 1) - ln e) + (1 - ind (bad p)) * - ln (1 - e)) P).
  { apply sumf_ext. intros [c x] J. cbn [fst snd]. rewrite QB. destruct (bad (c, x)) eqn:E; unfold ind; [|ring].
    rewrite ln_div; [ring|apply (B1 (c, x) J E)|lra]. }
  rewrite S0, sumf_plus, !sumf_scal_r, sumf_minus, sumf_const, <- Cnt, LP. unfold coin. field. lra.
Qed.
End Predict.
