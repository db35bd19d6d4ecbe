(** Proofs: the surrogate values of the concrete classes, and the test result. *)
From Coq Require Import Reals Lra Lia List ZArith Arith Bool Permutation.
From Verif Require Import Res RSum Spec SpecBase Ord MBase MData MEntropy MMI MTE MGeneric MObj SpecObj PObj PObj2.
Import ListNotations.
Local Open Scope R_scope.

(** result of one evaluation as a float *)
Definition fl_of (r : res value) : option fl :=
  match of_res r with inr v => Some (val_of v) | inl _ => None end.

(** ** MI classes *)
Lemma mi_surrogates_exact f loc pd bd x y m n o o' vs :
  o_orig o = Some [x; y] ->
  repeatM n (mi_surrogate never (klass_mi f loc) pd bd m) o = (o', inr vs) ->
  o_orig o' = Some [x; y] /\ o_glob o' = o_glob o /\ o_loc o' = o_loc o /\ o_flag o' = o_flag o /\
  map Some vs = map (fun i => fl_of (f [take_rows (draw pd bd m (o_rng o + i) (arr_len x)) x; y])) (seq 0 n).
Proof.
  revert o vs. induction n as [|n IH]; intros o vs EO; cbn [repeatM].
  - unfold ret. intros E. injection E as <- <-. repeat split; auto.
  - unfold mbind at 1. unfold mi_surrogate at 1, mbind, read. rewrite EO. unfold resample, upd, run_calc, never.
    cbn [o_data o_flag o_rng tick set_data set_rng klass_mi k_calc]. fold (draw pd bd m).
    unfold fl_of. destruct (of_res (f _)) as [e|pv] eqn:E1; [discriminate|].
    cbn [ret]. unfold ret. set (o1 := set_rng _ _).
    destruct (repeatM n _ o1) as [o2 [e|vs']] eqn:E2; [discriminate|].
    intros E. injection E as <- <-.
    destruct (IH o1 vs' EO E2) as (A1 & A2 & A3 & A4 & A5). rewrite A1, A2, A3, A4.
    split; [reflexivity|]. split; [reflexivity|]. split; [reflexivity|]. split; [reflexivity|].
    cbn [seq map]. rewrite Nat.add_0_r, E1. f_equal. rewrite A5. rewrite <- seq_shift, map_map. apply map_ext. intros i.
    unfold fl_of, o1. cbn [set_rng o_rng set_data tick]. replace (S (o_rng o) + i)%nat with (o_rng o + S i)%nat by lia. reflexivity.
Qed.

(** ** TE classes *)
Definition rand_of (pd bd : nat -> nat -> list nat) (rows : nat) (m : method) (r : nat) : rand :=
  match m with MPermute => RPermute (pd r rows) | _ => RResample (bd r rows) end.

Lemma te_calcs_exact f loc pd bd rows fg m n o o' vs :
  (fg = FPermute /\ m = MPermute \/ fg = FResample /\ m = MBootstrap) -> o_flag o = fg ->
  repeatM n (run_calc never (klass_te pd bd rows f loc)) o = (o', inr vs) ->
  o_data o' = o_data o /\ o_glob o' = o_glob o /\ o_loc o' = o_loc o /\
  map (fun v => Some (val_of v)) vs = map (fun i => fl_of (f (o_data o) (rand_of pd bd rows m (o_rng o + i)))) (seq 0 n).
Proof.
  intros Hm. revert o vs. induction n as [|n IH]; intros o vs EF; cbn [repeatM].
  - unfold ret. intros E. injection E as <- <-. repeat split; auto.
  - unfold mbind.
    rewrite (eq_refl : run_calc never (klass_te pd bd rows f loc) o =
       let '(r, v) := k_calc (klass_te pd bd rows f loc) (o_data o) (o_flag o) (o_rng o) in (set_rng (tick o) r, v)).
    cbn [klass_te k_calc]. rewrite EF.
    assert (ER : (match fg with FOff => RNone | FPermute => RPermute (pd (o_rng o) rows) | FResample => RResample (bd (o_rng o) rows) end)
       = rand_of pd bd rows m (o_rng o)) by (destruct Hm as [[-> ->]|[-> ->]]; reflexivity).
    assert (EN : (match fg with FOff => o_rng o | _ => S (o_rng o) end) = S (o_rng o)) by (destruct Hm as [[-> _]|[-> _]]; reflexivity).
    rewrite ER, EN. destruct (of_res (f _ _)) as [e|pv] eqn:E1; [discriminate|].
    set (o1 := set_rng (tick o) (S (o_rng o))). unfold ret. destruct (repeatM n _ o1) as [o2 [e|vs']] eqn:E2; [discriminate|].
    intros E. injection E as <- <-.
    destruct (IH o1 vs' EF E2) as (A1 & A2 & A3 & A4). rewrite A1, A2, A3.
    split; [reflexivity|]. split; [reflexivity|]. split; [reflexivity|].
    cbn [seq map]. rewrite Nat.add_0_r. unfold fl_of at 1. rewrite E1. f_equal. rewrite A4. rewrite <- seq_shift, map_map. apply map_ext. intros i.
    unfold o1. cbn [o_data o_rng set_rng tick]. replace (S (o_rng o) + i)%nat with (o_rng o + S i)%nat by lia. reflexivity.
Qed.

(** ** classes whose [_calculate] ignores data and flags *)
Lemma const_calcs v n o o' K vs : (forall d fg r, k_calc K d fg r = (r, of_res v)) ->
  repeatM n (run_calc never K) o = (o', inr vs) -> o_data o' = o_data o /\ o_glob o' = o_glob o /\
  Forall (fun p => inr p = of_res v) vs.
Proof.
  intros HK. revert o vs. induction n as [|n IH]; intros o vs; cbn [repeatM].
  - unfold ret. intros E. injection E as <- <-. repeat split; constructor.
  - unfold mbind.
    rewrite (eq_refl : run_calc never K o = let '(r, v) := k_calc K (o_data o) (o_flag o) (o_rng o) in (set_rng (tick o) r, v)).
    rewrite HK. destruct (of_res v) as [e|pv] eqn:E1; [discriminate|].
    set (o1 := set_rng _ _). unfold ret. destruct (repeatM n _ o1) as [o2 [e|vs']] eqn:E2; [discriminate|].
    intros E. injection E as <- <-. destruct (IH o1 vs' E2) as (B1 & B2 & B3).
    split; [rewrite B1; reflexivity|]. split; [rewrite B2; reflexivity|]. constructor; [reflexivity|exact B3].
Qed.

(** ** the test result *)
Lemma mean_bounds vs lo hi : vs <> [] -> (forall v, In v vs -> lo <= v <= hi) -> lo <= mean vs <= hi.
Proof.
  intros NE H. assert (P : 0 < INR (length vs)) by (apply lt_0_INR; destruct vs; [congruence|simpl; lia]).
  assert (B : INR (length vs) * lo <= sumR vs <= INR (length vs) * hi).
  { clear NE P. induction vs as [|v vs IH]; [simpl; unfold sumR; simpl; lra|].
    destruct IH as [I1 I2]; [intros w Hw; apply H; right; exact Hw|].
    pose proof (H v (or_introl eq_refl)). cbn [length]. rewrite S_INR. unfold sumR in *. cbn [sumf]. lra. }
  unfold mean, Rdiv. split.
  - apply (Rmult_le_reg_r (INR (length vs))); [exact P|]. rewrite Rmult_assoc, Rinv_l by lra. lra.
  - apply (Rmult_le_reg_r (INR (length vs))); [exact P|]. rewrite Rmult_assoc, Rinv_l by lra. lra.
Qed.

Lemma sq_dev_zero (vs : list R) mu : sumR (map (fun v => (v - mu) * (v - mu)) vs) = 0 -> forall v, In v vs -> v = mu.
Proof.
  unfold sumR. rewrite sumf_map. intros E v Hv.
  assert (forall l, 0 <= sumf (fun v => (v - mu) * (v - mu)) l) as NN.
  { induction l as [|w l IH]; simpl; [lra|]. pose proof (Rle_0_sqr (w - mu)) as Q. unfold Rsqr in Q. lra. }
  induction vs as [|w vs IH]; [destruct Hv|]. cbn [sumf] in E.
  pose proof (NN vs). pose proof (Rle_0_sqr (w - mu)) as Q. unfold Rsqr in Q.
  destruct Hv as [<-|Hv]; [|apply IH; [lra|exact Hv]].
  assert (X : (w - mu) * (w - mu) = 0) by lra. apply Rmult_integral in X. lra.
Qed.

Lemma sq_dev_nonneg (vs : list R) mu : 0 <= sumR (map (fun v => (v - mu) * (v - mu)) vs).
Proof. unfold sumR. rewrite sumf_map. apply sumf_nonneg. intros v _. pose proof (Rle_0_sqr (v - mu)) as Q. exact Q. Qed.

Lemma stat_result_ok obs vs : (2 <= length vs)%nat -> exists t, stat_result obs vs = Ok t /\
  t_values t = vs /\ t_observed t = obs /\ t_mean t = mean vs /\
  t_p t = INR (length (filter (fun v => if Rlt_dec obs v then true else false) vs)) / INR (length vs) /\
  0 <= t_p t <= 1 /\ 0 <= t_std t /\
  (t_std t)^2 * (INR (length vs) - 1) = sumR (map (fun v => (v - mean vs)^2) vs) /\
  (t_score t = None <-> (forall v w, In v vs -> In w vs -> v = w)) /\
  (forall s, t_score t = Some s -> s * t_std t = obs - mean vs).
Proof.
  intros L. unfold stat_result. destruct (Nat.ltb_spec (length vs) 2) as [?|_]; [lia|]. eexists. split; [reflexivity|].
  cbn [t_values t_observed t_mean t_p t_std t_score].
  set (S := sumR (map (fun v => (v - mean vs) * (v - mean vs)) vs)).
  assert (N1 : 0 < INR (length vs) - 1) by (apply le_INR in L; simpl in L; lra).
  assert (S0 : 0 <= S) by apply sq_dev_nonneg.
  assert (Q0 : 0 <= S / (INR (length vs) - 1)) by (unfold Rdiv; apply Rmult_le_pos; [exact S0|left; apply Rinv_0_lt_compat; exact N1]).
  split; [reflexivity|]. split; [reflexivity|]. split; [reflexivity|]. split; [reflexivity|].
  split. { split.
    - unfold Rdiv. apply Rmult_le_pos; [apply pos_INR|]. left. apply Rinv_0_lt_compat. lra.
    - apply (Rmult_le_reg_r (INR (length vs))); [lra|]. unfold Rdiv. rewrite Rmult_assoc, Rinv_l, Rmult_1_l, Rmult_1_r by lra.
      apply le_INR. clear. induction vs as [|v vs IH]; simpl; [lia|]. destruct (Rlt_dec obs v); simpl; lia. }
  split; [apply sqrt_pos|]. split.
  { simpl pow. rewrite Rmult_1_r, sqrt_sqrt by exact Q0. unfold Rdiv. rewrite Rmult_assoc, Rinv_l, Rmult_1_r by lra.
    unfold S. f_equal. apply map_ext. intros v. rewrite Rmult_1_r. reflexivity. }
  split.
  - destruct (Rlt_dec 0 (sqrt (S / (INR (length vs) - 1)))) as [P|NP]; split; intros Hx.
    + discriminate.
    + exfalso. assert (Z : S = 0).
      { destruct vs as [|v0 vs']; [simpl in L; lia|]. set (vs := v0 :: vs') in *.
        assert (M : mean vs = v0).
        { destruct (mean_bounds vs v0 v0) as [M1 M2]; [discriminate|intros v Hv; rewrite (Hx v v0 Hv (or_introl eq_refl)); lra|lra]. }
        unfold S, sumR. rewrite sumf_map. rewrite (sumf_ext _ (fun _ => 0)).
        - clear. induction vs; simpl; lra.
        - intros v Hv. rewrite M, (Hx v v0 Hv (or_introl eq_refl)). ring. }
      rewrite Z in P. unfold Rdiv in P. rewrite Rmult_0_l, sqrt_0 in P. lra.
    + assert (Z : S = 0).
      { pose proof (sqrt_pos (S / (INR (length vs) - 1))). assert (E : sqrt (S / (INR (length vs) - 1)) = 0) by lra.
        apply sqrt_eq_0 in E; [|exact Q0]. unfold Rdiv in E. apply Rmult_integral in E. destruct E as [E|E]; [exact E|].
        pose proof (Rinv_0_lt_compat _ N1). lra. }
      intros v w Hv Hw. rewrite (sq_dev_zero vs _ Z v Hv), (sq_dev_zero vs _ Z w Hw). reflexivity.
    + reflexivity.
  - intros s. destruct (Rlt_dec _ _) as [P|]; [|discriminate]. intros E. injection E as <-.
    unfold Rdiv. rewrite Rmult_assoc, Rinv_l by lra. ring.
Qed.
