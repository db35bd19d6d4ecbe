(** Proofs: shrinkage and Bayesian estimators. *)
From Coq Require Import Reals Lra Lia List ZArith Arith Bool Permutation Sorted.
From Verif Require Import Res RSum Spec SpecGamma SpecEst Info Info2 Gibbs Ord MBase MData MEntropy MMI MTE MGeneric MEst SpecBase PBase PEntropy PCoo PMI PMI2 PMI3 PCMI PMI4 PCMI2 PMI5 PMI6 PTE PTE2 PGeneric PLog PEst PEst2.
Import ListNotations.
Local Open Scope R_scope.

(** sums over [unique] and over [distinct] are the same *)
Lemma sum_unique (f : Z -> R) (xs : list Z) : sumf f (unique xs) = sumf f (distinct xs).
Proof. apply sumf_perm, unique_perm_distinct. Qed.

Lemma prob_sum_distinct {A} `{EqDec A} (xs : list A) : xs <> [] -> sumf (prob xs) (distinct xs) = 1.
Proof.
  intros NE. pose proof (bycount_id xs) as B. unfold bycount in B. unfold prob. rewrite sumf_div, B.
  pose proof (inr_len_pos xs NE). field. lra.
Qed.

Section Shrink.
Context {A : Type} `{EqDec A}.
Variable xs : list A.
Hypothesis NE : xs <> [].

Let K := INR (nvals xs).
Let dsq := sumf (fun v => (prob xs v - / K) * (prob xs v - / K)) (distinct xs).

Lemma sh_K : 1 <= K.
Proof using NE. apply INR_ge1, nvals_pos. exact NE. Qed.

Lemma sh_dsq : 0 <= dsq.
Proof using. apply sumf_nonneg. intros v _. apply (Rle_0_sqr (prob xs v - / K)). Qed.

Lemma sh_var : 0 <= sumf (fun v => prob xs v * (1 - prob xs v) / (INR (length xs) - 1)) (distinct xs).
Proof using NE.
  apply sumf_nonneg. intros v _. pose proof (prob_nonneg xs v). pose proof (prob_le1 xs v). pose proof (len_ge1 xs NE) as L.
  destruct (Req_dec (INR (length xs) - 1) 0) as [E|N0].
  - rewrite E. unfold Rdiv. rewrite Rinv_0. lra.
  - apply Rmult_le_pos; [apply Rmult_le_pos; lra|]. left. apply Rinv_0_lt_compat. lra.
Qed.

Lemma intensity_bounds : 0 <= shrink_intensity xs <= 1.
Proof using NE.
  unfold shrink_intensity. destruct (Nat.eqb (length xs) 1); [lra|]. fold K dsq.
  destruct (Req_EM_T dsq 0); [lra|]. split; [|apply Rmin_l].
  apply Rmin_glb; [lra|]. apply Rmult_le_pos; [apply sh_var|].
  pose proof sh_dsq. left. apply Rinv_0_lt_compat. lra.
Qed.

Lemma shrunk_pos v : In v xs -> 0 < shrunk xs v.
Proof using NE.
  intros Hv. unfold shrunk. fold K. pose proof intensity_bounds as B. pose proof (prob_pos xs v Hv). pose proof sh_K.
  assert (0 < / K) by (apply Rinv_0_lt_compat; lra). set (l := shrink_intensity xs) in *.
  destruct (Req_dec l 0) as [->|N0]; [lra|].
  assert (0 < l * / K) by (apply Rmult_lt_0_compat; lra).
  assert (0 <= (1 - l) * prob xs v) by (apply Rmult_le_pos; lra). lra.
Qed.

Lemma target_sum : sumf (fun _ : A => / K) (distinct xs) = 1.
Proof using NE. rewrite sumf_const. fold (nvals xs). fold K. pose proof sh_K. field. lra. Qed.

Lemma shrunk_sum : sumf (shrunk xs) (distinct xs) = 1.
Proof using NE.
  unfold shrunk. fold K. rewrite sumf_plus, !sumf_scal, prob_sum_distinct by exact NE. rewrite target_sum. ring.
Qed.

Lemma shrunk_gibbs (p : A -> R) : (forall v, In v (distinct xs) -> 0 < p v) -> sumf p (distinct xs) = 1 ->
  - sumf (fun v => p v * ln (p v)) (distinct xs) <= - sumf (fun v => p v * ln (shrunk xs v)) (distinct xs).
Proof using NE.
  intros Hp Hs.
  assert (Q : forall v, In v (distinct xs) -> 0 < shrunk xs v)
    by (intros v Hv; apply shrunk_pos; apply (proj1 (distinct_In xs v)); exact Hv).
  pose proof (gibbs (distinct xs) p (shrunk xs)) as G.
  assert (G' : 0 <= sumf (fun v => p v * ln (p v / shrunk xs v)) (distinct xs)).
  { apply G.
    - intros x Hx. left. auto.
    - intros x Hx. left. auto.
    - intros x Hx E. pose proof (Q x Hx). lra.
    - rewrite shrunk_sum. lra. }
  rewrite (sumf_ext _ (fun v => p v * ln (p v) - p v * ln (shrunk xs v))) in G'.
  - rewrite sumf_minus in G'. lra.
  - intros v Hv. rewrite ln_div by auto. ring.
Qed.

Lemma shrink_ge_Ent : Ent xs <= ShrinkH xs.
Proof using NE.
  pose proof intensity_bounds as B. set (l := shrink_intensity xs) in *.
  assert (E : ShrinkH xs = l * (- sumf (fun v => / K * ln (shrunk xs v)) (distinct xs)) + (1 - l) * (- sumf (fun v => prob xs v * ln (shrunk xs v)) (distinct xs))).
  { unfold ShrinkH. rewrite !Ropp_mult_distr_r_reverse, <- !sumf_scal, <- Ropp_plus_distr, <- sumf_plus. f_equal.
    apply sumf_ext. intros v _. unfold shrunk at 1. fold K l. ring. }
  pose proof (shrunk_gibbs (prob xs)) as G1. fold (Ent xs) in G1.
  assert (P1 : forall v, In v (distinct xs) -> 0 < prob xs v)
    by (intros v Hv; apply prob_pos; apply (proj1 (distinct_In xs v)); exact Hv).
  specialize (G1 P1 (prob_sum_distinct xs NE)).
  pose proof sh_K. assert (0 < / K) by (apply Rinv_0_lt_compat; lra).
  pose proof (shrunk_gibbs (fun _ => / K) ltac:(intros; assumption) target_sum) as G2.
  assert (U : - sumf (fun _ : A => / K * ln (/ K)) (distinct xs) = ln K).
  { rewrite sumf_const. fold (nvals xs). fold K. rewrite ln_Rinv by lra. field. lra. }
  cbv beta in G2. rewrite U in G2. pose proof (Ent_le_lnK xs) as M. fold (nvals xs) in M. fold K in M. specialize (M NE).
  rewrite E.
  assert (l * Ent xs <= l * (- sumf (fun v => / K * ln (shrunk xs v)) (distinct xs))) by (apply Rmult_le_compat_l; lra).
  assert ((1 - l) * Ent xs <= (1 - l) * (- sumf (fun v => prob xs v * ln (shrunk xs v)) (distinct xs))) by (apply Rmult_le_compat_l; lra).
  lra.
Qed.

Lemma shrink_le_lnK : ShrinkH xs <= ln K.
Proof using NE.
  pose proof (EntVec_le_ln (map (shrunk xs) (distinct xs))) as B.
  assert (N1 : map (shrunk xs) (distinct xs) <> []).
  { pose proof (nvals_pos xs NE) as P. unfold nvals in P. destruct (distinct xs); [simpl in P; lia|discriminate]. }
  specialize (B N1). rewrite map_length in B. fold (nvals xs) in B. fold K in B.
  unfold EntVec, sumR in B. rewrite !sumf_map in B. fold (ShrinkH xs) in B.
  apply B.
  - apply Forall_forall. intros y Hy. apply in_map_iff in Hy. destruct Hy as (v & <- & Hv).
    apply shrunk_pos. apply (proj1 (distinct_In xs v)). exact Hv.
  - exact shrunk_sum.
Qed.

(** mean of the local values, in nats: a cross-entropy with the plain frequencies *)
Definition shrink_local_mean : R := - sumf (fun v => prob xs v * ln (shrunk xs v)) (distinct xs).

Lemma shrink_gap : ShrinkH xs - shrink_local_mean =
  shrink_intensity xs * sumf (fun v => (prob xs v - / K) * (ln (shrunk xs v) - ln (/ K))) (distinct xs).
Proof using NE.
  unfold ShrinkH, shrink_local_mean. set (l := shrink_intensity xs).
  assert (E1 : sumf (fun v => (prob xs v - / K) * (ln (shrunk xs v) - ln (/ K))) (distinct xs) =
    sumf (fun v => (prob xs v - / K) * ln (shrunk xs v)) (distinct xs)).
  { rewrite (sumf_ext _ (fun v => (prob xs v - / K) * ln (shrunk xs v) - (prob xs v - / K) * ln (/ K))) by (intros; ring).
    rewrite sumf_minus, sumf_scal_r, sumf_minus, prob_sum_distinct, target_sum by exact NE. ring. }
  rewrite E1. rewrite <- sumf_scal.
  replace (- sumf (fun v => shrunk xs v * ln (shrunk xs v)) (distinct xs) - - sumf (fun v => prob xs v * ln (shrunk xs v)) (distinct xs))
    with (sumf (fun v => prob xs v * ln (shrunk xs v)) (distinct xs) - sumf (fun v => shrunk xs v * ln (shrunk xs v)) (distinct xs)) by ring.
  rewrite <- sumf_minus. apply sumf_ext. intros v _. unfold shrunk at 2. fold K l. ring.
Qed.

Lemma gap_term v : In v xs -> shrink_intensity xs < 1 ->
  0 <= (prob xs v - / K) * (ln (shrunk xs v) - ln (/ K)) /\
  ((prob xs v - / K) * (ln (shrunk xs v) - ln (/ K)) = 0 -> prob xs v = / K).
Proof using NE.
  intros Hv Hl. pose proof intensity_bounds as B. pose proof (shrunk_pos v Hv) as P. pose proof sh_K.
  assert (PK : 0 < / K) by (apply Rinv_0_lt_compat; lra).
  assert (D : shrunk xs v - / K = (1 - shrink_intensity xs) * (prob xs v - / K)) by (unfold shrunk; fold K; ring).
  destruct (Rtotal_order (prob xs v) (/ K)) as [L|[E|G]].
  - assert (shrunk xs v < / K).
    { assert (0 < (1 - shrink_intensity xs) * (/ K - prob xs v)) by (apply Rmult_lt_0_compat; lra). lra. }
    assert (ln (shrunk xs v) < ln (/ K)) by (apply ln_increasing; assumption).
    assert (0 < (/ K - prob xs v) * (ln (/ K) - ln (shrunk xs v))) by (apply Rmult_lt_0_compat; lra). split; [lra|intros; lra].
  - rewrite E. split; [lra|auto].
  - assert (/ K < shrunk xs v).
    { assert (0 < (1 - shrink_intensity xs) * (prob xs v - / K)) by (apply Rmult_lt_0_compat; lra). lra. }
    assert (ln (/ K) < ln (shrunk xs v)) by (apply ln_increasing; assumption).
    assert (0 < (prob xs v - / K) * (ln (shrunk xs v) - ln (/ K))) by (apply Rmult_lt_0_compat; lra). split; [lra|intros; lra].
Qed.

Lemma shrink_mean_le : shrink_local_mean <= ShrinkH xs /\ (shrink_local_mean = ShrinkH xs <-> shrink_intensity xs = 1).
Proof using NE.
  pose proof shrink_gap as G. pose proof intensity_bounds as B.
  set (S0 := sumf (fun v => (prob xs v - / K) * (ln (shrunk xs v) - ln (/ K))) (distinct xs)) in *.
  destruct (Req_dec (shrink_intensity xs) 1) as [E|N1].
  - assert (Z : S0 = 0).
    { unfold S0. rewrite (sumf_ext _ (fun _ => 0)); [apply sumf_zero|]. intros v _.
      replace (shrunk xs v) with (/ K) by (unfold shrunk; rewrite E; fold K; ring). ring. }
    rewrite Z in G. split; [lra|]. split; intros; lra.
  - assert (T : forall v, In v (distinct xs) -> 0 <= (prob xs v - / K) * (ln (shrunk xs v) - ln (/ K))).
    { intros v Hv. apply gap_term; [apply (proj1 (distinct_In xs v)); exact Hv|lra]. }
    assert (P : 0 <= S0) by (apply sumf_nonneg; exact T).
    assert (P2 : 0 <= shrink_intensity xs * S0) by (apply Rmult_le_pos; lra).
    split; [lra|]. split; [|intros; contradiction]. intros E. exfalso.
    assert (Z : shrink_intensity xs * S0 = 0) by lra.
    assert (NU : ~ (forall v, In v (distinct xs) -> prob xs v = / K)).
    { intros U. apply N1. unfold shrink_intensity. destruct (Nat.eqb (length xs) 1); [reflexivity|]. fold K dsq.
      destruct (Req_EM_T dsq 0) as [|N2]; [reflexivity|]. exfalso. apply N2. unfold dsq.
      rewrite (sumf_ext _ (fun _ => 0)); [apply sumf_zero|]. intros v Hv. rewrite (U v Hv). ring. }
    apply Rmult_integral in Z. destruct Z as [Z|Z].
    + (* intensity 0: no variance, so one value only *)
      apply NU. unfold shrink_intensity in Z. destruct (Nat.eqb_spec (length xs) 1) as [|NL]; [lra|]. fold K dsq in Z.
      destruct (Req_EM_T dsq 0) as [|N2]; [lra|].
      assert (Zv : sumf (fun v => prob xs v * (1 - prob xs v) / (INR (length xs) - 1)) (distinct xs) / dsq = 0).
      { unfold Rmin in Z. destruct (Rle_dec 1 _); lra. }
      assert (Zs : sumf (fun v => prob xs v * (1 - prob xs v) / (INR (length xs) - 1)) (distinct xs) = 0).
      { apply (Rmult_eq_reg_r (/ dsq)); [|apply Rinv_neq_0_compat; exact N2]. rewrite Rmult_0_l. exact Zv. }
      assert (L2 : 0 < INR (length xs) - 1).
      { pose proof (len_ge1 xs NE). destruct (Req_dec (INR (length xs) - 1) 0) as [E0|]; [|lra].
        exfalso. apply NL. apply INR_eq. simpl. lra. }
      assert (P1 : forall v, In v (distinct xs) -> prob xs v = 1).
      { intros v Hv.
        assert (Q : prob xs v * (1 - prob xs v) / (INR (length xs) - 1) = 0).
        { apply (sumf_zero_all (fun v => prob xs v * (1 - prob xs v) / (INR (length xs) - 1)) (distinct xs)); [|exact Zs|exact Hv].
          intros w _. pose proof (prob_nonneg xs w). pose proof (prob_le1 xs w).
          apply Rmult_le_pos; [apply Rmult_le_pos; lra|]. left. apply Rinv_0_lt_compat. exact L2. }
        pose proof (prob_pos xs v (proj1 (distinct_In xs v) Hv)).
        apply (Rmult_eq_compat_r (INR (length xs) - 1)) in Q. unfold Rdiv in Q. rewrite Rmult_assoc, Rinv_l in Q by lra.
        rewrite Rmult_1_r, Rmult_0_l in Q. apply Rmult_integral in Q. lra. }
      intros v Hv. rewrite (P1 v Hv).
      assert (KK : K = 1).
      { pose proof (prob_sum_distinct xs NE) as PS. rewrite (sumf_ext _ (fun _ => 1)) in PS by exact P1.
        rewrite sumf_const in PS. fold (nvals xs) in PS. fold K in PS. lra. }
      rewrite KK. symmetry. apply Rinv_1.
    + apply NU. intros v Hv. apply gap_term; [apply (proj1 (distinct_In xs v)); exact Hv|lra|].
      apply (sumf_zero_all (fun v => (prob xs v - / K) * (ln (shrunk xs v) - ln (/ K))) (distinct xs) T Z v Hv).
Qed.
End Shrink.

Lemma shrink_lambda_ok (xs : list Z) : xs <> [] -> length xs <> 1%nat ->
  shrink_lambda (Z.of_nat (length xs)) (map (prob xs) (unique xs)) (1 / INR (nvals xs)) = Ok (shrink_intensity xs).
Proof.
  intros NE N1. unfold shrink_lambda.
  assert (L2 : IZR (Z.of_nat (length xs)) - 1 <> 0).
  { rewrite <- INR_IZR_INZ. intros E. apply N1. apply INR_eq. simpl. lra. }
  rewrite (mapM_map_ok _ _ (fun v => prob xs v * (1 - prob xs v) / (INR (length xs) - 1))).
  2:{ intros v _. rewrite np_div_ok by exact L2. rewrite <- INR_IZR_INZ. reflexivity. }
  cbn [bind]. unfold sumR. rewrite !map_map, !sumf_map, !sum_unique.
  replace (1 / INR (nvals xs)) with (/ INR (nvals xs)) by (unfold Rdiv; ring).
  unfold shrink_intensity. destruct (Nat.eqb_spec (length xs) 1); [contradiction|].
  set (d := sumf (fun v => (prob xs v - / INR (nvals xs)) * (prob xs v - / INR (nvals xs))) (distinct xs)).
  destruct (Req_EM_T d 0) as [|ND]; [reflexivity|]. rewrite np_div_ok by exact ND. cbn [bind].
  set (q := sumf (fun v => prob xs v * (1 - prob xs v) / (INR (length xs) - 1)) (distinct xs) / d).
  assert (Q : 0 <= q).
  { apply Rmult_le_pos; [apply (sh_var xs NE)|]. pose proof (sh_dsq xs) as D. fold d in D. left. apply Rinv_0_lt_compat. lra. }
  unfold Rmin. destruct (Rlt_dec 1 q); destruct (Rle_dec 1 q); try lra; try reflexivity.
  - destruct (Rlt_dec q 0); [lra|]. f_equal. lra.
  - destruct (Rlt_dec q 0); [lra|]. reflexivity.
Qed.

Lemma shrink_probs_ok (xs : list Z) : xs <> [] -> shrink_probs (dd_of xs) = Ok (map (shrunk xs) (unique xs)).
Proof.
  intros NE. unfold shrink_probs. rewrite dd_K_of, dd_N_of, probs_dd_of.
  assert (HK : INR (nvals xs) <> 0) by (apply not_0_INR; pose proof (nvals_pos xs NE); lia).
  rewrite np_div_ok by exact HK. cbn [bind].
  assert (L : length xs <> 0%nat) by (destruct xs; [congruence|discriminate]).
  destruct (Z.eqb_spec (Z.of_nat (length xs)) 0) as [E0|_]; [exfalso; lia|]. cbn [orb].
  destruct (Z.eqb_spec (Z.of_nat (length xs)) 1) as [E1|N1].
  - cbn [bind]. rewrite map_map. f_equal. apply map_ext. intros v. unfold shrunk, shrink_intensity.
    replace (length xs) with 1%nat by lia. cbn [Nat.eqb]. unfold Rdiv. ring.
  - rewrite shrink_lambda_ok by (assumption || lia). cbn [bind]. rewrite map_map. f_equal. apply map_ext. intros v.
    unfold shrunk, Rdiv. ring.
Qed.

Lemma shrunk_Forall (xs : list Z) : xs <> [] -> Forall (fun x => 0 < x) (map (shrunk xs) (unique xs)).
Proof.
  intros NE. apply Forall_forall. intros y Hy. apply in_map_iff in Hy. destruct Hy as (v & <- & Hv).
  apply shrunk_pos; [exact NE|]. apply unique_In. exact Hv.
Qed.

Lemma shrink_ok b xs : valid_base b -> xs <> [] -> shrink_simple b (dd_of xs) = Ok (ShrinkH xs / unit_of b).
Proof.
  intros V NE. unfold shrink_simple. rewrite shrink_probs_ok by exact NE. cbn [bind].
  rewrite plogp_ok by (try exact V; apply shrunk_Forall; exact NE).
  f_equal. f_equal. unfold EntVec, ShrinkH. rewrite sumf_map, sum_unique. reflexivity.
Qed.

Lemma shrink_local_ok b xs : valid_base b -> xs <> [] ->
  shrink_local b (dd_of xs) = Ok (map (fun x => - (ln (shrunk xs x) / unit_of b)) xs).
Proof.
  intros V NE. unfold shrink_local. rewrite shrink_probs_ok by exact NE. cbn [bind].
  cbn [dd_of dd_uniq]. fold (dd_of xs). rewrite lookup_ok. cbn [bind].
  rewrite (mapM_map_ok _ _ (fun x => ln (shrunk xs x) / unit_of b)).
  - cbn [bind]. rewrite map_map. reflexivity.
  - intros x Hx. apply log_base_ok; [exact V|]. apply shrunk_pos; assumption.
Qed.

Lemma shrink_local_mean_ok b (xs : list Z) :
  mean (map (fun x => - (ln (shrunk xs x) / unit_of b)) xs) = shrink_local_mean xs / unit_of b.
Proof.
  unfold mean. rewrite map_length. unfold sumR. rewrite sumf_map, sumf_opp, sumf_div.
  rewrite (sum_samples xs (fun x => ln (shrunk xs x))). unfold shrink_local_mean, prob.
  rewrite (sumf_ext (fun v => INR (count xs v) / INR (length xs) * ln (shrunk xs v)) (fun v => INR (count xs v) * ln (shrunk xs v) / INR (length xs)))
    by (intros; unfold Rdiv; ring).
  rewrite sumf_div. unfold Rdiv. ring.
Qed.

(** ** Bayes *)
Section Bayes.
Context {A : Type} `{EqDec A}.
Variable xs : list A.
Hypothesis NE : xs <> [].

Lemma posterior_pos a K v : 0 < a -> 0 <= K -> 0 < posterior a K xs v.
Proof using NE.
  intros Ha HK. unfold posterior. pose proof (inr_len_pos xs NE). pose proof (pos_INR (count xs v)).
  apply Rdiv_lt_0_compat; [lra|]. assert (0 <= K * a) by (apply Rmult_le_pos; lra). lra.
Qed.

Lemma posterior_sum a K : 0 < a -> 0 <= K ->
  sumf (posterior a K xs) (distinct xs) = (INR (length xs) + INR (nvals xs) * a) / (INR (length xs) + K * a).
Proof using.
  intros Ha HK. unfold posterior. rewrite sumf_div, sumf_plus, sumf_const.
  fold (bycount INR xs). rewrite bycount_id. reflexivity.
Qed.

Lemma posterior_sum1 a K : 0 < a -> 0 <= K -> sumf (posterior a K xs) (distinct xs) = 1 <-> K = INR (nvals xs).
Proof using NE.
  intros Ha HK. rewrite posterior_sum by assumption. pose proof (inr_len_pos xs NE).
  assert (0 <= K * a) by (apply Rmult_le_pos; lra). split.
  - intros E. apply (Rmult_eq_compat_r (INR (length xs) + K * a)) in E. unfold Rdiv in E.
    rewrite Rmult_assoc, Rinv_l in E by lra. apply (Rmult_eq_reg_r a); lra.
  - intros ->. field. lra.
Qed.

Lemma bayes_bounds a : 0 < a -> 0 <= BayesH a (INR (nvals xs)) xs <= ln (INR (nvals xs)).
Proof using NE.
  intros Ha. pose proof (nvals_pos xs NE) as KP. pose proof (pos_INR (nvals xs)) as KP2.
  set (p := map (posterior a (INR (nvals xs)) xs) (distinct xs)).
  assert (S1 : sumR p = 1) by (unfold p, sumR; rewrite sumf_map; apply posterior_sum1; auto).
  assert (F : Forall (fun x => 0 < x) p).
  { apply Forall_forall. intros y Hy. unfold p in Hy. apply in_map_iff in Hy. destruct Hy as (v & <- & _). apply posterior_pos; assumption. }
  assert (E : BayesH a (INR (nvals xs)) xs = EntVec p) by (unfold EntVec, p, BayesH; rewrite sumf_map; reflexivity).
  rewrite E. split.
  - apply EntVec_nonneg. apply Forall_forall. intros y Hy. rewrite Forall_forall in F.
    split; [left; auto|]. rewrite <- S1. unfold sumR. apply (sumf_In_le (fun x => x) p y); [|exact Hy].
    intros z Hz. left. auto.
  - assert (Ep : length p = nvals xs) by (unfold p; rewrite map_length; reflexivity). rewrite <- Ep.
    apply EntVec_le_ln; [|exact F|exact S1]. intros Q. rewrite Q in Ep. simpl in Ep. lia.
Qed.
End Bayes.

Lemma bayes_ok b (xs : list Z) a Kp al : valid_base b -> xs <> [] ->
  get_alpha a (bayes_K Kp (dd_of xs)) (Z.of_nat (length xs)) = Ok al -> 0 < al -> (0 <= bayes_K Kp (dd_of xs))%Z ->
  bayes_simple a Kp b (dd_of xs) = Ok (BayesH al (IZR (bayes_K Kp (dd_of xs))) xs / unit_of b).
Proof.
  intros V NE EA HA HK. unfold bayes_simple, bayes_probs. rewrite dd_N_of, EA. cbn [bind]. rewrite dd_counts_of.
  pose proof (inr_len_pos xs NE) as HN. apply IZR_le in HK.
  assert (0 <= IZR (bayes_K Kp (dd_of xs)) * al) by (apply Rmult_le_pos; lra).
  rewrite (mapM_map_ok _ _ (posterior al (IZR (bayes_K Kp (dd_of xs))) xs)).
  - cbn [bind]. rewrite plogp_ok; [|exact V|].
    + f_equal. f_equal. unfold EntVec, BayesH. rewrite sumf_map, sum_unique. reflexivity.
    + apply Forall_forall. intros y Hy. apply in_map_iff in Hy. destruct Hy as (v & <- & _). apply posterior_pos; assumption.
  - intros v _. rewrite <- !INR_IZR_INZ. apply np_div_ok. lra.
Qed.
