(** Proofs: Bonachela, ANSB, Grassberger, Chao-Shen, Chao-Wang-Jost. *)
From Coq Require Import Reals Lra Lia List ZArith Arith Bool Permutation Sorted.
From Verif Require Import Res RSum Spec SpecGamma SpecEst Info Info2 Ord MBase MData MEntropy MMI MTE MGeneric MEst SpecBase PBase PEntropy PCoo PMI PMI2 PMI3 PCMI PMI4 PCMI2 PMI5 PMI6 PTE PTE2 PGeneric PLog PEst.
Import ListNotations.
Local Open Scope R_scope.

Lemma digamma_ok n : (0 < n)%nat -> digamma (Z.of_nat n) = Ok (psi n).
Proof.
  intros Hn. unfold digamma. destruct (Z.leb_spec (Z.of_nat n) 0); [lia|]. rewrite Nat2Z.id. reflexivity.
Qed.

Lemma IZR_pos_len (xs : list Z) : IZR (Z.of_nat (length xs)) = INR (length xs).
Proof. symmetry. apply INR_IZR_INZ. Qed.

(** ** Bonachela *)
Lemma harm_mask m M : (m <= M)%nat ->
  sumf (fun j => (if (Z.of_nat m <? Z.of_nat j)%Z then 1 else 0) * (1 / INR j)) (seq 1 M) = harm M - harm m.
Proof.
  induction 1 as [|M HM IH].
  - rewrite (sumf_ext _ (fun _ => 0)); [rewrite sumf_zero; ring|].
    intros j Hj. apply in_seq in Hj. destruct (Z.ltb_spec (Z.of_nat m) (Z.of_nat j)); [lia|ring].
  - rewrite seq_S, sumf_app, IH, harm_S. cbn [sumf].
    destruct (Z.ltb_spec (Z.of_nat m) (Z.of_nat (1 + M))); [|lia]. cbn [Nat.add]. unfold Rdiv. ring.
Qed.

Lemma bonachela_ok b xs : valid_base b -> xs <> [] ->
  bonachela_simple b (dd_of xs) = Ok (BonachelaH xs / unit_of b).
Proof.
  intros V NE. unfold bonachela_simple. rewrite dd_N_of, dd_counts_of.
  pose proof (inr_len_pos xs NE) as HN. rewrite <- INR_IZR_INZ.
  rewrite np_div_ok by lra. cbn [bind]. rewrite to_base_ok by exact V. f_equal. f_equal.
  unfold BonachelaH. rewrite plus_INR. change (INR 2) with (1 + 1). f_equal.
  rewrite <- bycount_unique. unfold sumR. rewrite !sumf_map. apply sumf_ext. intros v Hv.
  replace (Z.of_nat (count xs v) + 1)%Z with (Z.of_nat (count xs v + 1)) by lia.
  rewrite <- INR_IZR_INZ. f_equal.
  replace (Z.to_nat (Z.of_nat (length xs) + 1)) with (S (length xs)) by lia.
  rewrite <- (harm_mask (count xs v + 1) (length xs + 2)) by (pose proof (count_le xs v); lia).
  replace (length xs + 2)%nat with (S (S (length xs))) by lia.
  change (seq 1 (S (S (length xs)))) with (1%nat :: seq 2 (S (length xs))). cbn [sumf].
  destruct (Z.ltb_spec (Z.of_nat (count xs v + 1)) (Z.of_nat 1)); [lia|]. rewrite Rmult_0_l, Rplus_0_l.
  rewrite !sumf_map. apply sumf_ext. intros j _. rewrite <- INR_IZR_INZ. reflexivity.
Qed.

Lemma bonachela_nonneg {A} `{EqDec A} (xs : list A) : 0 <= BonachelaH xs.
Proof.
  unfold BonachelaH. apply Rmult_le_pos; [|left; apply Rinv_0_lt_compat, INR_pos; lia].
  apply sumf_nonneg. intros v _. apply Rmult_le_pos; [apply pos_INR|].
  pose proof (harm_mono (count xs v + 1) (length xs + 2)) as M. pose proof (count_le xs v). specialize (M ltac:(lia)). lra.
Qed.

(** ** ANSB *)
Lemma ansb_ok b xs : valid_base b -> xs <> [] -> (nvals xs < length xs)%nat ->
  ansb_simple None b (dd_of xs) = Ok (AnsbH xs / unit_of b).
Proof.
  intros V NE HK. unfold ansb_simple. rewrite dd_N_of, dd_K_of.
  destruct (Z.eqb_spec (Z.of_nat (length xs) - Z.of_nat (nvals xs)) 0); [lia|].
  rewrite <- INR_IZR_INZ, np_log_ok by (apply inr_len_pos; exact NE). cbn [bind].
  replace (Z.of_nat (length xs) - Z.of_nat (nvals xs))%Z with (Z.of_nat (length xs - nvals xs)) by lia.
  rewrite digamma_ok by lia. cbn [bind]. rewrite to_base_ok by exact V. reflexivity.
Qed.

Lemma nvals_le {A} `{EqDec A} (xs : list A) : (nvals xs <= length xs)%nat.
Proof. apply distinct_length_le. Qed.

Lemma nvals_pos {A} `{EqDec A} (xs : list A) : xs <> [] -> (0 < nvals xs)%nat.
Proof. apply distinct_length_pos. Qed.

Lemma ansb_undefined b xs : nvals xs = length xs -> ansb_simple None b (dd_of xs) = NonFinite.
Proof.
  intros E. unfold ansb_simple. rewrite dd_N_of, dd_K_of, E.
  destruct (Z.eqb_spec (Z.of_nat (length xs) - Z.of_nat (length xs)) 0); [reflexivity|lia].
Qed.

Lemma gamma_pos : 0 < euler_gamma.
Proof.
  pose proof (gamma_ge 1) as G. unfold harm in G. simpl in G.
  assert (ln (1 + 1) < 1).
  { pose proof (ln_lt_sub1 2 ltac:(lra) ltac:(lra)) as Q. replace (1 + 1) with 2 by ring. lra. }
  lra.
Qed.

Lemma ansb_pos {A} `{EqDec A} (xs : list A) : xs <> [] -> (nvals xs < length xs)%nat -> 0 < AnsbH xs.
Proof.
  intros NE HK. unfold AnsbH. pose proof (nvals_pos xs NE).
  pose proof (psi_le_ln (length xs - nvals xs) ltac:(lia)) as P.
  assert (L : ln (INR (length xs - nvals xs)) <= ln (INR (length xs))).
  { apply ln_monotone; [apply INR_pos; lia|apply le_INR; lia]. }
  assert (L2 : ln 2 <= ln (INR (length xs))).
  { apply ln_monotone; [lra|]. replace 2 with (INR 2) by (simpl; ring). apply le_INR. lia. }
  pose proof gamma_pos. lra.
Qed.

(** ** Grassberger *)
Lemma grassberger_ok b xs : valid_base b -> xs <> [] ->
  grassberger_calc b (dd_of xs) = Ok (VArr (map (fun x => grassberger_local xs x / unit_of b) xs)).
Proof.
  intros V NE. unfold grassberger_calc. rewrite dd_counts_of. cbn [dd_of dd_uniq].
  fold (dd_of xs). rewrite (lookup_ok (fun v => Z.of_nat (count xs v))). cbn [bind].
  rewrite dd_N_of, <- INR_IZR_INZ, np_log_ok by (apply inr_len_pos; exact NE). cbn [bind].
  rewrite (mapM_map_ok _ _ (grassberger_local xs)).
  - cbn [bind]. rewrite mapM_to_base by exact V. unfold rmap. cbn [bind]. rewrite map_map. reflexivity.
  - intros x Hx. apply count_pos in Hx. rewrite digamma_ok by exact Hx. cbn [bind].
    unfold grassberger_local. rewrite Nat2Z.id. f_equal. f_equal. f_equal.
    replace (Z.of_nat (count xs x) + 1)%Z with (Z.of_nat (count xs x + 1)) by lia. rewrite <- INR_IZR_INZ. reflexivity.
Qed.

Lemma count_repeat {A} `{EqDec A} (v : A) n : count (repeat v n) v = n.
Proof.
  unfold count. induction n as [|n IH]; [reflexivity|]. simpl.
  destruct (eq_dec v v); [rewrite IH; reflexivity|congruence].
Qed.

Lemma pow_m1_even k : (-1) ^ (2 * k) = 1.
Proof. rewrite pow_mult. replace ((-1) ^ 2) with 1 by ring. apply pow1. Qed.

Lemma grassberger_even_constant {A} `{EqDec A} (v : A) k : (0 < k)%nat -> GrassbergerH (repeat v (2 * k)) < 0.
Proof.
  intros Hk. unfold GrassbergerH. rewrite repeat_length.
  assert (P : 0 < INR (2 * k)) by (apply INR_pos; lia).
  rewrite (sumf_ext _ (fun _ => ln (INR (2 * k)) - psi (2 * k) - 1 / INR (2 * k + 1))).
  - rewrite sumf_const, repeat_length. pose proof (psi_gt (2 * k) ltac:(lia)) as B.
    replace (INR (2 * k) * (ln (INR (2 * k)) - psi (2 * k) - 1 / INR (2 * k + 1)) / INR (2 * k))
      with (ln (INR (2 * k)) - psi (2 * k) - 1 / INR (2 * k + 1)).
    + unfold Rdiv at 1. lra.
    + field. split; [apply not_0_INR; lia|lra].
  - intros x Hx. apply repeat_spec in Hx. subst x. unfold grassberger_local.
    rewrite count_repeat, repeat_length, pow_m1_even. reflexivity.
Qed.

Lemma grassberger_odd_nonneg {A} `{EqDec A} (xs : list A) :
  (forall v, In v xs -> Nat.Odd (count xs v)) -> 0 <= GrassbergerH xs.
Proof.
  intros HO. unfold GrassbergerH. destruct xs as [|a xs'] eqn:E; [simpl; unfold Rdiv; lra|]. rewrite <- E in *.
  assert (NE : xs <> []) by congruence. pose proof (inr_len_pos xs NE) as HN.
  apply Rmult_le_pos; [|left; apply Rinv_0_lt_compat; exact HN].
  apply sumf_nonneg. intros x Hx. unfold grassberger_local.
  pose proof (proj1 (count_pos xs x) Hx) as C. pose proof (count_le xs x) as C2.
  destruct (HO x Hx) as (k & Ek). rewrite Ek at 2.
  rewrite pow_add, pow_m1_even, pow_1, Rmult_1_l.
  pose proof (psi_le_ln _ C) as P.
  assert (L : ln (INR (count xs x)) <= ln (INR (length xs))) by (apply ln_monotone; [apply INR_pos; exact C|apply le_INR; exact C2]).
  assert (0 < / INR (count xs x + 1)) by (apply Rinv_0_lt_compat, INR_pos; lia).
  unfold Rdiv. lra.
Qed.

(** ** Chao-Shen *)
Lemma freq_mass {A} `{EqDec A} (xs : list A) r : (r * freq r xs <= length xs)%nat.
Proof.
  apply INR_le. rewrite mult_INR, freq_bycount, <- (bycount_id xs). unfold bycount. rewrite <- sumf_scal.
  apply sumf_le. intros v _. destruct (Nat.eqb_spec (count xs v) r) as [->|]; unfold ind.
  - lra.
  - rewrite Rmult_0_r. apply pos_INR.
Qed.

Lemma cs_coverage_bounds {A} `{EqDec A} (xs : list A) : xs <> [] -> 0 < cs_coverage xs <= 1.
Proof.
  intros NE. unfold cs_coverage. pose proof (inr_len_pos xs NE) as HN.
  pose proof (freq_mass xs 1) as F. rewrite Nat.mul_1_l in F.
  assert (L : (0 < length xs)%nat) by (destruct xs; simpl; [congruence|lia]).
  set (f := if Nat.eqb (freq 1 xs) (length xs) then (freq 1 xs - 1)%nat else freq 1 xs).
  assert (Hf : (f < length xs)%nat) by (unfold f; destruct (Nat.eqb_spec (freq 1 xs) (length xs)); lia).
  apply lt_INR in Hf. pose proof (pos_INR f). split.
  - assert (INR f / INR (length xs) < 1); [|lra].
    apply Rmult_lt_reg_r with (INR (length xs)); [exact HN|]. unfold Rdiv. rewrite Rmult_assoc, Rinv_l by lra. lra.
  - assert (0 <= INR f / INR (length xs)); [|lra]. apply Rmult_le_pos; [assumption|]. left. apply Rinv_0_lt_compat. exact HN.
Qed.

Lemma count_frac {A} `{EqDec A} (xs : list A) v : In v xs -> 0 < INR (count xs v) / INR (length xs) <= 1.
Proof. intros Hv. fold (prob xs v). split; [apply prob_pos; exact Hv|apply prob_le1]. Qed.

Lemma pow_lt_1 q n : 0 <= q < 1 -> (0 < n)%nat -> q ^ n < 1.
Proof.
  intros Hq Hn. destruct n as [|n]; [lia|]. clear Hn. induction n as [|n IH]; [simpl; lra|].
  change (q ^ S (S n)) with (q * q ^ S n). assert (0 <= q ^ S n) by (apply pow_le; lra).
  apply Rle_lt_trans with (q * 1); [|lra]. apply Rmult_le_compat_l; lra.
Qed.

Lemma cs_inclusion p n : 0 < p <= 1 -> (0 < n)%nat -> 0 < 1 - (1 - p) ^ n <= 1.
Proof.
  intros Hp Hn. pose proof (pow_lt_1 (1 - p) n ltac:(lra) Hn). assert (0 <= (1 - p) ^ n) by (apply pow_le; lra). lra.
Qed.

Lemma cs_adjusted {A} `{EqDec A} (xs : list A) v : xs <> [] -> In v xs ->
  0 < cs_coverage xs * (INR (count xs v) / INR (length xs)) <= 1.
Proof.
  intros NE Hv. pose proof (cs_coverage_bounds xs NE). pose proof (count_frac xs v Hv). split.
  - apply Rmult_lt_0_compat; lra.
  - replace 1 with (1 * 1) by ring. apply Rmult_le_compat; lra.
Qed.

Lemma chao_shen_ok b xs : valid_base b -> xs <> [] ->
  chao_shen_simple b (dd_of xs) = Ok (ChaoShenH xs / unit_of b).
Proof.
  intros V NE. unfold chao_shen_simple.
  pose proof (count_of_ok 1 xs) as C1. change (Z.of_nat 1) with 1%Z in C1. rewrite C1, dd_N_of.
  pose proof (inr_len_pos xs NE) as HN.
  assert (L : (0 < length xs)%nat) by (destruct xs; simpl; [congruence|lia]).
  rewrite <- (INR_IZR_INZ (length xs)). rewrite np_div_ok by lra. cbn [bind].
  assert (EC : 1 - IZR (if (Z.of_nat (freq 1 xs) =? Z.of_nat (length xs))%Z then (Z.of_nat (freq 1 xs) - 1)%Z else Z.of_nat (freq 1 xs)) / INR (length xs) = cs_coverage xs).
  { unfold cs_coverage. destruct (Z.eqb_spec (Z.of_nat (freq 1 xs)) (Z.of_nat (length xs))) as [E|E];
    destruct (Nat.eqb_spec (freq 1 xs) (length xs)); try lia.
    - replace (Z.of_nat (freq 1 xs) - 1)%Z with (Z.of_nat (freq 1 xs - 1)) by lia. rewrite <- INR_IZR_INZ. reflexivity.
    - rewrite <- INR_IZR_INZ. reflexivity. }
  rewrite EC. clear EC. rewrite probs_dd_of, map_map.
  rewrite (mapM_map_ok _ _ (fun v => let pa := cs_coverage xs * (INR (count xs v) / INR (length xs)) in
                      pa * ln pa / (1 - (1 - pa) ^ length xs))).
  - cbn [bind]. rewrite to_base_ok by exact V. f_equal. f_equal. unfold ChaoShenH. f_equal.
    rewrite <- bycount_unique. unfold sumR. rewrite sumf_map. reflexivity.
  - intros v Hv. assert (Hv' : In v xs) by (apply unique_In; exact Hv).
    pose proof (cs_adjusted xs v NE Hv') as Q. unfold prob. cbv zeta.
    set (pa := cs_coverage xs * (INR (count xs v) / INR (length xs))) in *.
    rewrite np_log_ok by lra. cbn [bind]. rewrite Nat2Z.id. apply np_div_ok.
    pose proof (cs_inclusion pa (length xs) Q L). lra.
Qed.

Lemma chao_shen_nonneg {A} `{EqDec A} (xs : list A) : xs <> [] -> 0 <= ChaoShenH xs.
Proof.
  intros NE. unfold ChaoShenH, bycount. rewrite <- sumf_opp. apply sumf_nonneg. intros v Hv. cbv zeta.
  apply (proj1 (distinct_In xs v)) in Hv. pose proof (cs_adjusted xs v NE Hv) as Q.
  set (pa := cs_coverage xs * (INR (count xs v) / INR (length xs))) in *.
  assert (L : (0 < length xs)%nat) by (destruct xs; simpl; [congruence|lia]).
  pose proof (cs_inclusion pa (length xs) Q L) as I.
  replace (- (pa * ln pa / (1 - (1 - pa) ^ length xs))) with (pa * (- ln pa) * / (1 - (1 - pa) ^ length xs)) by (field; lra).
  apply Rmult_le_pos; [|left; apply Rinv_0_lt_compat; lra].
  apply Rmult_le_pos; [lra|]. pose proof (ln_nonpos pa ltac:(lra)). lra.
Qed.

(** ** Chao-Wang-Jost *)
Lemma frac_01 x y : 0 < x -> 0 <= y -> 0 < x / (y + x) <= 1.
Proof.
  intros Hx Hy. split; [apply Rdiv_lt_0_compat; lra|].
  apply Rmult_le_reg_r with (y + x); [lra|]. unfold Rdiv. rewrite Rmult_assoc, Rinv_l by lra. lra.
Qed.

Lemma len_ge1 {A} (xs : list A) : xs <> [] -> 0 <= INR (length xs) - 1.
Proof. intros NE. pose proof (INR_ge1 (length xs)). destruct xs; [congruence|]. specialize (H ltac:(simpl; lia)). lra. Qed.

Lemma cwj_coverage_bounds {A} `{EqDec A} (xs : list A) : xs <> [] -> 0 < cwj_coverage xs <= 1.
Proof.
  intros NE. unfold cwj_coverage. pose proof (len_ge1 xs NE) as L1.
  destruct (Nat.ltb_spec 0 (freq 2 xs)) as [F2|F2].
  - apply frac_01; [pose proof (INR_pos _ F2); lra|]. apply Rmult_le_pos; [exact L1|apply pos_INR].
  - destruct (Nat.ltb_spec 0 (freq 1 xs)) as [F1|F1]; [|lra].
    apply frac_01; [lra|]. apply Rmult_le_pos; [exact L1|]. pose proof (INR_ge1 _ F1). lra.
Qed.

Lemma cwj_A_ok (xs : list Z) : xs <> [] ->
  cwj_A (Z.of_nat (length xs)) (Z.of_nat (freq 1 xs)) (Z.of_nat (freq 2 xs)) = Ok (cwj_coverage xs).
Proof.
  intros NE. unfold cwj_A, cwj_coverage. pose proof (len_ge1 xs NE) as L1. rewrite <- !INR_IZR_INZ.
  destruct (Z.ltb_spec 0 (Z.of_nat (freq 2 xs))); destruct (Nat.ltb_spec 0 (freq 2 xs)); try lia.
  - apply np_div_ok. pose proof (INR_pos (freq 2 xs) ltac:(lia)).
    assert (0 <= (INR (length xs) - 1) * INR (freq 1 xs)) by (apply Rmult_le_pos; [exact L1|apply pos_INR]). lra.
  - destruct (Z.ltb_spec 0 (Z.of_nat (freq 1 xs))); destruct (Nat.ltb_spec 0 (freq 1 xs)); try lia; [|reflexivity].
    apply np_div_ok. pose proof (INR_ge1 (freq 1 xs) ltac:(lia)).
    assert (0 <= (INR (length xs) - 1) * (INR (freq 1 xs) - 1)) by (apply Rmult_le_pos; lra). lra.
Qed.

Lemma powerRZ_neg_nat x n : (0 < n)%nat -> powerRZ x (1 - Z.of_nat n) = / x ^ (n - 1).
Proof.
  intros Hn. destruct n as [|[|m]]; [lia| |].
  - simpl. rewrite Rinv_1. reflexivity.
  - replace (1 - Z.of_nat (S (S m)))%Z with (Z.neg (Pos.of_succ_nat m)) by lia.
    cbn [powerRZ]. rewrite SuccNat2Pos.id_succ. reflexivity.
Qed.

Lemma filter_all {A} (p : A -> bool) (l : list A) : (forall x, In x l -> p x = true) -> filter p l = l.
Proof.
  intros H. induction l as [|x l IH]; [reflexivity|]. simpl. rewrite (H x (or_introl eq_refl)).
  f_equal. apply IH. intros y Hy. apply H. right. exact Hy.
Qed.

Lemma cwj_ok b xs : valid_base b -> xs <> [] ->
  cwj_simple b (dd_of xs) = Ok (ChaoWangJostH xs / unit_of b).
Proof.
  intros V NE. unfold cwj_simple.
  pose proof (count_of_ok 1 xs) as C1. change (Z.of_nat 1) with 1%Z in C1.
  pose proof (count_of_ok 2 xs) as C2. change (Z.of_nat 2) with 2%Z in C2.
  rewrite C1, C2, dd_N_of, cwj_A_ok by exact NE. cbn [bind].
  assert (L : (0 < length xs)%nat) by (destruct xs; simpl; [congruence|lia]).
  pose proof (inr_len_pos xs NE) as HN.
  rewrite digamma_ok by exact L. cbn [bind]. rewrite dd_counts_of.
  assert (F : filter (fun c => (1 <=? c)%Z) (map (fun v => Z.of_nat (count xs v)) (unique xs)) = map (fun v => Z.of_nat (count xs v)) (unique xs)).
  { apply filter_all.
    intros c Hc. apply in_map_iff in Hc. destruct Hc as (v & <- & Hv). apply Z.leb_le.
    assert (Hv' : In v xs) by (apply unique_In; exact Hv). apply count_pos in Hv'. lia. }
  rewrite F. clear F.
  rewrite (mapM_map_ok _ _ (fun v => INR (count xs v) * (psi (length xs) - psi (count xs v)))).
  2:{ intros v Hv. assert (Hv' : In v xs) by (apply unique_In; exact Hv). apply count_pos in Hv'.
      rewrite digamma_ok by exact Hv'. cbn [bind]. rewrite <- INR_IZR_INZ. reflexivity. }
  cbn [bind]. rewrite <- !INR_IZR_INZ. rewrite np_div_ok by lra. cbn [bind].
  assert (E1 : sumR (map (fun v => INR (count xs v) * (psi (length xs) - psi (count xs v))) (unique xs)) / INR (length xs)
     = bycount (fun n => INR n / INR (length xs) * (psi (length xs) - psi n)) xs).
  { rewrite <- bycount_unique. unfold sumR. rewrite sumf_map, <- sumf_div. apply sumf_ext. intros v _. unfold Rdiv. ring. }
  rewrite E1. unfold ChaoWangJostH.
  pose proof (cwj_coverage_bounds xs NE) as HA.
  destruct (Req_EM_T (cwj_coverage xs) 1) as [EA|NA].
  - cbn [bind]. rewrite to_base_ok by exact V. reflexivity.
  - assert (F1 : (0 < freq 1 xs)%nat).
    { destruct (Nat.eq_dec (freq 1 xs) 0) as [E0|]; [|lia]. exfalso. apply NA. unfold cwj_coverage. rewrite E0.
      destruct (Nat.ltb_spec 0 (freq 2 xs)) as [F2|]; [|reflexivity].
      pose proof (INR_pos _ F2). change (INR 0) with 0. field. lra. }
    destruct (Z.ltb_spec 0 (Z.of_nat (freq 1 xs))); [|lia].
    rewrite np_log_ok by lra. cbn [bind]. rewrite to_base_ok by exact V. f_equal. f_equal. f_equal.
    rewrite powerRZ_neg_nat by exact L. rewrite Nat2Z.id.
    unfold sumR. rewrite sumf_map.
    rewrite (sumf_ext (fun x => 1 / INR x * (1 - cwj_coverage xs) ^ x) (fun r => / INR r * (1 - cwj_coverage xs) ^ r))
      by (intros; unfold Rdiv; ring).
    unfold Rdiv. ring.
Qed.

(** the digamma part is Zhang's estimator *)
Lemma cwj_first {A} `{EqDec A} (xs : list A) :
  bycount (fun n => INR n / INR (length xs) * (psi (length xs) - psi n)) xs = ZhangH xs.
Proof. unfold ZhangH. apply bycount_ext. intros n _. rewrite psi_diff. reflexivity. Qed.

Lemma cwj_ge_zhang {A} `{EqDec A} (xs : list A) : xs <> [] -> ZhangH xs <= ChaoWangJostH xs.
Proof.
  intros NE. unfold ChaoWangJostH. rewrite cwj_first.
  destruct (Req_EM_T (cwj_coverage xs) 1) as [|NA]; [lra|].
  pose proof (cwj_coverage_bounds xs NE) as HA. pose proof (inr_len_pos xs NE) as HN.
  assert (HA1 : 0 <= 1 - cwj_coverage xs < 1) by lra.
  pose proof (ln_series_le (length xs - 1) _ HA1) as S1.
  replace (1 - (1 - cwj_coverage xs)) with (cwj_coverage xs) in S1 by ring.
  assert (0 <= INR (freq 1 xs) / INR (length xs) / (1 - cwj_coverage xs) ^ (length xs - 1)).
  { apply Rmult_le_pos; [apply Rmult_le_pos; [apply pos_INR|left; apply Rinv_0_lt_compat; exact HN]|].
    left. apply Rinv_0_lt_compat. apply pow_lt. lra. }
  assert (0 <= INR (freq 1 xs) / INR (length xs) / (1 - cwj_coverage xs) ^ (length xs - 1) *
    (- ln (cwj_coverage xs) - sumf (fun r => / INR r * (1 - cwj_coverage xs) ^ r) (seq 1 (length xs - 1)))).
  { apply Rmult_le_pos; [assumption|lra]. }
  lra.
Qed.

(** Zhang dominates the plug-in entropy *)
Lemma harm_diff_ge_ln n m : (1 <= n)%nat -> (n <= m)%nat -> ln (INR m) - ln (INR n) <= harm (m - 1) - harm (n - 1).
Proof.
  intros Hn. induction 1 as [|m Hm IH]; [lra|].
  replace (S m - 1)%nat with (S (m - 1)) by lia. rewrite harm_S. replace (S (m - 1)) with m by lia.
  pose proof (ln_step m ltac:(lia)). lra.
Qed.

Lemma Ent_bycount {A} `{EqDec A} (xs : list A) : xs <> [] ->
  Ent xs = bycount (fun n => INR n / INR (length xs) * (ln (INR (length xs)) - ln (INR n))) xs.
Proof.
  intros NE. unfold Ent, bycount. rewrite <- sumf_opp. apply sumf_ext. intros v Hv.
  apply (proj1 (distinct_In xs v)) in Hv. unfold prob.
  rewrite ln_div; [ring|apply INR_pos, count_pos; exact Hv|apply inr_len_pos; exact NE].
Qed.

Lemma zhang_ge_Ent {A} `{EqDec A} (xs : list A) : xs <> [] -> Ent xs <= ZhangH xs.
Proof.
  intros NE. rewrite Ent_bycount by exact NE. unfold ZhangH, bycount. apply sumf_le. intros v Hv.
  apply (proj1 (distinct_In xs v)) in Hv. apply Rmult_le_compat_l; [apply count_frac in Hv; lra|].
  apply harm_diff_ge_ln; [apply count_pos; exact Hv|apply count_le].
Qed.
