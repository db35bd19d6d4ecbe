(** Proofs: error bound of the double-precision entropy and of its local values. *)
From Coq Require Import Reals Lra Lia List ZArith Arith Bool Permutation Psatz.
From Flocq Require Import Core Relative.
From Verif Require Import Res RSum Spec SpecBase Info Info2 Ord MBase MData MEntropy PBase PEntropy MFloat SpecFloat PFloat.
Import ListNotations.
Local Open Scope R_scope.

Lemma base_eps_range b eps : 0 <= eps <= / 10 -> 0 <= base_eps b eps <= / 4.
Proof.
  intros Ee. pose proof uro_pos as U0. pose proof uro_small as U1.
  assert (G : 0 <= (1 + eps) * (1 + uro) / (1 - eps) - 1 <= / 4).
  { split.
    - assert (1 <= (1 + eps) * (1 + uro) / (1 - eps)); [|lra]. apply (Rmult_le_reg_r (1 - eps)); [lra|]. unfold Rdiv. rewrite Rmult_assoc, Rinv_l, Rmult_1_r by lra. nra.
    - assert ((1 + eps) * (1 + uro) / (1 - eps) <= 5 / 4); [|lra]. apply (Rmult_le_reg_r (1 - eps)); [lra|]. unfold Rdiv at 1. rewrite Rmult_assoc, Rinv_l, Rmult_1_r by lra. nra. }
  destruct b as [|r]; unfold base_eps; [lra|]. destruct (Req_EM_T r 2); [lra|]. destruct (Req_EM_T r 10); [lra|exact G].
Qed.

Lemma pow_sum n : 2 <= (1 + uro) ^ n + (1 - uro) ^ n /\ (1 - uro) ^ n <= (1 + uro) ^ n /\ 0 <= (1 - uro) ^ n /\ 1 <= (1 + uro) ^ n.
Proof.
  pose proof uro_pos as U0. pose proof uro_small as U1. induction n as [|n (A & B & C & D)]; [simpl; lra|]. cbn [pow].
  set (x := (1 + uro) ^ n) in *. set (y := (1 - uro) ^ n) in *.
  assert (0 <= uro * (x - y)) by (apply Rmult_le_pos; lra). assert (0 <= uro * (x + y)) by (apply Rmult_le_pos; lra).
  assert (0 <= (1 - uro) * y) by (apply Rmult_le_pos; lra). assert (0 <= uro * x) by (apply Rmult_le_pos; lra). repeat split; lra.
Qed.
Lemma two_sided n e : 0 <= e -> 1 - ((1 + uro) ^ n * (1 + e) - 1) <= (1 - uro) ^ n * (1 - e).
Proof. intros E. destruct (pow_sum n) as (A & B & _ & _). assert (0 <= e * ((1 + uro) ^ n - (1 - uro) ^ n)) by (apply Rmult_le_pos; lra). lra. Qed.

Lemma ln_close p q : 0 < p -> (1 - uro) * p <= q <= (1 + uro) * p -> Rabs (ln q - ln p) <= 2 * uro.
Proof.
  intros P Q. pose proof uro_pos as U0. pose proof uro_small as U1. assert (Q0 : 0 < q) by (assert (0 < (1 - uro) * p) by (apply Rmult_lt_0_compat; lra); lra).
  assert (D : forall a c, 0 < a -> 0 < c -> ln a - ln c = ln (a / c)) by (intros a c A C; rewrite ln_div by assumption; reflexivity).
  apply Rabs_le. split.
  - assert (B : ln p - ln q <= 2 * uro); [|lra]. rewrite D by assumption.
    pose proof (ln_le_sub1 (p / q) (Rdiv_lt_0_compat _ _ P Q0)) as L.
    assert (p / q <= 1 + 2 * uro); [|lra]. apply (Rmult_le_reg_r q); [exact Q0|]. unfold Rdiv. rewrite Rmult_assoc, Rinv_l, Rmult_1_r by lra.
    apply Rle_trans with ((1 + 2 * uro) * ((1 - uro) * p)); [|apply Rmult_le_compat_l; lra].
    assert (0 <= uro * (1 - 2 * uro) * p) by (apply Rmult_le_pos; [apply Rmult_le_pos|]; lra). lra.
  - rewrite D by assumption. pose proof (ln_le_sub1 (q / p) (Rdiv_lt_0_compat _ _ Q0 P)) as L.
    assert (q / p <= 1 + uro); [|lra]. apply (Rmult_le_reg_r p); [exact P|]. unfold Rdiv. rewrite Rmult_assoc, Rinv_l, Rmult_1_r by lra. lra.
Qed.

(** one symbol: rounded probability, logarithm and product *)
Lemma term_bounds E eps b c N : accurate eps E -> 0 <= eps <= / 10 -> float_base b -> (1 <= c <= N)%Z -> (N <= 2 ^ 53)%Z ->
  exists L, f_log_base E b (f_prob c N) = Ok L /\
  let p := IZR c / IZR N in let l := - ln p / unit_of b in let dl := 2 * uro / unit_of b in let e := base_eps b eps in
  let a := fl (f_prob c N * (- L)) in
    0 <= l /\ 0 <= - L /\ (1 - e) * (l - dl) <= - L <= (1 + e) * (l + dl) /\ (L = 0 <-> c = N) /\
    (a = 0 \/ tiny <= a) /\ (a = 0 <-> c = N) /\
    (1 - uro) ^ 2 * (1 - e) * (p * (l - dl)) <= a <= (1 + uro) ^ 2 * (1 + e) * (p * (l + dl)).
Proof.
  intros Ac Ee Fb C NB. pose proof uro_pos as U0. pose proof uro_small as U1. pose proof (unit_range b Fb) as UR. pose proof (base_eps_range b eps Ee) as BR.
  destruct (f_prob_facts c N C NB) as (EQ & PR & PE & P1 & PL). set (p := IZR c / IZR N) in *. set (q := f_prob c N) in *.
  assert (p0 : 0 < p) by (unfold p; apply Rdiv_lt_0_compat; apply IZR_lt; lia).
  assert (p1 : p <= 1).
  { unfold p. apply (Rmult_le_reg_r (IZR N)); [apply IZR_lt; lia|]. unfold Rdiv. rewrite Rmult_assoc, Rinv_l, Rmult_1_r, Rmult_1_l; [apply IZR_le; lia|]. apply not_0_IZR. lia. }
  assert (Hq1 : q = 1 \/ q <= 1 - uro) by (destruct (Z.eq_dec c N) as [e|n]; [left; auto|right; apply PL; lia]).
  destruct (f_log_base_ok E eps b q Ac Ee Fb ltac:(lra) Hq1) as (L & HL & LB & LA & LZ & LU). cbv zeta in LB, LA, LU.
  exists L. split; [exact HL|]. cbv zeta. pose proof (ln_close p q p0 PE) as CL. apply Rabs_le_inv in CL.
  assert (QN : q = 1 <-> c = N).
  { split; [|exact P1]. intros Q1. destruct (Z.eq_dec c N) as [e|n]; [exact e|]. pose proof (PL ltac:(lia)). lra. }
  set (U := unit_of b) in *. assert (iU : 0 < / U) by (apply Rinv_0_lt_compat; lra).
  set (l := - ln p / U) in *. set (dl := 2 * uro / U) in *. set (lam := - ln q / U) in *. set (e := base_eps b eps) in *.
  assert (l0 : 0 <= l) by (unfold l; apply Rmult_le_pos; [pose proof (ln_nonpos p (conj p0 p1)); lra|lra]).
  assert (LL : l - dl <= lam <= l + dl).
  { unfold l, dl, lam, Rdiv. rewrite <- Rmult_minus_distr_r, <- Rmult_plus_distr_r. split; apply Rmult_le_compat_r; lra. }
  assert (NL0 : 0 <= - L) by (assert (0 <= (1 - e) * lam) by (apply Rmult_le_pos; lra); lra).
  assert (LOW : (1 - e) * (l - dl) <= - L) by (eapply Rle_trans; [|apply LB]; apply Rmult_le_compat_l; lra).
  assert (UPP : - L <= (1 + e) * (l + dl)) by (eapply Rle_trans; [apply LB|]; apply Rmult_le_compat_l; lra).
  split; [exact l0|]. split; [exact NL0|]. split; [split; assumption|]. split; [rewrite LZ; exact QN|].
  assert (DIC : q * - L = 0 /\ c = N \/ tiny <= q * - L /\ c <> N).
  { destruct (Z.eq_dec c N) as [ce|cn].
    - left. split; [|exact ce]. rewrite (proj2 LZ (P1 ce)). ring.
    - right. split; [|exact cn]. assert (q1 : q <> 1) by (rewrite QN; exact cn). specialize (LU q1).
      assert (B1 : / 2048 * uro <= - L).
      { apply Rle_trans with ((1 - e) * lam); [|apply LB]. apply Rle_trans with (/ 2 * (uro / U)); [|apply Rmult_le_compat; try lra; apply Rmult_le_pos; lra].
        assert (/ 1024 <= / U) by (apply Rinv_le_contravar; lra). unfold Rdiv. assert (uro * / 1024 <= uro * / U) by (apply Rmult_le_compat_l; lra). lra. }
      apply Rle_trans with (uro * (/ 2048 * uro)); [|apply Rmult_le_compat; try lra].
      rewrite uro_bpow. change (/ 2048) with (bpow radix2 (-11)). rewrite <- !bpow_plus. apply bpow_le. lia. }
  assert (DD : q * - L = 0 \/ tiny <= q * - L) by tauto. destruct (fl_pos_err _ DD) as (B1 & B2 & B3).
  split; [exact B2|]. split.
  { rewrite B3. pose proof tiny_pos. destruct DIC as [(A1 & A2)|(A1 & A2)]; split; intros; try tauto; lra. }
  set (m := - L) in *. clearbody m. split.
  - apply Rle_trans with ((1 - uro) * (q * m)); [|apply B1]. cbn [pow]. rewrite Rmult_1_r.
    replace ((1 - uro) * (1 - uro) * (1 - e) * (p * (l - dl))) with ((1 - uro) * ((1 - uro) * p * ((1 - e) * (l - dl)))) by ring.
    apply Rmult_le_compat_l; [lra|]. apply Rle_trans with ((1 - uro) * p * m).
    + apply Rmult_le_compat_l; [apply Rmult_le_pos; lra|exact LOW].
    + apply Rmult_le_compat_r; lra.
  - apply Rle_trans with ((1 + uro) * (q * m)); [apply B1|]. cbn [pow]. rewrite Rmult_1_r.
    replace ((1 + uro) * (1 + uro) * (1 + e) * (p * (l + dl))) with ((1 + uro) * ((1 + uro) * p * ((1 + e) * (l + dl)))) by ring.
    apply Rmult_le_compat_l; [lra|]. apply Rmult_le_compat; lra.
Qed.

Definition logof (E : fenv) (b : base) (x : R) : R := match f_log_base E b x with Ok v => v | _ => 0 end.
Lemma logof_ok E b x L : f_log_base E b x = Ok L -> logof E b x = L.
Proof. intros H. unfold logof. rewrite H. reflexivity. Qed.

Lemma counts_range (xs : list Z) v : In v (unique xs) -> (1 <= Z.of_nat (count xs v) <= Z.of_nat (length xs))%Z.
Proof.
  intros Hv0. pose proof (proj1 (unique_In xs v) Hv0) as Hv. pose proof (proj1 (count_occ_In Z.eq_dec xs v) Hv) as P. pose proof (count_occ_bound Z.eq_dec v xs).
  unfold count. change (@eq_dec Z _) with Z.eq_dec. lia.
Qed.
Lemma f_probs_dd xs : f_probabilities (dd_of xs) = map (fun v => f_prob (Z.of_nat (count xs v)) (Z.of_nat (length xs))) (unique xs).
Proof. unfold f_probabilities, dd_of, dd_N. cbn [dd_counts dd_data]. unfold unique_counts. rewrite !map_map. reflexivity. Qed.
Lemma prob_IZR (xs : list Z) v : prob xs v = IZR (Z.of_nat (count xs v)) / IZR (Z.of_nat (length xs)).
Proof. unfold prob. rewrite <- !INR_IZR_INZ. reflexivity. Qed.

(** ** the entropy *)
Lemma f_plogp_bounds E eps b (xs : list Z) : accurate eps E -> 0 <= eps <= / 10 -> float_base b -> xs <> [] -> (Z.of_nat (length xs) <= 2 ^ 53)%Z ->
  exists hf, f_plogp E b (f_probabilities (dd_of xs)) = Ok hf /\ 0 <= hf /\ (hf = 0 <-> Forall (fun v => count xs v = length xs) (unique xs)) /\
    let g := gam E b eps (length (unique xs)) in let h := Ent xs / unit_of b in let dl := 2 * uro / unit_of b in
    Rabs (hf - h) <= g * h + (1 + g) * dl.
Proof.
  intros Ac Ee Fb NE NB. pose proof uro_pos as U0. pose proof uro_small as U1. pose proof (unit_range b Fb) as UR. pose proof (base_eps_range b eps Ee) as BR.
  set (N := Z.of_nat (length xs)) in *. set (q := fun v => f_prob (Z.of_nat (count xs v)) N).
  set (a := fun v => fl (q v * - logof E b (q v))).
  set (U := unit_of b) in *. set (dl := 2 * uro / U). set (e := base_eps b eps) in *. set (l := fun v => - ln (prob xs v) / U).
  assert (T : forall v, In v (unique xs) -> f_log_base E b (q v) = Ok (logof E b (q v)) /\ 0 <= l v /\ (a v = 0 \/ tiny <= a v) /\ (a v = 0 <-> count xs v = length xs) /\
     (1 - uro) ^ 2 * (1 - e) * (prob xs v * (l v - dl)) <= a v <= (1 + uro) ^ 2 * (1 + e) * (prob xs v * (l v + dl))).
  { intros v Hv. destruct (term_bounds E eps b (Z.of_nat (count xs v)) N Ac Ee Fb (counts_range xs v Hv) NB) as (L & HL & B0 & _ & _ & _ & B1 & B2 & B3). cbv zeta in B0, B1, B2, B3.
    unfold a, l, q. rewrite (logof_ok _ _ _ _ HL). rewrite <- !prob_IZR in B0, B3.
    split; [exact HL|]. split; [exact B0|]. split; [exact B1|]. split; [|exact B3]. rewrite B2. unfold N. lia. }
  assert (EQ : f_plogp E b (f_probabilities (dd_of xs)) = Ok (f_sum E (map a (unique xs)))).
  { unfold f_plogp. rewrite f_probs_dd. fold N. fold q. rewrite (mapM_ok _ (logof E b)).
    2:{ intros x Hx. apply in_map_iff in Hx. destruct Hx as (v & <- & Hv). apply T, Hv. }
    cbn [bind]. f_equal. rewrite <- f_sum_opp. f_equal. rewrite !map_map. generalize (unique xs) as vs. intros vs.
    induction vs as [|v vs IH]; [reflexivity|]. cbn [map combine fst snd]. rewrite IH. f_equal. unfold a. rewrite <- fl_opp. f_equal. ring. }
  exists (f_sum E (map a (unique xs))). split; [exact EQ|].
  destruct (f_sum_bounds E eps (map a (unique xs)) Ac) as (SB & SZ).
  { apply Forall_forall. intros x Hx. apply in_map_iff in Hx. destruct Hx as (v & <- & Hv). apply T, Hv. }
  rewrite map_length in SB. set (d := depth (f_order E (length (unique xs)))) in *. set (hf := f_sum E (map a (unique xs))) in *.
  assert (SR : sumR (map a (unique xs)) = sumf a (unique xs)) by (unfold sumR; rewrite sumf_map; reflexivity). rewrite SR in SB. set (Sa := sumf a (unique xs)) in *.
  assert (Sa0 : 0 <= Sa). { apply sumf_nonneg. intros v Hv. pose proof tiny_pos. destruct (T v Hv) as (_ & _ & [->|Z] & _); lra. }
  destruct (pow_sum d) as (_ & _ & D0 & D1).
  assert (hf0 : 0 <= hf) by (assert (0 <= (1 - uro) ^ d * Sa) by (apply Rmult_le_pos; assumption); lra).
  split; [exact hf0|]. split.
  { rewrite SZ. rewrite !Forall_forall. split; intros Q.
    - intros v Hv. apply (T v Hv), Q, in_map, Hv.
    - intros x Hx. apply in_map_iff in Hx. destruct Hx as (v & <- & Hv). apply (T v Hv), Q, Hv. }
  cbv zeta. set (g := gam E b eps (length (unique xs))). set (h := Ent xs / U).
  assert (P1 : sumf (prob xs) (unique xs) = 1) by (apply prob_sum1; exact NE).
  assert (PH : sumf (fun v => prob xs v * l v) (unique xs) = h).
  { unfold h, l, Rdiv. rewrite <- EntVec_probs. unfold EntVec. rewrite sumf_map. rewrite (sumf_ext _ (fun v => prob xs v * ln (prob xs v) * - / U)) by (intros v _; ring).
    set (f := fun v => prob xs v * ln (prob xs v)). change (sumf (fun v => f v * - / U) (unique xs) = - sumf f (unique xs) * / U). generalize (unique xs) as vs. intros vs. induction vs as [|v vs IH]; simpl; [ring|]. rewrite IH. ring. }
  assert (LIN : forall c s, sumf (fun v => c * (prob xs v * (l v + s))) (unique xs) = c * (h + s)).
  { intros c s. rewrite <- PH. transitivity (c * (sumf (fun v => prob xs v * l v) (unique xs) + s * sumf (prob xs) (unique xs))); [|rewrite P1; ring].
    generalize (unique xs) as vs. intros vs. induction vs as [|v vs IH]; simpl; [ring|]. rewrite IH. ring. }
  assert (Sup : Sa <= (1 + uro) ^ 2 * (1 + e) * (h + dl)). { rewrite <- LIN. apply sumf_le. intros v Hv. apply (T v Hv). }
  assert (Sdn : (1 - uro) ^ 2 * (1 - e) * (h - dl) <= Sa). { unfold Rminus at 3. rewrite <- LIN. apply sumf_le. intros v Hv. apply (T v Hv). }
  assert (h0 : 0 <= h). { rewrite <- PH. apply sumf_nonneg. intros v Hv. apply Rmult_le_pos; [|apply (T v Hv)]. left. apply prob_pos. apply unique_In, Hv. }
  assert (dl0 : 0 < dl) by (unfold dl; apply Rdiv_lt_0_compat; lra).
  assert (g0 : 0 <= g). { unfold g, gam. fold d e. destruct (pow_sum (d + 2)) as (_ & _ & _ & G1). assert (0 <= (1 + uro) ^ (d + 2) * e) by (apply Rmult_le_pos; lra). lra. }
  assert (UP : hf <= (1 + g) * (h + dl)).
  { apply Rle_trans with ((1 + uro) ^ d * Sa); [apply SB|]. apply Rle_trans with ((1 + uro) ^ d * ((1 + uro) ^ 2 * (1 + e) * (h + dl))); [apply Rmult_le_compat_l; lra|].
    right. unfold g, gam. fold d e. rewrite pow_add. ring. }
  assert (gh : 0 <= g * h) by (apply Rmult_le_pos; assumption). assert (gd : 0 <= g * dl) by (apply Rmult_le_pos; lra).
  assert (DN : h - (g * h + (1 + g) * dl) <= hf).
  { destruct (Rle_dec (h - dl) 0) as [HD|HD]; [lra|].
    assert (C : (1 - g) * (h - dl) <= hf).
    { apply Rle_trans with ((1 - uro) ^ (d + 2) * (1 - e) * (h - dl)).
      - apply Rmult_le_compat_r; [lra|]. unfold g, gam. fold d e. apply two_sided. lra.
      - apply Rle_trans with ((1 - uro) ^ d * Sa); [|apply SB]. rewrite pow_add, !Rmult_assoc. apply Rmult_le_compat_l; [exact D0|]. rewrite <- !Rmult_assoc. exact Sdn. }
    lra. }
  apply Rabs_le. lra.
Qed.
