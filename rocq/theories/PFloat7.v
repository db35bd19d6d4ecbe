(** Proofs: weighted sums of logarithms in double precision, for cross-entropy and the mixture of Jensen-Shannon. *)
From Coq Require Import Reals Lra Lia List ZArith Arith Bool Permutation Psatz.
From Flocq Require Import Core Relative.
From Verif Require Import Res RSum Spec SpecBase SpecEst Info Info2 Ord MBase MData MEntropy MDiv PBase PEntropy PEst MFloat MFloat3 SpecFloat SpecFloat2 PFloat PFloat2 PFloat3.
Import ListNotations.
Local Open Scope R_scope.

Local Instance prec53'' : Prec_gt_0 53. Proof. reflexivity. Qed.

(** a double in (0, 1] is 1 or at most [1 - uro] *)
Lemma fl_below_one x : isfl x -> x <= 1 -> x = 1 \/ x <= 1 - uro.
Proof.
  intros F L. destruct (Req_dec x 1) as [e|n]; [left; exact e|right].
  assert (F1 : isfl 1). { unfold isfl. change 1 with (bpow radix2 0). apply generic_format_bpow. vm_compute. discriminate. }
  assert (P : x <= pred radix2 (FLT_exp (-1074) 53) 1) by (apply (pred_ge_gt radix2 (FLT_exp (-1074) 53)); [exact F|exact F1|lra]).
  assert (Q : pred radix2 (FLT_exp (-1074) 53) 1 = 1 - uro).
  { change 1 with (bpow radix2 0) at 1. rewrite pred_bpow. rewrite uro_bpow. reflexivity. }
  rewrite Q in P. exact P.
Qed.

Lemma ln_pow_close a x y : 0 < x -> (1 - uro) ^ a * x <= y <= (1 + uro) ^ a * x -> Rabs (ln y - ln x) <= 2 * INR a * uro.
Proof.
  intros X0 (A & B). pose proof uro_pos as U0. pose proof uro_small as U1.
  assert (D0 : 0 < (1 - uro) ^ a) by (apply pow_lt; lra). assert (P0 : 0 < (1 + uro) ^ a) by (apply pow_lt; lra).
  assert (Y0 : 0 < y) by (assert (0 < (1 - uro) ^ a * x) by (apply Rmult_lt_0_compat; assumption); lra).
  assert (L1 : ln ((1 - uro) ^ a * x) <= ln y) by (apply ln_monotone; [apply Rmult_lt_0_compat; assumption|exact A]).
  assert (L2 : ln y <= ln ((1 + uro) ^ a * x)) by (apply ln_monotone; assumption).
  rewrite (ln_mult ((1 - uro) ^ a) x D0 X0) in L1. rewrite (ln_mult ((1 + uro) ^ a) x P0 X0) in L2. rewrite ln_pow in L1, L2 by lra.
  pose proof (ln_close 1 (1 - uro) ltac:(lra) ltac:(lra)) as C1. pose proof (ln_close 1 (1 + uro) ltac:(lra) ltac:(lra)) as C2.
  rewrite ln_1 in C1, C2. apply Rabs_le_inv in C1, C2. pose proof (pos_INR a) as A0. set (k := INR a) in *.
  assert (k * ln (1 + uro) <= k * (2 * uro)) by (apply Rmult_le_compat_l; lra).
  assert (k * - (2 * uro) <= k * ln (1 - uro)) by (apply Rmult_le_compat_l; lra).
  apply Rabs_le. lra.
Qed.

Lemma f_sum_tiny E eps (l : list R) : accurate eps E -> List.Forall (fun x => x = 0 \/ tiny <= x) l -> f_sum E l = 0 \/ tiny <= f_sum E l.
Proof.
  intros (_ & _ & _ & PE) F. destruct l as [|x0 r]; [left; reflexivity|]. set (l := x0 :: r) in *.
  assert (LP : (0 < length l)%nat) by (cbn; lia). pose proof (PE _ LP) as O.
  change (f_sum E l) with (fsum (fun i => nth i l 0) (f_order E (length l))). apply fsum_bounds. intros i Hi.
  rewrite List.Forall_forall in F. apply F, nth_In. apply (Permutation_in _ O) in Hi. apply in_seq in Hi. lia.
Qed.
Lemma plogp_weighted {A} (E : fenv) (b : base) (X : A -> R) l : (forall i, In i l -> f_log_base E b (X i) = Ok (logof E b (X i))) ->
  f_plogp E b (map X l) = Ok (f_sum E (map (fun i => fl (X i * - logof E b (X i))) l)).
Proof.
  intros T. unfold f_plogp. rewrite (mapM_ok _ (logof E b)).
  2:{ intros x Hx. apply in_map_iff in Hx. destruct Hx as (v & <- & Hv). apply T, Hv. }
  cbn [bind]. f_equal. rewrite <- f_sum_opp. f_equal. rewrite !map_map. clear T.
  induction l as [|v vs IH]; [reflexivity|]. cbn [map combine fst snd]. rewrite IH. f_equal. rewrite <- fl_opp. f_equal. ring.
Qed.

Section Weighted.
Context {A : Type} (E : fenv) (eps : R) (b : base) (w W x X : A -> R) (l : list A) (a : nat) (kap : R).
Hypothesis Ac : accurate eps E.
Hypothesis Ee : 0 <= eps <= / 10.
Hypothesis Fb : float_base b.
Hypothesis Hw : forall i, In i l -> 0 < w i /\ (1 - uro) ^ a * w i <= W i <= (1 + uro) ^ a * w i /\ bpow radix2 (-200) <= W i.
Hypothesis Hx : forall i, In i l -> 0 < x i <= 1 /\ 0 < X i <= 1 /\ isfl (X i) /\ Rabs (ln (X i) - ln (x i)) <= kap.
Hypothesis Hs : sumf w l <= 1.
Hypothesis Hk : 0 <= kap.

Definition wterm i := fl (W i * - logof E b (X i)).
Lemma weighted_sum :
  (forall i, In i l -> f_log_base E b (X i) = Ok (logof E b (X i))) /\
  let s := f_sum E (map wterm l) in let h := sumf (fun i => w i * (- ln (x i) / unit_of b)) l in
  let g := (1 + uro) ^ (depth (f_order E (length l)) + a + 1) * (1 + base_eps b eps) - 1 in
  0 <= s /\ (s = 0 \/ tiny <= s) /\ (s = 0 <-> forall i, In i l -> X i = 1) /\ 0 <= h /\ Rabs (s - h) <= g * h + (1 + g) * (kap / unit_of b).
Proof.
  pose proof uro_pos as U0. pose proof uro_small as U1. pose proof (unit_range b Fb) as UR. pose proof (base_eps_range b eps Ee) as BR.
  set (U := unit_of b) in *. assert (iU : 0 < / U) by (apply Rinv_0_lt_compat; lra). set (e := base_eps b eps) in *. set (dl := kap / U).
  assert (dl0 : 0 <= dl) by (apply Rmult_le_pos; lra).
  set (lx := fun i => - ln (x i) / U).
  destruct (pow_sum (a + 1)) as (_ & _ & PA0 & PA1). destruct (pow_sum a) as (_ & _ & Pa0 & Pa1).
  assert (T : forall i, In i l -> f_log_base E b (X i) = Ok (logof E b (X i)) /\ 0 <= lx i /\ (wterm i = 0 \/ tiny <= wterm i) /\ (wterm i = 0 <-> X i = 1) /\
     (1 - uro) ^ (a + 1) * (1 - e) * (w i * (lx i - dl)) <= wterm i <= (1 + uro) ^ (a + 1) * (1 + e) * (w i * (lx i + dl))).
  { intros i Hi. destruct (Hw i Hi) as (w0 & WB & WL). destruct (Hx i Hi) as (xr & Xr & XF & CL).
    destruct (f_log_base_ok E eps b (X i) Ac Ee Fb Xr (fl_below_one _ XF (proj2 Xr))) as (L & HL & LB & LA & LZ & LU). cbv zeta in LB, LA, LU. fold U e in LB, LA, LU.
    rewrite (logof_ok _ _ _ _ HL). split; [exact HL|]. set (lam := - ln (X i) / U) in *.
    assert (l0 : 0 <= lx i). { unfold lx. apply Rmult_le_pos; [|lra]. pose proof (ln_nonpos (x i) xr). lra. }
    split; [exact l0|]. apply Rabs_le_inv in CL.
    assert (LL : lx i - dl <= lam <= lx i + dl). { unfold lx, dl, lam, Rdiv. rewrite <- Rmult_minus_distr_r, <- Rmult_plus_distr_r. split; apply Rmult_le_compat_r; lra. }
    assert (NL0 : 0 <= - L) by (assert (0 <= (1 - e) * lam) by (apply Rmult_le_pos; lra); lra).
    assert (W0 : 0 < W i) by (pose proof (bpow_gt_0 radix2 (-200)); lra).
    assert (DIC : W i * - L = 0 /\ X i = 1 \/ tiny <= W i * - L /\ X i <> 1).
    { destruct (Req_dec (X i) 1) as [X1|X1].
      - left. split; [|exact X1]. rewrite (proj2 LZ X1). ring.
      - right. split; [|exact X1]. specialize (LU X1).
        assert (B1 : / 2048 * uro <= - L).
        { apply Rle_trans with ((1 - e) * lam); [|apply LB]. apply Rle_trans with (/ 2 * (uro / U)); [|apply Rmult_le_compat; try lra; apply Rmult_le_pos; lra].
          assert (/ 1024 <= / U) by (apply Rinv_le_contravar; lra). unfold Rdiv. assert (uro * / 1024 <= uro * / U) by (apply Rmult_le_compat_l; lra). lra. }
        apply Rle_trans with (bpow radix2 (-200) * (/ 2048 * uro)).
        + rewrite uro_bpow. change (/ 2048) with (bpow radix2 (-11)). rewrite <- !bpow_plus. apply bpow_le. lia.
        + apply Rmult_le_compat; [apply bpow_ge_0|apply Rmult_le_pos; lra|exact WL|exact B1]. }
    unfold wterm. rewrite (logof_ok _ _ _ _ HL).
    assert (DD : W i * - L = 0 \/ tiny <= W i * - L) by tauto. destruct (fl_pos_err _ DD) as (B1 & B2 & B3).
    split; [exact B2|]. split.
    { rewrite B3. pose proof tiny_pos. destruct DIC as [(A1 & A2)|(A1 & A2)]; split; intros; try tauto; lra. }
    set (m := - L) in *. clearbody m. rewrite !pow_add. cbn [pow]. rewrite !Rmult_1_r. set (pd := (1 - uro) ^ a) in *. set (pu := (1 + uro) ^ a) in *. split.
    - apply Rle_trans with ((1 - uro) * (W i * m)); [|apply B1].
      replace (pd * (1 - uro) * (1 - e) * (w i * (lx i - dl))) with ((1 - uro) * (pd * w i * ((1 - e) * (lx i - dl)))) by ring.
      apply Rmult_le_compat_l; [lra|]. apply Rle_trans with (pd * w i * m).
      + apply Rmult_le_compat_l; [apply Rmult_le_pos; lra|]. apply Rle_trans with ((1 - e) * lam); [apply Rmult_le_compat_l; lra|apply LB].
      + apply Rmult_le_compat_r; [exact NL0|apply WB].
    - apply Rle_trans with ((1 + uro) * (W i * m)); [apply B1|].
      replace (pu * (1 + uro) * (1 + e) * (w i * (lx i + dl))) with ((1 + uro) * (pu * w i * ((1 + e) * (lx i + dl)))) by ring.
      apply Rmult_le_compat_l; [lra|]. apply Rmult_le_compat; try lra. apply Rle_trans with ((1 + e) * lam); [apply LB|apply Rmult_le_compat_l; lra]. }
  split; [intros i Hi; apply (T i Hi)|]. cbv zeta.
  destruct (f_sum_bounds E eps (map wterm l) Ac) as (SB & SZ).
  { apply Forall_forall. intros y Hy. apply in_map_iff in Hy. destruct Hy as (v & <- & Hv). apply T, Hv. }
  rewrite map_length in SB. set (d := depth (f_order E (length l))) in *. set (s := f_sum E (map wterm l)) in *.
  assert (SR : sumR (map wterm l) = sumf wterm l) by (unfold sumR; rewrite sumf_map; reflexivity). rewrite SR in SB. set (Sa := sumf wterm l) in *.
  assert (Sa0 : 0 <= Sa). { apply sumf_nonneg. intros v Hv. pose proof tiny_pos. destruct (T v Hv) as (_ & _ & [->|Z] & _); lra. }
  destruct (pow_sum d) as (_ & _ & D0 & D1).
  assert (s0 : 0 <= s) by (assert (0 <= (1 - uro) ^ d * Sa) by (apply Rmult_le_pos; assumption); lra).
  split; [exact s0|]. split.
  { apply (f_sum_tiny E eps); [exact Ac|]. apply Forall_forall. intros y Hy. apply in_map_iff in Hy. destruct Hy as (v & <- & Hv). apply T, Hv. }
  split.
  { rewrite SZ. rewrite List.Forall_forall. split; intros Q.
    - intros v Hv. apply (T v Hv), Q, in_map, Hv.
    - intros y Hy. apply in_map_iff in Hy. destruct Hy as (v & <- & Hv). apply (T v Hv), Q, Hv. }
  set (h := sumf (fun i => w i * (- ln (x i) / U)) l).
  assert (P0 : 0 <= sumf w l) by (apply sumf_nonneg; intros i Hi; left; apply (Hw i Hi)).
  assert (LIN : forall c t, sumf (fun i => c * (w i * (lx i + t))) l = c * (h + t * sumf w l)).
  { intros c t. unfold h, lx. generalize l as vs. intros vs. induction vs as [|v vs IH]; cbn [sumf]; [ring|]. rewrite IH. ring. }
  assert (h0 : 0 <= h). { apply sumf_nonneg. intros v Hv. apply Rmult_le_pos; [left; apply (Hw v Hv)|apply (T v Hv)]. }
  assert (wd : 0 <= dl * sumf w l <= dl). { split; [apply Rmult_le_pos; assumption|]. rewrite <- (Rmult_1_r dl) at 2. apply Rmult_le_compat_l; assumption. }
  assert (Sup : Sa <= (1 + uro) ^ (a + 1) * (1 + e) * (h + dl)).
  { apply Rle_trans with ((1 + uro) ^ (a + 1) * (1 + e) * (h + dl * sumf w l)); [rewrite <- LIN; apply sumf_le; intros v Hv; apply (T v Hv)|].
    apply Rmult_le_compat_l; [apply Rmult_le_pos; lra|lra]. }
  assert (Sdn : (1 - uro) ^ (a + 1) * (1 - e) * (h - dl) <= Sa).
  { apply Rle_trans with ((1 - uro) ^ (a + 1) * (1 - e) * (h + - dl * sumf w l)); [apply Rmult_le_compat_l; [apply Rmult_le_pos; lra|lra]|].
    rewrite <- LIN. apply sumf_le. intros v Hv. apply (T v Hv). }
  split; [exact h0|]. replace (d + a + 1)%nat with (d + (a + 1))%nat by lia. set (g := (1 + uro) ^ (d + (a + 1)) * (1 + e) - 1).
  assert (g0 : 0 <= g). { unfold g. destruct (pow_sum (d + (a + 1))) as (_ & _ & _ & G1). assert (0 <= (1 + uro) ^ (d + (a + 1)) * e) by (apply Rmult_le_pos; lra). lra. }
  assert (UP : s <= (1 + g) * (h + dl)).
  { apply Rle_trans with ((1 + uro) ^ d * Sa); [apply SB|]. apply Rle_trans with ((1 + uro) ^ d * ((1 + uro) ^ (a + 1) * (1 + e) * (h + dl))); [apply Rmult_le_compat_l; lra|].
    right. unfold g. rewrite (pow_add (1 + uro) d (a + 1)). generalize ((1 + uro) ^ (a + 1)) ((1 + uro) ^ d). intros. ring. }
  assert (gh : 0 <= g * h) by (apply Rmult_le_pos; assumption). assert (gd : 0 <= g * dl) by (apply Rmult_le_pos; lra).
  assert (DN : h - (g * h + (1 + g) * dl) <= s).
  { destruct (Rle_dec (h - dl) 0) as [HD|HD]; [lra|].
    assert (C : (1 - g) * (h - dl) <= s).
    { apply Rle_trans with ((1 - uro) ^ (d + (a + 1)) * (1 - e) * (h - dl)).
      - apply Rmult_le_compat_r; [lra|]. unfold g. apply two_sided. lra.
      - apply Rle_trans with ((1 - uro) ^ d * Sa); [|apply SB]. rewrite (pow_add (1 - uro) d (a + 1)), !Rmult_assoc. apply Rmult_le_compat_l; [exact D0|]. rewrite <- !Rmult_assoc. exact Sdn. }
    lra. }
  apply Rabs_le. lra.
Qed.
End Weighted.

(** ** Python's sum *)
Lemma py_sum_pos (l : list R) : List.Forall (fun x => x = 0 \/ tiny <= x) l ->
  forall acc n, (acc = 0 \/ tiny <= acc) -> forall ex, 0 <= ex -> (1 - uro) ^ n * ex <= acc <= (1 + uro) ^ n * ex ->
  let s := fold_left (fun a x => fl (a + x)) l acc in let k := (n + length l)%nat in
  (s = 0 \/ tiny <= s) /\ (1 - uro) ^ k * (ex + sumR l) <= s <= (1 + uro) ^ k * (ex + sumR l).
Proof.
  intros F. pose proof uro_pos as U0. pose proof uro_small as U1. pose proof tiny_pos as T0. induction F as [|x l X F IH]; intros acc n Ha ex Hex B s k.
  - unfold s, k. cbn [fold_left length]. unfold sumR. cbn [sumf]. rewrite Rplus_0_r, Nat.add_0_r. split; assumption.
  - unfold s, k. cbn [fold_left length]. replace (n + S (length l))%nat with (S n + length l)%nat by lia.
    assert (DD : acc + x = 0 \/ tiny <= acc + x) by (destruct Ha, X; lra). destruct (fl_pos_err _ DD) as (B1 & B2 & _).
    assert (x0 : 0 <= x) by (destruct X; lra). destruct (pow_sum n) as (_ & _ & n0 & n1).
    assert (nle : (1 - uro) ^ n <= 1) by (pose proof (pow_incr (1 - uro) 1 n ltac:(lra)) as Z; rewrite pow1 in Z; exact Z).
    assert (x1 : (1 - uro) ^ n * x <= x) by (rewrite <- (Rmult_1_l x) at 2; apply Rmult_le_compat_r; lra).
    assert (x2 : x <= (1 + uro) ^ n * x) by (rewrite <- (Rmult_1_l x) at 1; apply Rmult_le_compat_r; lra).
    specialize (IH (fl (acc + x)) (S n) B2 (ex + x) ltac:(lra)). cbv zeta in IH.
    replace (ex + sumR (x :: l)) with (ex + x + sumR l) by (unfold sumR; cbn [sumf]; ring). apply IH. cbn [pow]. split.
    + apply Rle_trans with ((1 - uro) * (acc + x)); [|apply B1]. rewrite Rmult_assoc. apply Rmult_le_compat_l; lra.
    + apply Rle_trans with ((1 + uro) * (acc + x)); [apply B1|]. rewrite Rmult_assoc. apply Rmult_le_compat_l; lra.
Qed.
Lemma py_sum_bounds (l : list R) : List.Forall (fun x => x = 0 \/ tiny <= x) l ->
  (py_sum l = 0 \/ tiny <= py_sum l) /\ (1 - uro) ^ length l * sumR l <= py_sum l <= (1 + uro) ^ length l * sumR l.
Proof.
  intros F. pose proof (py_sum_pos l F 0 0%nat (or_introl eq_refl) 0 ltac:(lra) ltac:(simpl; lra)) as Q. cbv zeta in Q.
  rewrite Rplus_0_l in Q. exact Q.
Qed.
(** sums of doubles up to 1 do not exceed their number *)
Lemma py_sum_le_n (l : list R) : List.Forall (fun x => 0 <= x <= 1) l -> forall acc n, 0 <= acc <= IZR n -> (0 <= n)%Z -> (n + Z.of_nat (length l) <= 2 ^ 53)%Z ->
  fold_left (fun a x => fl (a + x)) l acc <= IZR (n + Z.of_nat (length l)).
Proof.
  intros F. induction F as [|x l X F IH]; intros acc n B N0 L; cbn [fold_left length].
  - rewrite Z.add_0_r. apply B.
  - replace (n + Z.of_nat (S (length l)))%Z with (n + 1 + Z.of_nat (length l))%Z by lia. apply IH; [|lia|cbn [length] in L; lia].
    rewrite <- (fl_int (n + 1)) by (cbn [length] in L; lia). split; [rewrite <- fl_0; apply fl_mono; lra|]. apply fl_mono. rewrite plus_IZR. lra.
Qed.
