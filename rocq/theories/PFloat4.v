(** Proofs: rounding errors of the sum over the cells of a contingency table. *)
From Coq Require Import Reals Lra Lia List ZArith Arith Bool Permutation Psatz.
From Flocq Require Import Core Relative.
From Verif Require Import Res RSum Spec SpecBase Info Info2 Ord MBase MData MEntropy MMI MTE PBase PEntropy PCoo PMI PMI2 PCMI
  MFloat SpecFloat MFloat2 PFloat PFloat2 PFloat3.
Import ListNotations.
Local Open Scope R_scope.

Lemma mapM_ex {A B} (F : A -> res B) (Q : A -> B -> Prop) l : (forall x, In x l -> exists y, F x = Ok y /\ Q x y) ->
  exists ys, mapM F l = Ok ys /\ Forall2 Q l ys.
Proof.
  induction l as [|x r IH]; intros H; [exists []; split; [reflexivity|constructor]|].
  destruct (H x (or_introl eq_refl)) as (y & E1 & Q1). destruct IH as (ys & E2 & Q2); [intros z Hz; apply H; right; exact Hz|].
  exists (y :: ys). split; [cbn [mapM]; rewrite E1; cbn [bind]; rewrite E2; reflexivity|constructor; assumption].
Qed.

(** the size of the logarithm of the sample size in the chosen unit *)
Lemma lnN_half (n : Z) : (2 <= n)%Z -> / 2 <= ln (IZR n).
Proof.
  intros L. assert (2 <= IZR n) by (apply IZR_le; exact L). assert (n0 : 0 < IZR n) by lra. pose proof (ln_le_sub1 (/ IZR n) (Rinv_0_lt_compat _ n0)) as Q. rewrite ln_Rinv in Q by lra.
  assert (/ IZR n <= / 2) by (apply Rinv_le_contravar; lra). lra.
Qed.
Lemma M_ok b (n : Z) : float_base b -> (2 <= n)%Z -> unit_ok (ln (IZR n) / unit_of b) /\ / 2048 <= ln (IZR n) / unit_of b /\ / unit_of b <= 2 * (ln (IZR n) / unit_of b).
Proof.
  intros Fb L. pose proof (unit_range b Fb) as UR. pose proof (lnN_half n L) as LN. pose proof uro_pos as U0. pose proof uro_small as U1.
  set (U := unit_of b) in *. set (a := ln (IZR n)) in *. assert (IU : 0 < / U) by (apply Rinv_0_lt_compat; lra).
  assert (I1 : / 1024 <= / U) by (apply Rinv_le_contravar; lra).
  assert (M0 : / 2048 <= a / U).
  { unfold Rdiv. apply Rle_trans with (/ 2 * / 1024); [lra|]. apply Rmult_le_compat; lra. }
  split; [split; [lra|]|split; [exact M0|]].
  - eapply Rle_trans; [apply omega_small|]. apply Rmult_le_compat_l; lra.
  - unfold Rdiv. assert (/ 2 * / U <= a * / U) by (apply Rmult_le_compat_r; lra). lra.
Qed.

Lemma f_logz_ok E eps b z (n : Z) c : accurate eps E -> 0 <= eps <= / 10 -> float_base b -> (2 <= n)%Z -> (1 <= z)%Z -> ln (IZR z) <= c * ln (IZR n) ->
  exists L, f_logz E b z = Ok L /\ ap (ln (IZR n) / unit_of b) c (c * base_eps b eps + 5 * uro) L (ln (IZR z) / unit_of b).
Proof.
  intros Ac Ee Fb Hn Hz Hc. pose proof uro_pos as U0. pose proof uro_small as U1. pose proof (unit_range b Fb) as UR. pose proof (base_eps_range b eps Ee) as BR.
  destruct (M_ok b n Fb Hn) as (_ & _ & MU). assert (z1 : 1 <= IZR z) by (apply IZR_le; exact Hz).
  assert (F1 : fl 1 = 1) by (change 1 with (IZR 1); apply fl_int; simpl; lia). assert (F2 : fl 2 = 2) by (change 2 with (IZR 2); apply fl_int; simpl; lia).
  assert (X : fl (IZR z) = 1 \/ 2 <= fl (IZR z)).
  { destruct (Z.eq_dec z 1) as [->|N1]; [left; exact F1|right]. rewrite <- F2. apply fl_mono. apply IZR_le. lia. }
  assert (X1 : 1 <= fl (IZR z)) by lra.
  destruct (f_log_base_ge E eps b (fl (IZR z)) Ac Ee Fb X) as (L & EL & LB). exists L. split; [exact EL|].
  assert (T : tiny <= IZR z) by (apply Rle_trans with 1; [change 1 with (bpow radix2 0); apply tiny_le; lia|exact z1]).
  destruct (fl_pos_err (IZR z) (or_intror T)) as (FE & _). set (x := fl (IZR z)) in *. set (w := IZR z) in *.
  assert (LC : Rabs (ln x - ln w) <= 2 * uro).
  { assert (A : ln (x / w) = ln x - ln w) by (rewrite ln_div by lra; reflexivity).
    assert (B : ln (w / x) = ln w - ln x) by (rewrite ln_div by lra; reflexivity).
    pose proof (ln_le_sub1 (x / w) ltac:(apply Rdiv_lt_0_compat; lra)) as Q1. pose proof (ln_le_sub1 (w / x) ltac:(apply Rdiv_lt_0_compat; lra)) as Q2.
    assert (x / w <= 1 + uro) by (apply (Rmult_le_reg_r w); [lra|]; unfold Rdiv; rewrite Rmult_assoc, Rinv_l, Rmult_1_r by lra; lra).
    assert (w / x <= 1 + 2 * uro).
    { apply (Rmult_le_reg_r x); [lra|]. unfold Rdiv. rewrite Rmult_assoc, Rinv_l, Rmult_1_r by lra.
      apply Rle_trans with ((1 + 2 * uro) * ((1 - uro) * w)); [|apply Rmult_le_compat_l; lra]. assert (0 <= (uro * (1 - 2 * uro)) * w) by (apply Rmult_le_pos; [apply Rmult_le_pos|]; lra). lra. }
    apply Rabs_le. lra. }
  set (U := unit_of b) in *. assert (IU : 0 < / U) by (apply Rinv_0_lt_compat; lra). set (e := base_eps b eps) in *. set (M := ln (IZR n) / U) in *.
  assert (W0 : 0 <= ln w) by (apply ln_nonneg; exact z1).
  assert (WM : ln w / U <= c * M) by (unfold M, Rdiv; rewrite <- Rmult_assoc; apply Rmult_le_compat_r; lra).
  split; [rewrite Rabs_pos_eq; [exact WM|apply Rmult_le_pos; lra]|].
  apply Rabs_le_inv in LC, LB. 
  assert (D : Rabs (ln x / U - ln w / U) <= 2 * uro * / U).
  { unfold Rdiv. rewrite <- Rmult_minus_distr_r, Rabs_mult, (Rabs_pos_eq (/ U)) by lra. apply Rmult_le_compat_r; [lra|]. apply Rabs_le. exact LC. }
  apply Rabs_le_inv in D. assert (G : e * (ln x / U) <= e * (ln w / U + 2 * uro * / U)) by (apply Rmult_le_compat_l; lra).
  assert (G2 : e * (ln w / U) <= e * (c * M)) by (apply Rmult_le_compat_l; lra).
  assert (G3 : uro * / U <= uro * (2 * M)) by (apply Rmult_le_compat_l; lra).
  assert (G4 : e * (2 * uro * / U) <= / 4 * (2 * uro * / U)) by (apply Rmult_le_compat_r; [apply Rmult_le_pos; lra|lra]).
  apply Rabs_le. split; lra.
Qed.

(** ** the sum over the cells *)
Section Cells.
Variable vars : list arr.
Variable N : nat.
Hypothesis Hlen : Forall (fun a => arr_len a = N) vars.
Hypothesis Hne : vars <> [].
Hypothesis HN : (0 < N)%nat.
Notation l := (seq 0 N).
Notation c := (the_coo vars).
Notation rc := (rowc vars).
Notation ents := (combine (coo_coords c) (coo_vals c)).

Lemma entry_is rv : In rv ents -> exists t, (t < N)%nat /\ rv = (rc t, Z.of_nat (count (coo_rows vars) (rc t))).
Proof using Hlen Hne HN.
  intros Hrv. rewrite entries_eq in Hrv. apply in_map_iff in Hrv. destruct Hrv as [r [<- Hr]]. rewrite unique_In, (coo_rows_eq vars N Hlen Hne) in Hr.
  apply in_map_iff in Hr. destruct Hr as [t [<- Ht]]. apply in_seq in Ht. exists t. split; [lia|reflexivity].
Qed.

Lemma cells_float E eps (F : list nat * Z -> res R) (h : list nat -> R) M C e : accurate eps E -> 0 <= M -> 0 <= C -> 0 <= e ->
  (forall t, (t < N)%nat -> let v := Z.of_nat (count (coo_rows vars) (rc t)) in let p := IZR v / INR N in
     exists T, F (rc t, v) = Ok T /\ isfl T /\ ap (p * M) C e T (p * h (rc t))) ->
  exists ts, mapM F ents = Ok ts /\
    Rabs (f_sum E ts - sumf (fun t => h (rc t)) l / INR N) <= (e + ((1 + uro) ^ depth (f_order E (length (unique (coo_rows vars)))) - 1) * (C + e)) * M.
Proof using Hlen Hne HN.
  intros Ac M0 C0 e0 HF. assert (N0 : 0 < INR N) by (apply INR_pos; exact HN).
  destruct (mapM_ex F (fun rv T => isfl T /\ ap (IZR (snd rv) / INR N * M) C e T (IZR (snd rv) / INR N * h (fst rv))) ents) as (ts & E1 & F2).
  { intros rv Hrv. destruct (entry_is rv Hrv) as (t & Ht & ->). destruct (HF t Ht) as (T & A & B & D). exists T. cbn [fst snd]. auto. }
  exists ts. split; [exact E1|].
  assert (LEN : length ts = length (unique (coo_rows vars))).
  { rewrite <- (map_length (fun r => (r, Z.of_nat (count (coo_rows vars) r))) (unique (coo_rows vars))), <- entries_eq. clear -F2. induction F2 as [|x y lx ly _ _ IH]; [reflexivity|cbn [length]; rewrite IH; reflexivity]. }
  assert (FI : Forall isfl ts).
  { clear -F2. induction F2 as [|x y lx ly Q _ IH]; constructor; [apply Q|exact IH]. }
  assert (SUMS : Rabs (sumR ts - sumf (fun rv => IZR (snd rv) / INR N * h (fst rv)) ents) <= e * M * sumf (fun rv => IZR (snd rv) / INR N) ents /\
                 sumf Rabs ts <= (C + e) * M * sumf (fun rv => IZR (snd rv) / INR N) ents).
  { clear -F2. unfold sumR. induction F2 as [|x y lx ly (_ & Q1 & Q2) _ (IH1 & IH2)]; cbn [sumf]; [rewrite Rminus_diag_eq, Rabs_R0 by reflexivity; lra|].
    set (p := IZR (snd x) / INR N) in *. split.
    - match goal with |- Rabs (?a + ?s - (?d + ?t)) <= _ => replace (a + s - (d + t)) with ((a - d) + (s - t)) by ring end.
      eapply Rle_trans; [apply Rabs_triang|]. lra.
    - assert (Rabs y <= Rabs (y - p * h (fst x)) + Rabs (p * h (fst x))) by (replace y with ((y - p * h (fst x)) + p * h (fst x)) at 1 by ring; apply Rabs_triang). lra. }
  assert (ONE : sumf (fun rv => IZR (snd rv) / INR N) ents = 1).
  { rewrite (sumf_ext _ (fun rv => IZR (snd rv) * / INR N)) by reflexivity. rewrite (cells_sum vars N Hlen Hne (fun _ => / INR N)), sumf_const, seq_length. field. lra. }
  assert (VAL : sumf (fun rv => IZR (snd rv) / INR N * h (fst rv)) ents = sumf (fun t => h (rc t)) l / INR N).
  { rewrite (sumf_ext _ (fun rv => IZR (snd rv) * (h (fst rv) / INR N))) by (intros; unfold Rdiv; ring).
    rewrite (cells_sum vars N Hlen Hne (fun r => h r / INR N)), sumf_div. reflexivity. }
  rewrite ONE, VAL in SUMS. destruct SUMS as (S1 & S2). pose proof (f_sum_err E eps ts Ac FI) as SE. rewrite LEN in SE.
  set (D := (1 + uro) ^ depth (f_order E (length (unique (coo_rows vars)))) - 1) in *.
  assert (D0 : 0 <= D) by (unfold D; pose proof uro_pos; assert (1 <= (1 + uro) ^ depth (f_order E (length (unique (coo_rows vars))))) by (apply pow_R1_Rle; lra); lra).
  replace (f_sum E ts - sumf (fun t => h (rc t)) l / INR N) with ((f_sum E ts - sumR ts) + (sumR ts - sumf (fun t => h (rc t)) l / INR N)) by ring.
  eapply Rle_trans; [apply Rabs_triang|]. assert (D * sumf Rabs ts <= D * ((C + e) * M * 1)) by (apply Rmult_le_compat_l; assumption). lra.
Qed.

(** weights *)
Lemma weight_ok t b : (Z.of_nat N <= 2 ^ 53)%Z -> float_base b -> (2 <= N)%nat -> (t < N)%nat ->
  let v := Z.of_nat (count (coo_rows vars) (rc t)) in let p := IZR v / INR N in
  (1 <= v <= Z.of_nat N)%Z /\ 0 < p /\ (1 - uro) * p <= f_prob v (Z.of_nat N) <= (1 + uro) * p /\ unit_ok (p * (ln (INR N) / unit_of b)).
Proof using Hlen Hne HN.
  intros L Fb N2 Ht v p. pose proof uro_pos as U0. pose proof uro_small as U1.
  assert (V : (1 <= v <= Z.of_nat N)%Z) by (apply (cnt_Z N rc t); [apply in_seq; lia|apply (count_rc vars N Hlen Hne HN)]).
  destruct (f_prob_facts v (Z.of_nat N) V L) as (_ & PR & PE & _). cbv zeta in PE. rewrite <- INR_IZR_INZ in PE. fold p in PE.
  assert (p0 : 0 < p) by (apply Rdiv_lt_0_compat; [apply IZR_lt; lia|apply INR_pos; exact HN]).
  assert (N2' : (2 <= Z.of_nat N)%Z) by (clear -N2; lia). destruct (M_ok b (Z.of_nat N) Fb N2') as ((M0 & _) & M1 & _). rewrite <- INR_IZR_INZ in M0, M1. set (M := ln (INR N) / unit_of b) in *.
  split; [exact V|]. split; [exact p0|]. split; [exact PE|]. split; [apply Rmult_lt_0_compat; assumption|].
  eapply Rle_trans; [apply omega_small|]. apply Rmult_le_compat_l; [lra|]. assert (P2 : uro * / 2 <= p) by (clear -PR PE U0 U1 p0; set (q := f_prob v (Z.of_nat N)) in *; clearbody q p; nra).
  apply Rle_trans with (uro * / 2 * / 2048); [lra|]. apply Rmult_le_compat; lra.
Qed.
End Cells.
