(** Logarithm and digamma inequalities used by the bias-corrected estimators. *)
From Coq Require Import Reals Lra Lia List ZArith Arith.
From Verif Require Import RSum SpecGamma.
Import ListNotations.
Local Open Scope R_scope.

Lemma deriv_powsum m x :
  derivable_pt_lim (fun y => sumf (fun r => / INR r * y ^ r) (seq 1 m)) x (sumf (fun r => x ^ (r - 1)) (seq 1 m)).
Proof.
  induction m as [|m IH]; [apply derivable_pt_lim_const|].
  rewrite seq_S, sumf_app.
  replace (sumf (fun r => x ^ (r - 1)) [(1 + m)%nat]) with (x ^ (1 + m - 1)) by (cbn [sumf]; ring).
  apply (derivable_pt_lim_ext (fun y => sumf (fun r => / INR r * y ^ r) (seq 1 m) + / INR (1 + m) * y ^ (1 + m))).
  - intros y. rewrite sumf_app. simpl. ring.
  - apply (derivable_pt_lim_plus (fun y => sumf (fun r => / INR r * y ^ r) (seq 1 m)) (fun y => / INR (1 + m) * y ^ (1 + m))); [exact IH|].
    replace (x ^ (1 + m - 1)) with (/ INR (1 + m) * (INR (1 + m) * x ^ pred (1 + m))).
    + apply (derivable_pt_lim_scal (fun y => y ^ (1 + m))). apply derivable_pt_lim_pow.
    + replace (1 + m - 1)%nat with m by lia. cbn [Nat.add pred]. field. apply not_0_INR. lia.
Qed.

Lemma geo_sum m x : (1 - x) * sumf (fun r => x ^ (r - 1)) (seq 1 m) = 1 - x ^ m.
Proof.
  induction m as [|m IH]; [simpl; ring|].
  rewrite seq_S, sumf_app, Rmult_plus_distr_l, IH. cbn [sumf]. replace (1 + m - 1)%nat with m by lia.
  cbn [pow]. ring.
Qed.

(** truncated series of -ln(1-x) *)
Lemma ln_series_le m x : 0 <= x < 1 -> sumf (fun r => / INR r * x ^ r) (seq 1 m) <= - ln (1 - x).
Proof.
  intros [H0 H1]. destruct (Req_dec x 0) as [->|N].
  - rewrite Rminus_0_r, ln_1, Ropp_0. apply Req_le.
    transitivity (sumf (fun _ : nat => 0) (seq 1 m)); [|apply sumf_zero]. apply sumf_ext.
    intros r Hr. apply in_seq in Hr. rewrite pow_i by lia. ring.
  - set (f := fun y => - ln (1 - y) - sumf (fun r => / INR r * y ^ r) (seq 1 m)).
    set (f' := fun y => / (1 - y) - sumf (fun r => y ^ (r - 1)) (seq 1 m)).
    assert (D : forall c, 0 <= c <= x -> derivable_pt_lim f c (f' c)).
    { intros c Hc. unfold f, f'.
      apply (derivable_pt_lim_minus (fun y => - ln (1 - y)) (fun y => sumf (fun r => / INR r * y ^ r) (seq 1 m))); [|apply deriv_powsum].
      replace (/ (1 - c)) with (- (/ (1 - c) * (0 - 1))) by ring.
      apply (derivable_pt_lim_opp (fun y => ln (1 - y))).
      apply (derivable_pt_lim_comp (fun y => 1 - y) ln).
      - apply (derivable_pt_lim_minus (fun _ => 1) (fun y => y)); [apply derivable_pt_lim_const|apply derivable_pt_lim_id].
      - apply derivable_pt_lim_ln. lra. }
    destruct (MVT_cor2 f f' 0 x ltac:(lra) D) as (c & E & Hc).
    assert (F0 : f 0 = 0).
    { unfold f. rewrite Rminus_0_r, ln_1.
      rewrite (sumf_ext _ (fun _ => 0)); [rewrite sumf_zero; ring|]. intros r Hr. apply in_seq in Hr.
      rewrite pow_i by lia. ring. }
    assert (P : 0 <= f' c).
    { unfold f'. assert (Q : sumf (fun r => c ^ (r - 1)) (seq 1 m) = (1 - c ^ m) / (1 - c)).
      { apply (Rmult_eq_reg_l (1 - c)); [|lra]. rewrite geo_sum. field. lra. }
      rewrite Q. assert (0 <= c ^ m) by (apply pow_le; lra).
      replace (/ (1 - c) - (1 - c ^ m) / (1 - c)) with (c ^ m * / (1 - c)) by (field; lra).
      apply Rmult_le_pos; [assumption|]. left. apply Rinv_0_lt_compat. lra. }
    assert (0 <= f' c * (x - 0)) by (apply Rmult_le_pos; lra).
    unfold f in E at 1. rewrite F0 in E. lra.
Qed.

(** ln 2 >= 0.69 *)
Lemma ln2_lower : 69 / 100 <= ln 2.
Proof.
  pose proof (ln_series_le 6 (1 / 2) ltac:(lra)) as B.
  replace (1 - 1 / 2) with (/ 2) in B by field. rewrite ln_Rinv in B by lra. rewrite Ropp_involutive in B.
  eapply Rle_trans; [|exact B]. simpl. lra.
Qed.

(** ln(1+1/n) >= 2/(2n+1) *)
Lemma ln_step2 n : (0 < n)%nat -> 2 / (2 * INR n + 1) <= ln (INR (S n)) - ln (INR n).
Proof.
  intros Hn. pose proof (INR_pos n Hn) as P.
  set (t := / (2 * INR n + 1)).
  assert (Ht : 0 < t < 1).
  { unfold t. split; [apply Rinv_0_lt_compat; lra|]. rewrite <- Rinv_1. apply Rinv_lt_contravar; lra. }
  set (f := fun y => ln (1 + y) - ln (1 - y) - 2 * y). set (f' := fun y => / (1 + y) + / (1 - y) - 2).
  assert (D : forall c, 0 <= c <= t -> derivable_pt_lim f c (f' c)).
  { intros c Hc. unfold f, f'.
    apply (derivable_pt_lim_minus (fun y => ln (1 + y) - ln (1 - y)) (fun y => 2 * y)).
    - replace (/ (1 + c) + / (1 - c)) with (/ (1 + c) * (0 + 1) - / (1 - c) * (0 - 1)) by ring.
      apply (derivable_pt_lim_minus (fun y => ln (1 + y)) (fun y => ln (1 - y))).
      + apply (derivable_pt_lim_comp (fun y => 1 + y) ln).
        * apply (derivable_pt_lim_plus (fun _ => 1) (fun y => y)); [apply derivable_pt_lim_const|apply derivable_pt_lim_id].
        * apply derivable_pt_lim_ln. lra.
      + apply (derivable_pt_lim_comp (fun y => 1 - y) ln).
        * apply (derivable_pt_lim_minus (fun _ => 1) (fun y => y)); [apply derivable_pt_lim_const|apply derivable_pt_lim_id].
        * apply derivable_pt_lim_ln. lra.
    - pose proof (derivable_pt_lim_scal (fun y => y) 2 c 1 (derivable_pt_lim_id c)) as S2.
      rewrite Rmult_1_r in S2. exact S2. }
  destruct (MVT_cor2 f f' 0 t ltac:(lra) D) as (c & E & Hc).
  assert (F0 : f 0 = 0) by (unfold f; rewrite Rplus_0_r, Rminus_0_r, ln_1; ring).
  assert (Q : 0 <= f' c).
  { unfold f'. replace (/ (1 + c) + / (1 - c) - 2) with (2 * (c * c) * / ((1 + c) * (1 - c))) by (field; lra).
    apply Rmult_le_pos; [pose proof (Rle_0_sqr c) as S2; unfold Rsqr in S2; lra|].
    left. apply Rinv_0_lt_compat. apply Rmult_lt_0_compat; lra. }
  assert (0 <= f' c * (t - 0)) by (apply Rmult_le_pos; lra).
  rewrite F0 in E. unfold f in E. rewrite <- ln_div in E by lra.
  replace ((1 + t) / (1 - t)) with (INR (S n) / INR n) in E.
  - rewrite <- ln_div by (try apply INR_pos; lia || lra). unfold t in E, H.
    unfold Rdiv at 1. lra.
  - rewrite S_INR. unfold t. field. split; lra.
Qed.

(** ln n - psi(n) < 1/(n+1) for n >= 2 *)
Lemma psi_gt n : (2 <= n)%nat -> ln (INR n) - / INR (n + 1) < psi n.
Proof.
  intros Hn.
  (* for n >= 3: n |-> psi n - ln n + 1/(n+1) is decreasing towards 0; strictness from one step *)
  assert (Step : forall m, (3 <= m)%nat ->
     ln (INR m) - / INR (m + 1) - psi m < ln (INR (S m)) - / INR (S m + 1) - psi (S m)).
  { intros m Hm. rewrite psi_S by lia. pose proof (ln_step2 m ltac:(lia)) as L.
    assert (P : 3 <= INR m) by (replace 3 with (INR 3) by (simpl; ring); apply le_INR; exact Hm).
    rewrite !plus_INR, !S_INR. change (INR 0) with 0. rewrite !Rplus_0_l. rewrite S_INR in L.
    assert (Q : 0 < 2 / (2 * INR m + 1) - / INR m + / (INR m + 1) - / (INR m + 1 + 1)); [|lra].
    replace (2 / (2 * INR m + 1) - / INR m + / (INR m + 1) - / (INR m + 1 + 1))
      with ((INR m * INR m - 2 * INR m - 2) * / (INR m * (2 * INR m + 1) * (INR m + 1) * (INR m + 2))) by (field; lra).
    apply Rmult_lt_0_compat.
    - assert (3 * INR m <= INR m * INR m) by (apply Rmult_le_compat_r; lra). lra.
    - apply Rinv_0_lt_compat. repeat apply Rmult_lt_0_compat; lra. }
  assert (Lim : forall m, (3 <= m)%nat -> ln (INR m) - / INR (m + 1) - psi m <= 0).
  { intros m Hm. destruct (Rle_or_lt (ln (INR m) - / INR (m + 1) - psi m) 0) as [|C]; [assumption|exfalso].
    set (e := ln (INR m) - / INR (m + 1) - psi m) in *.
    assert (Mono : forall k, e <= ln (INR (m + k)) - / INR (m + k + 1) - psi (m + k)).
    { induction k as [|k IH]; [rewrite Nat.add_0_r; unfold e; lra|].
      pose proof (Step (m + k)%nat ltac:(lia)). rewrite Nat.add_succ_r. lra. }
    (* but ln M - psi M <= 1/M *)
    destruct (archimed_cor1 e C) as (k & Hk0 & Hk1).
    assert (Hk : 1 < e * INR k).
    { pose proof (INR_pos k Hk1) as Pk. apply (Rmult_lt_compat_r (INR k)) in Hk0; [|exact Pk].
      rewrite Rinv_l in Hk0 by lra. exact Hk0. }
    pose proof (Mono k) as Mk. pose proof (psi_ge_ln (m + k) ltac:(lia)) as B.
    assert (PM : 0 < INR (m + k)) by (apply INR_pos; lia).
    assert (0 < / INR (m + k + 1)) by (apply Rinv_0_lt_compat, INR_pos; lia).
    assert (X : e < / INR (m + k)) by lra.
    assert (Y : e * INR (m + k) < 1).
    { apply (Rmult_lt_compat_r (INR (m + k))) in X; [|exact PM]. rewrite Rinv_l in X by lra. exact X. }
    rewrite plus_INR in Y. assert (0 <= e * INR m) by (apply Rmult_le_pos; [lra|apply pos_INR]).
    rewrite Rmult_plus_distr_l in Y. lra. }
  destruct (Nat.eq_dec n 2) as [->|N2].
  - (* n = 2: gamma <= H_16 - 4 ln 2 *)
    unfold psi. pose proof (gamma_le 15) as G. unfold gseq in G.
    assert (L16 : ln (INR 16) = 4 * ln 2).
    { replace (INR 16) with (2 * 2 * (2 * 2)) by (simpl; ring). rewrite !ln_mult by lra. ring. }
    rewrite L16 in G. pose proof ln2_lower.
    assert (H16 : harm 16 <= 3381 / 1000) by (unfold harm; cbn [sumf seq]; rewrite !INR_IZR_INZ; cbn [Z.of_nat Pos.of_succ_nat Pos.succ]; lra).
    assert (H1 : harm (2 - 1) = 1) by (unfold harm; simpl; lra). rewrite H1.
    replace (INR 2) with 2 by (simpl; ring). replace (INR (2 + 1)) with 3 by (simpl; ring). lra.
  - pose proof (Step n ltac:(lia)) as S1. pose proof (Lim (S n) ltac:(lia)) as L1. lra.
Qed.
