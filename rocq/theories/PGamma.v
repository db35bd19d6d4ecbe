(** The derivative of the logarithm of a gamma function at a positive integer is the digamma function. *)
From Coq Require Import Reals Lra Lia List ZArith Arith.
From Verif Require Import RSum SpecGamma SpecKnn2 SpecOrder.
Import ListNotations.
Local Open Scope R_scope.

Section Gam.
Variable G : R -> R.
Hypothesis HG : is_gamma G.
Hypothesis HC : log_convex G.

Lemma lnG_step x : 0 < x -> ln (G (x + 1)) = ln x + ln (G x).
Proof.
  intros Hx. destruct HG as (P & _ & _ & E). rewrite E by exact Hx. apply ln_mult; [exact Hx|apply P, Hx].
Qed.

(** convexity in the shape of slopes *)
Lemma slope x h : 1 < x -> -1 < h <= 1 -> h <> 0 ->
  Rabs (ln (G (x + h)) - ln (G x) - h * ln x) <= Rabs h * (ln x - ln (x - 1)).
Proof.
  intros Hx Hh Hn.
  pose proof (lnG_step x ltac:(lra)) as E1. pose proof (lnG_step (x - 1) ltac:(lra)) as E0.
  replace (x - 1 + 1) with x in E0 by ring.
  assert (HM : ln (x - 1) < ln x) by (apply ln_increasing; lra).
  destruct (Rlt_or_le 0 h) as [Hp|Hp].
  - assert (Q : 0 < / (1 + h)) by (apply Rinv_0_lt_compat; lra).
    pose proof (HC (x - 1) (x + h) (h * / (1 + h)) ltac:(lra) ltac:(lra)) as A.
    assert (I1 : 1 - h * / (1 + h) = / (1 + h)) by (field; lra).
    replace (h * / (1 + h) * (x - 1) + (1 - h * / (1 + h)) * (x + h)) with x in A by (field; lra).
    rewrite I1 in A. lapply A; [clear A; intros A|split; [apply Rmult_le_pos; lra|lra]].
    assert (A' : (1 + h) * ln (G x) <= h * ln (G (x - 1)) + ln (G (x + h))).
    { replace (h * ln (G (x - 1)) + ln (G (x + h)))
        with ((1 + h) * (h * / (1 + h) * ln (G (x - 1)) + / (1 + h) * ln (G (x + h)))) by (field; lra).
      apply Rmult_le_compat_l; [lra|exact A]. }
    pose proof (HC x (x + 1) (1 - h) ltac:(lra) ltac:(lra) ltac:(lra)) as B.
    replace ((1 - h) * x + (1 - (1 - h)) * (x + 1)) with (x + h) in B by ring.
    rewrite E1 in B. rewrite (Rabs_pos_eq h) by lra. apply Rabs_le. nra.
  - set (s := - h). assert (Hs : 0 < s < 1) by (unfold s; lra). replace h with (- s) by (unfold s; ring).
    clearbody s. clear Hp Hh Hn. rewrite Rabs_Ropp, (Rabs_pos_eq s) by lra.
    replace (x + - s) with (x - s) by ring.
    pose proof (HC (x - 1) x s ltac:(lra) ltac:(lra) ltac:(lra)) as A.
    replace (s * (x - 1) + (1 - s) * x) with (x - s) in A by ring.
    pose proof (HC (x + 1) (x - s) (s * / (1 + s)) ltac:(lra) ltac:(lra)) as B.
    assert (Q : 0 < / (1 + s)) by (apply Rinv_0_lt_compat; lra).
    assert (I1 : 1 - s * / (1 + s) = / (1 + s)) by (field; lra).
    replace (s * / (1 + s) * (x + 1) + (1 - s * / (1 + s)) * (x - s)) with x in B by (field; lra).
    rewrite I1 in B. lapply B; [clear B; intros B|split; [apply Rmult_le_pos; lra|lra]].
    assert (B' : (1 + s) * ln (G x) <= s * ln (G (x + 1)) + ln (G (x - s))).
    { replace (s * ln (G (x + 1)) + ln (G (x - s)))
        with ((1 + s) * (s * / (1 + s) * ln (G (x + 1)) + / (1 + s) * ln (G (x - s)))) by (field; lra).
      apply Rmult_le_compat_l; [lra|exact B]. }
    apply Rabs_le. nra.
Qed.

(** the recurrence, n times *)
Definition lnsum (k n : nat) (h : R) : R := sumf (fun j => ln (INR j + h)) (seq k n).
Lemma lnG_steps k n h : (0 < k)%nat -> -1 < h -> ln (G (INR (k + n) + h)) = lnsum k n h + ln (G (INR k + h)).
Proof.
  intros Hk Hh. pose proof (le_INR 1 k ltac:(lia)) as L. change (INR 1) with 1 in L.
  induction n as [|n IH]; [rewrite Nat.add_0_r; unfold lnsum; cbn; ring|].
  replace (INR (k + S n) + h) with (INR (k + n) + h + 1) by (rewrite Nat.add_succ_r, S_INR; ring).
  rewrite lnG_step by (rewrite plus_INR; pose proof (pos_INR n); lra).
  rewrite IH. unfold lnsum. rewrite seq_S, sumf_app. cbn. ring.
Qed.
Lemma lnsum_deriv k n : (0 < k)%nat -> derivable_pt_lim (lnsum k n) 0 (harm (k + n - 1) - harm (k - 1)).
Proof.
  intros Hk. induction n as [|n IH].
  - rewrite Nat.add_0_r. replace (harm (k - 1) - harm (k - 1)) with 0 by ring.
    apply (derivable_pt_lim_const 0).
  - replace (harm (k + S n - 1) - harm (k - 1)) with ((harm (k + n - 1) - harm (k - 1)) + / INR (k + n)).
    2:{ replace (k + S n - 1)%nat with (S (k + n - 1)) by lia. rewrite harm_S. replace (S (k + n - 1)) with (k + n)%nat by lia.
        ring. }
    assert (E : forall h, (lnsum k n + (fun h => ln (INR (k + n) + h)))%F h = lnsum k (S n) h).
    { intros h. unfold plus_fct, lnsum. rewrite seq_S, sumf_app. cbn. ring. }
    assert (D : derivable_pt_lim (lnsum k n + (fun h => ln (INR (k + n) + h)))%F 0
                  (harm (k + n - 1) - harm (k - 1) + / INR (k + n))).
    { apply derivable_pt_lim_plus; [exact IH|].
      replace (/ INR (k + n)) with (/ (INR (k + n) + 0) * (0 + 1)) by (rewrite Rplus_0_r; ring).
      apply (derivable_pt_lim_comp (fun h => INR (k + n) + h) ln).
      - apply derivable_pt_lim_plus; [apply derivable_pt_lim_const|apply derivable_pt_lim_id].
      - apply derivable_pt_lim_ln. rewrite Rplus_0_r. apply INR_pos. lia. }
    intros eps He. destruct (D eps He) as (d & Hd). exists d. intros h H1 H2. rewrite <- !E. apply Hd; assumption.
Qed.

Theorem lnG_deriv k : (0 < k)%nat -> derivable_pt_lim (fun h => ln (G (INR k + h))) 0 (psi k).
Proof.
  intros Hk eps He.
  (* a large argument *)
  assert (X : exists N, 8 / eps < INR N).
  { exists (Z.to_nat (up (8 / eps))). pose proof (archimed (8 / eps)) as (A & _).
    assert (0 < 8 / eps) by (apply Rdiv_lt_0_compat; lra).
    rewrite INR_IZR_INZ, Z2Nat.id; [lra|]. apply le_IZR. lra. }
  destruct X as (N & HN).
  set (n := S (S N)). set (m := (k + n)%nat).
  assert (Hm : 8 / eps < INR m - 1).
  { unfold m, n. rewrite plus_INR, !S_INR. pose proof (le_INR 1 k ltac:(lia)) as L. change (INR 1) with 1 in L. lra. }
  assert (Pe : 0 < 8 / eps) by (apply Rdiv_lt_0_compat; lra).
  assert (Hsm : / (INR m - 1) < eps / 8).
  { replace (eps / 8) with (/ (8 / eps)) by (field; lra). apply Rinv_lt_contravar; [apply Rmult_lt_0_compat; lra|exact Hm]. }
  assert (Hs2 : / INR m <= / (INR m - 1)) by (apply Rinv_le_contravar; lra).
  destruct (lnsum_deriv k n Hk (eps / 2) ltac:(lra)) as (d & Hd).
  assert (Hd1 : 0 < Rmin d (1 / 2)) by (apply Rmin_pos; [apply cond_pos|lra]).
  exists (mkposreal _ Hd1). intros h Hh0 Hh. cbn in Hh.
  assert (Ha : Rabs h < d) by (eapply Rlt_le_trans; [exact Hh|apply Rmin_l]).
  assert (Hb : Rabs h < 1 / 2) by (eapply Rlt_le_trans; [exact Hh|apply Rmin_r]).
  specialize (Hd h Hh0 Ha). rewrite Rplus_0_l in *. rewrite Rplus_0_r.
  pose proof (Rabs_pos_lt h Hh0) as Ph.
  assert (Hr : -1 < h <= 1) by (apply Rabs_def2 in Hb; lra).
  pose proof (lnG_steps k n h Hk ltac:(lra)) as S1. pose proof (lnG_steps k n 0 Hk ltac:(lra)) as S0.
  fold m in S1, S0. rewrite !Rplus_0_r in S0.
  pose proof (slope (INR m) h ltac:(lra) Hr Hh0) as SL.
  assert (LN : 0 <= ln (INR m) - ln (INR m - 1) <= / (INR m - 1)).
  { split; [pose proof (ln_increasing (INR m - 1) (INR m) ltac:(lra) ltac:(lra)); lra|].
    rewrite <- ln_div by lra. eapply Rle_trans; [apply ln_le_sub1, Rdiv_lt_0_compat; lra|].
    right. field. lra. }
  assert (PS : Rabs (ln (INR m) - psi m) <= / INR m).
  { pose proof (psi_le_ln m ltac:(unfold m; lia)). pose proof (psi_ge_ln m ltac:(unfold m; lia)).
    rewrite Rabs_pos_eq; lra. }
  assert (EP : harm (m - 1) - harm (k - 1) = psi m - psi k) by (unfold psi; ring).
  fold m in Hd. rewrite EP in Hd.
  set (T := lnsum k n h - lnsum k n 0) in *.
  assert (HT : Rabs (T - h * (psi m - psi k)) < Rabs h * (eps / 2)).
  { replace (T - h * (psi m - psi k)) with (h * (T / h - (psi m - psi k))) by (field; exact Hh0).
    rewrite Rabs_mult. apply Rmult_lt_compat_l; assumption. }
  replace ((ln (G (INR k + h)) - ln (G (INR k))) / h - psi k)
    with (/ h * ((ln (G (INR m + h)) - ln (G (INR m)) - h * ln (INR m)) + h * (ln (INR m) - psi m) - (T - h * (psi m - psi k)))).
  2:{ rewrite S1, S0. unfold T. field. exact Hh0. }
  rewrite Rabs_mult, Rabs_inv by exact Hh0.
  apply Rmult_lt_reg_l with (Rabs h); [exact Ph|]. rewrite <- Rmult_assoc, Rinv_r, Rmult_1_l by lra.
  set (A := ln (G (INR m + h)) - ln (G (INR m)) - h * ln (INR m)) in *.
  set (B := T - h * (psi m - psi k)) in *.
  pose proof (Rabs_triang (A + h * (ln (INR m) - psi m)) (- B)) as T1. rewrite Rabs_Ropp in T1.
  pose proof (Rabs_triang A (h * (ln (INR m) - psi m))) as T2. rewrite Rabs_mult in T2.
  unfold Rminus at 1.
  assert (A1 : Rabs A <= Rabs h * (eps / 8)).
  { eapply Rle_trans; [exact SL|]. apply Rmult_le_compat_l; lra. }
  assert (A2 : Rabs h * Rabs (ln (INR m) - psi m) <= Rabs h * (eps / 8)) by (apply Rmult_le_compat_l; lra).
  nra.
Qed.
End Gam.
