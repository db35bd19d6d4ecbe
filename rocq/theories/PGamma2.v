(** A gamma function exists: the limit of Gauss' products. *)
From Coq Require Import Reals Lra Lia List Arith.
From Verif Require Import RSum SpecGamma SpecKnn2 SpecOrder PWallis.
Import ListNotations.
Local Open Scope R_scope.

(** ln of N! N^x / (x (x+1) ... (x+N)) with N = n + 1 *)
Definition gauss (x : R) (n : nat) : R :=
  x * ln (INR (S n)) + sumf (fun j => ln (INR j)) (seq 1 (S n)) - sumf (fun j => ln (x + INR j)) (seq 0 (S (S n))).

Lemma gauss_step x n : gauss x (S n) - gauss x n = x * (ln (INR (S (S n))) - ln (INR (S n))) + ln (INR (S (S n))) - ln (x + INR (S (S n))).
Proof.
  unfold gauss. rewrite (seq_S (S n) 1), (seq_S (S (S n)) 0), !sumf_app. cbn [sumf]. rewrite !Nat.add_0_l.
  change (1 + S n)%nat with (S (S n)). ring.
Qed.
Lemma gauss_incr x n : 0 < x ->
  0 <= gauss x (S n) - gauss x n <= x * (x + 1) * (/ INR (S n) - / INR (S (S n))).
Proof.
  intros Hx. rewrite gauss_step. pose proof (ln_step (S n) ltac:(lia)) as L.
  pose proof (INR_pos (S n) ltac:(lia)) as P. assert (E : INR (S (S n)) = INR (S n) + 1) by apply S_INR. rewrite E in *. set (N := INR (S n)) in *.
  assert (Q : 0 < (x + (N + 1)) / (N + 1)) by (apply Rdiv_lt_0_compat; lra).
  assert (D : ln (x + (N + 1)) - ln (N + 1) = ln ((x + (N + 1)) / (N + 1))) by (rewrite ln_div by lra; reflexivity).
  pose proof (ln_le_sub1 _ Q) as U1. pose proof (ln_ge_1inv _ Q) as U2.
  replace ((x + (N + 1)) / (N + 1) - 1) with (x * / (N + 1)) in U1 by (field; lra).
  replace (1 - / ((x + (N + 1)) / (N + 1))) with (x * / (x + (N + 1))) in U2 by (field; lra).
  assert (A : x * / (N + 1) <= x * (ln (N + 1) - ln N)) by (apply Rmult_le_compat_l; lra).
  assert (B : x * (ln (N + 1) - ln N) <= x * / N) by (apply Rmult_le_compat_l; lra).
  split; [lra|].
  assert (C : x * / N - x * / (x + (N + 1)) <= x * (x + 1) * (/ N - / (N + 1))).
  { replace (x * / N - x * / (x + (N + 1))) with (x * (x + 1) * (/ N * / (x + (N + 1)))) by (field; lra).
    replace (/ N - / (N + 1)) with (/ N * / (N + 1)) by (field; lra).
    apply Rmult_le_compat_l; [nra|]. apply Rmult_le_compat_l; [left; apply Rinv_0_lt_compat; lra|]. apply Rinv_le_contravar; lra. }
  lra.
Qed.
Lemma gauss_le x n : 0 < x -> gauss x n <= gauss x 0 + x * (x + 1) * (1 - / INR (S n)).
Proof.
  intros Hx. induction n as [|n IH]; [change (INR 1) with 1; lra|]. pose proof (gauss_incr x n Hx). lra.
Qed.
Lemma gauss_cv x : 0 < x -> { l : R | Un_cv (gauss x) l }.
Proof.
  intros Hx. apply growing_cv.
  - intros n. pose proof (gauss_incr x n Hx). lra.
  - exists (gauss x 0 + x * (x + 1)). intros y (n & ->). pose proof (gauss_le x n Hx) as L.
    assert (P : 0 < / INR (S n)) by (apply Rinv_0_lt_compat, INR_pos; lia). nra.
Qed.
Definition ln_gamma (x : R) : R := match Rlt_dec 0 x with left H => proj1_sig (gauss_cv x H) | right _ => 0 end.
Lemma ln_gamma_cv x : 0 < x -> Un_cv (gauss x) (ln_gamma x).
Proof. intros Hx. unfold ln_gamma. destruct (Rlt_dec 0 x) as [H|H]; [|contradiction]. exact (proj2_sig (gauss_cv x H)). Qed.

(** the gamma function; between -1 and 0 by the recurrence *)
Definition gamma (x : R) : R := if Rlt_dec 0 x then exp (ln_gamma x) else exp (ln_gamma (x + 1)) / x.
Lemma gamma_exp x : 0 < x -> gamma x = exp (ln_gamma x).
Proof. intros Hx. unfold gamma. destruct (Rlt_dec 0 x); [reflexivity|contradiction]. Qed.

Lemma inv_cv (c : R) : 0 <= c -> forall eps, 0 < eps -> exists N, forall n, (N <= n)%nat -> c * / INR (S n) < eps.
Proof.
  intros Hc eps He. assert (Q : 0 <= (c + 1) / eps) by (apply Rmult_le_pos; [lra|left; apply Rinv_0_lt_compat; lra]).
  exists (Z.to_nat (up ((c + 1) / eps))). intros n Hn. pose proof (archimed ((c + 1) / eps)) as (A & _).
  assert (B : (c + 1) / eps < INR (S n)).
  { rewrite S_INR. apply le_INR in Hn. rewrite INR_IZR_INZ, Z2Nat.id in Hn; [lra|]. apply le_IZR. lra. }
  pose proof (INR_pos (S n) ltac:(lia)) as P.
  apply Rmult_lt_reg_r with (INR (S n)); [exact P|]. rewrite Rmult_assoc, Rinv_l, Rmult_1_r by lra.
  apply (Rmult_lt_compat_l eps) in B; [|exact He]. replace (eps * ((c + 1) / eps)) with (c + 1) in B by (field; lra). lra.
Qed.
(** a sequence within c/(n+1) of l tends to l *)
Lemma cv_close (u : nat -> R) l c : 0 <= c -> (forall n, Rabs (u n - l) <= c * / INR (S n)) -> Un_cv u l.
Proof.
  intros Hc H eps He. destruct (inv_cv c Hc eps He) as (N & X). exists N. intros n Hn. unfold R_dist.
  eapply Rle_lt_trans; [apply H|apply X; exact Hn].
Qed.
Lemma cv_ext (u v : nat -> R) l : (forall n, u n = v n) -> Un_cv u l -> Un_cv v l.
Proof. intros E H eps He. destruct (H eps He) as (N & X). exists N. intros n Hn. rewrite <- E. apply X. exact Hn. Qed.

Lemma ln_ratio_small x n : 0 <= x -> Rabs (ln (INR (S n)) - ln (x + INR (S n))) <= x * / INR (S n).
Proof.
  intros Hx. pose proof (INR_pos (S n) ltac:(lia)) as P. set (N := INR (S n)) in *.
  assert (Q : 0 < (x + N) / N) by (apply Rdiv_lt_0_compat; lra).
  pose proof (ln_le_sub1 _ Q) as U1. rewrite ln_div in U1 by lra. replace ((x + N) / N - 1) with (x * / N) in U1 by (field; lra).
  assert (M : ln N <= ln (x + N)) by (destruct (Req_dec x 0) as [->|]; [rewrite Rplus_0_l; lra|left; apply ln_increasing; lra]).
  rewrite Rabs_left1 by lra. lra.
Qed.

Lemma sumf_shift (f : nat -> R) a n : sumf (fun j => f (S j)) (seq a n) = sumf f (seq (S a) n).
Proof. rewrite <- seq_shift, sumf_map. reflexivity. Qed.

Lemma ln_gamma_rec x : 0 < x -> ln_gamma (x + 1) = ln x + ln_gamma x.
Proof.
  intros Hx. apply (UL_sequence (gauss (x + 1))); [apply ln_gamma_cv; lra|].
  apply (cv_ext (fun n => (ln x + (ln (INR (S n)) - ln (x + 1 + INR (S n)))) + gauss x n)).
  - intros n. unfold gauss.
    assert (E : sumf (fun j => ln (x + 1 + INR j)) (seq 0 (S (S n))) = sumf (fun j => ln (x + INR j)) (seq 0 (S (S n))) - ln x + ln (x + 1 + INR (S n))).
    { rewrite (sumf_ext (fun j => ln (x + 1 + INR j)) (fun j => ln (x + INR (S j)))) by (intros j _; f_equal; rewrite S_INR; ring).
      rewrite (sumf_shift (fun j => ln (x + INR j))). rewrite (seq_S (S n) 1), sumf_app.
      change (seq 0 (S (S n))) with (0%nat :: seq 1 (S n)). cbn [sumf]. change (INR 0) with 0. rewrite Rplus_0_r.
      change (1 + S n)%nat with (S (S n)).
      rewrite (Rplus_0_r x).
      replace (x + INR (S (S n))) with (x + 1 + INR (S n)) by (rewrite (S_INR (S n)); ring). ring. }
    rewrite E. ring.
  - apply CV_plus; [|apply ln_gamma_cv; exact Hx].
    apply (cv_close _ _ (x + 1)); [lra|]. intros n. replace (ln x + _ - ln x) with (ln (INR (S n)) - ln (x + 1 + INR (S n))) by ring.
    apply ln_ratio_small. lra.
Qed.
Lemma ln_gamma_1 : ln_gamma 1 = 0.
Proof.
  apply (UL_sequence (gauss 1)); [apply ln_gamma_cv; lra|].
  apply (cv_ext (fun n => ln (INR (S n)) - ln (1 + INR (S n)))).
  - intros n. unfold gauss. rewrite (sumf_ext (fun j => ln (1 + INR j)) (fun j => ln (INR (S j)))) by (intros j _; f_equal; rewrite S_INR; ring).
    rewrite (sumf_shift (fun j => ln (INR j))). rewrite (seq_S (S n) 1), sumf_app. cbn [sumf]. change (1 + S n)%nat with (S (S n)). rewrite (S_INR (S n)).
    rewrite (Rplus_comm 1). ring.
  - apply (cv_close _ _ 1); [lra|]. intros n. rewrite Rminus_0_r. apply ln_ratio_small. lra.
Qed.

(** Wallis' product *)
Lemma wallis_pos n : 0 < wallis n.
Proof.
  pose proof (wallis_bounds n) as (L & _). eapply Rlt_le_trans; [|exact L].
  assert (P : 1 < INR (2 * n + 2)) by (change 1 with (INR 1); apply lt_INR; lia).
  apply Rmult_lt_0_compat; [pose proof PI_RGT_0; lra|]. assert (/ INR (2 * n + 2) < 1); [|lra]. rewrite <- Rinv_1. apply Rinv_lt_contravar; lra.
Qed.
Lemma ln_wallis n :
  ln (wallis n) = 2 * sumf (fun j => ln (INR j)) (seq 1 n) - 2 * sumf (fun j => ln (1 / 2 + INR j)) (seq 0 (S n)) - 2 * ln 2 + ln (2 * INR n + 1).
Proof.
  induction n as [|n IH].
  - cbn [wallis seq sumf INR]. rewrite !Rplus_0_r, Rmult_0_r, Rplus_0_l, ln_1. replace (1 / 2) with (/ 2) by field. rewrite ln_Rinv by lra. ring.
  - cbn [wallis]. pose proof (pos_INR n) as P. rewrite (seq_S n 1), (seq_S (S n) 0), !sumf_app. cbn [sumf]. change (1 + n)%nat with (S n). change (0 + S n)%nat with (S n). rewrite S_INR.
    assert (Q1 : 0 < 2 * (INR n + 1) - 1) by lra. assert (Q2 : 0 < 2 * (INR n + 1) + 1) by lra.
    rewrite ln_mult; [|apply wallis_pos|apply Rdiv_lt_0_compat; [apply pow_lt; lra|apply Rmult_lt_0_compat; assumption]].
    rewrite (ln_div ((2 * (INR n + 1)) ^ 2)) by (try (apply pow_lt; lra); apply Rmult_lt_0_compat; assumption).
    rewrite (ln_mult (2 * (INR n + 1) - 1)) by assumption. cbn [pow]. rewrite Rmult_1_r, (ln_mult (2 * (INR n + 1))), (ln_mult 2 (INR n + 1)) by lra.
    rewrite IH. replace (1 / 2 + (INR n + 1)) with ((2 * (INR n + 1) + 1) * / 2) by field.
    rewrite (ln_mult (2 * (INR n + 1) + 1) (/ 2)), ln_Rinv by lra. replace (2 * (INR n + 1) - 1) with (2 * INR n + 1) by ring. ring.
Qed.
Lemma ln_gamma_half : 2 * ln_gamma (1 / 2) = ln PI.
Proof.
  pose proof PI_RGT_0 as PP.
  apply (UL_sequence (fun n => 2 * gauss (1 / 2) n)).
  { apply (CV_mult (fun _ => 2) (gauss (1 / 2))); [|apply ln_gamma_cv; lra]. intros eps He. exists 0%nat. intros. unfold R_dist. rewrite Rminus_diag_eq, Rabs_R0; [exact He|reflexivity]. }
  apply (cv_ext (fun n => ln (wallis (S n)) + (ln (INR (S n)) + 2 * ln 2 - ln (2 * INR (S n) + 1)))).
  { intros n. unfold gauss. rewrite ln_wallis. field. }
  replace (ln PI) with (ln (PI / 2) + ln 2) by (rewrite <- ln_mult by lra; f_equal; field).
  apply CV_plus.
  - apply (cv_close _ _ 1); [lra|]. intros n. pose proof (wallis_pos (S n)) as PW. pose proof (wallis_bounds (S n)) as (B1 & B2).
    pose proof (INR_pos (S n) ltac:(lia)) as PN.
    assert (P2 : INR (2 * S n + 2) = 2 * INR (S n) + 2) by (rewrite plus_INR, mult_INR; cbn [INR]; ring). rewrite P2 in B1. set (N := INR (S n)) in *.
    assert (L1 : ln (wallis (S n)) <= ln (PI / 2)) by (destruct B2 as [B2|B2]; [left; apply ln_increasing; assumption|rewrite B2; lra]).
    rewrite Rabs_left1 by lra. rewrite Rmult_1_l.
    assert (Q : 0 < PI / 2 / wallis (S n)) by (apply Rdiv_lt_0_compat; lra).
    pose proof (ln_le_sub1 _ Q) as U1. rewrite ln_div in U1 by lra.
    assert (C : PI / 2 / wallis (S n) - 1 <= / N); [|lra].
    apply Rmult_le_reg_r with (wallis (S n)); [exact PW|]. replace ((PI / 2 / wallis (S n) - 1) * wallis (S n)) with (PI / 2 - wallis (S n)) by (field; lra).
    assert (I1 : 0 < / N) by (apply Rinv_0_lt_compat; exact PN). assert (I2 : 0 < / (2 * N + 2)) by (apply Rinv_0_lt_compat; lra).
    assert (C2 : PI / 2 * / (2 * N + 2) <= / N * (PI / 2 * (1 - / (2 * N + 2)))).
    { replace (/ N * (PI / 2 * (1 - / (2 * N + 2)))) with (PI / 2 * (/ N * (1 - / (2 * N + 2)))) by ring. apply Rmult_le_compat_l; [lra|].
      replace (1 - / (2 * N + 2)) with ((2 * N + 1) * / (2 * N + 2)) by (field; lra).
      replace (/ N * ((2 * N + 1) * / (2 * N + 2))) with ((2 + / N) * / (2 * N + 2)) by (field; lra).
      rewrite <- (Rmult_1_l (/ (2 * N + 2))) at 1. apply Rmult_le_compat_r; lra. }
    assert (C3 : / N * (PI / 2 * (1 - / (2 * N + 2))) <= / N * wallis (S n)) by (apply Rmult_le_compat_l; lra). lra.
  - apply (cv_close _ _ 1); [lra|]. intros n. pose proof (INR_pos (S n) ltac:(lia)) as PN.
    replace (2 * INR (S n) + 1) with (2 * (1 / 2 + INR (S n))) by field. rewrite ln_mult by lra.
    replace (ln (INR (S n)) + 2 * ln 2 - (ln 2 + ln (1 / 2 + INR (S n))) - ln 2) with (ln (INR (S n)) - ln (1 / 2 + INR (S n))) by ring.
    eapply Rle_trans; [apply ln_ratio_small; lra|]. apply Rmult_le_compat_r; [left; apply Rinv_0_lt_compat; exact PN|lra].
Qed.

(** concavity of the logarithm, convexity of the limit *)
Lemma ln_concave a c t : 0 < a -> 0 < c -> 0 <= t <= 1 -> t * ln a + (1 - t) * ln c <= ln (t * a + (1 - t) * c).
Proof.
  intros Ha Hc Ht. set (m := t * a + (1 - t) * c). assert (Pm : 0 < m) by (unfold m; nra).
  pose proof (ln_le_sub1 (a / m) ltac:(apply Rdiv_lt_0_compat; assumption)) as A. rewrite ln_div in A by assumption.
  pose proof (ln_le_sub1 (c / m) ltac:(apply Rdiv_lt_0_compat; assumption)) as C. rewrite ln_div in C by assumption.
  apply (Rmult_le_compat_l t) in A; [|lra]. apply (Rmult_le_compat_l (1 - t)) in C; [|lra].
  assert (E : t * (a / m - 1) + (1 - t) * (c / m - 1) = 0).
  { replace (t * (a / m - 1) + (1 - t) * (c / m - 1)) with ((t * a + (1 - t) * c) / m - 1) by (field; lra). fold m. field. lra. }
  lra.
Qed.
Lemma gauss_convex n x y t : 0 < x -> 0 < y -> 0 <= t <= 1 -> gauss (t * x + (1 - t) * y) n <= t * gauss x n + (1 - t) * gauss y n.
Proof.
  intros Hx Hy Ht. unfold gauss.
  assert (S1 : t * sumf (fun j => ln (x + INR j)) (seq 0 (S (S n))) + (1 - t) * sumf (fun j => ln (y + INR j)) (seq 0 (S (S n)))
               <= sumf (fun j => ln (t * x + (1 - t) * y + INR j)) (seq 0 (S (S n)))).
  { rewrite <- !sumf_scal, <- sumf_plus. apply sumf_le. intros j _. pose proof (pos_INR j).
    replace (t * x + (1 - t) * y + INR j) with (t * (x + INR j) + (1 - t) * (y + INR j)) by ring. apply ln_concave; lra. }
  lra.
Qed.

Theorem gamma_is_gamma : is_gamma gamma.
Proof.
  split; [intros x Hx; rewrite gamma_exp by exact Hx; apply exp_pos|]. split; [rewrite gamma_exp, ln_gamma_1 by lra; apply exp_0|].
  split.
  - rewrite gamma_exp by lra. pose proof PI_RGT_0 as PP. pose proof ln_gamma_half as H.
    assert (P : 0 < sqrt PI) by (apply sqrt_lt_R0; exact PP). rewrite <- (exp_ln (sqrt PI)) by exact P. f_equal.
    assert (E : ln PI = ln (sqrt PI) + ln (sqrt PI)) by (rewrite <- ln_mult by exact P; rewrite sqrt_sqrt by lra; reflexivity). lra.
  - intros x Hx. rewrite !gamma_exp by lra. rewrite ln_gamma_rec by exact Hx. rewrite exp_plus, exp_ln by exact Hx. reflexivity.
Qed.
Theorem gamma_log_convex : log_convex gamma.
Proof.
  intros x y t Hx Hy Ht. assert (Pm : 0 < t * x + (1 - t) * y) by nra. rewrite !gamma_exp, !ln_exp by assumption.
  apply (@Rle_cv_lim (gauss (t * x + (1 - t) * y)) (fun n => t * gauss x n + (1 - t) * gauss y n)).
  - intros n. apply gauss_convex; assumption.
  - apply ln_gamma_cv. exact Pm.
  - assert (K : forall c, Un_cv (fun _ => c) c).
    { intros c eps He. exists 0%nat. intros. unfold R_dist. rewrite Rminus_diag_eq, Rabs_R0; [exact He|reflexivity]. }
    apply CV_plus; (apply (CV_mult (fun _ => _)); [apply K|apply ln_gamma_cv; assumption]).
Qed.
Theorem gamma_negative x : -1 < x < 0 -> gamma (x + 1) = x * gamma x.
Proof.
  intros Hx. rewrite gamma_exp by lra. unfold gamma. destruct (Rlt_dec 0 x); [lra|]. field. lra.
Qed.

(** Bohr and Mollerup: there is only one such function on the positive reals *)
From Verif Require Import PGamma.
Lemma gamma_unique_near G : is_gamma G -> log_convex G -> forall x, 0 < x <= 2 -> ln (G x) = ln (gamma x).
Proof.
  intros HG HC x Hx. destruct (Req_dec x 1) as [->|N1].
  { destruct HG as (_ & -> & _). destruct gamma_is_gamma as (_ & -> & _). reflexivity. }
  set (h := x - 1). assert (Hh : -1 < h <= 1) by (unfold h; lra). assert (Nh : h <> 0) by (unfold h; lra).
  assert (D : forall n, Rabs (ln (G x) - ln (gamma x)) <= 2 * / INR (S n)).
  { intros n. set (m := (1 + S n)%nat). pose proof (INR_pos (S n) ltac:(lia)) as P. assert (Em : INR m = INR (S n) + 1) by apply S_INR.
    assert (B : forall F, is_gamma F -> log_convex F -> Rabs (ln (F x) - (h * ln (INR m) + lnsum 1 (S n) 0 - lnsum 1 (S n) h)) <= / INR (S n)).
    { intros F HF HCF. pose proof (slope F HF HCF (INR m) h ltac:(lra) Hh Nh) as SL.
      pose proof (lnG_steps F HF 1 (S n) h ltac:(lia) ltac:(lra)) as E1. pose proof (lnG_steps F HF 1 (S n) 0 ltac:(lia) ltac:(lra)) as E0.
      fold m in E1, E0. rewrite !Rplus_0_r in E0. change (INR 1) with 1 in *. replace (1 + h) with x in E1 by (unfold h; ring).
      assert (F1 : F 1 = 1) by apply HF. rewrite F1, ln_1, Rplus_0_r in E0.
      rewrite E1, E0 in SL. replace (ln (F x) - (h * ln (INR m) + lnsum 1 (S n) 0 - lnsum 1 (S n) h))
        with (lnsum 1 (S n) h + ln (F x) - lnsum 1 (S n) 0 - h * ln (INR m)) by ring.
      eapply Rle_trans; [exact SL|]. replace (INR m - 1) with (INR (S n)) by lra. pose proof (ln_step (S n) ltac:(lia)) as L. fold m in L. change (S (S n)) with m in L.
      assert (H1 : Rabs h <= 1) by (apply Rabs_le; lra). pose proof (Rabs_pos h).
      apply Rle_trans with (1 * (ln (INR m) - ln (INR (S n)))); [|lra]. apply Rmult_le_compat_r; [|exact H1].
      assert (0 < / INR (S (S n))) by (apply Rinv_0_lt_compat, INR_pos; lia). change (S (S n)) with m in *. lra. }
    pose proof (B G HG HC) as B1. pose proof (B gamma gamma_is_gamma gamma_log_convex) as B2.
    set (c := h * ln (INR m) + lnsum 1 (S n) 0 - lnsum 1 (S n) h) in *.
    pose proof (Rabs_triang (ln (G x) - c) (c - ln (gamma x))) as T. rewrite (Rabs_minus_sym c) in T.
    replace (ln (G x) - c + (c - ln (gamma x))) with (ln (G x) - ln (gamma x)) in T by ring. lra. }
  destruct (Req_dec (ln (G x) - ln (gamma x)) 0) as [|N0]; [lra|exfalso].
  pose proof (Rabs_pos_lt _ N0) as P. destruct (inv_cv 2 ltac:(lra) _ P) as (N & X). specialize (X N (le_n N)). specialize (D N). lra.
Qed.
Theorem gamma_unique G : is_gamma G -> log_convex G -> forall x, 0 < x -> G x = gamma x.
Proof.
  intros HG HC. assert (X : forall n x, 0 < x <= INR n + 2 -> ln (G x) = ln (gamma x)).
  { induction n as [|n IH]; intros x Hx; [apply (gamma_unique_near G HG HC); cbn in Hx; lra|].
    destruct (Rle_or_lt x 2) as [L|L]; [apply (gamma_unique_near G HG HC); lra|]. rewrite S_INR in Hx.
    replace x with (x - 1 + 1) by ring. rewrite (lnG_step G HG), (lnG_step gamma gamma_is_gamma), IH by lra. reflexivity. }
  intros x Hx. apply ln_inv; [apply HG; exact Hx|apply gamma_is_gamma; exact Hx|].
  apply (X (Z.to_nat (up x))). pose proof (archimed x) as (A & _). rewrite INR_IZR_INZ, Z2Nat.id; [lra|]. apply le_IZR. lra.
Qed.
