(** Specification: harmonic numbers, Euler's constant, and the digamma function at positive integers. *)
From Coq Require Import Reals Lra Lia List ZArith Arith.
From Verif Require Import RSum.
Import ListNotations.
Local Open Scope R_scope.

(** H_n = 1 + 1/2 + ... + 1/n *)
Definition harm (n : nat) : R := sumf (fun k => / INR k) (seq 1 n).

Lemma harm_S n : harm (S n) = harm n + / INR (S n).
Proof. unfold harm. rewrite seq_S, sumf_app. simpl sumf at 2. rewrite Rplus_0_r. reflexivity. Qed.

(** H_n - ln n, which decreases to Euler's constant *)
Definition gseq (n : nat) : R := harm (S n) - ln (INR (S n)).

Lemma ln_step n : (0 < n)%nat -> / INR (S n) <= ln (INR (S n)) - ln (INR n) <= / INR n.
Proof.
  intros Hn. pose proof (INR_pos n Hn) as P. pose proof (INR_pos (S n) ltac:(lia)) as P1.
  assert (E : INR (S n) / INR n = 1 + / INR n) by (rewrite S_INR; field; lra).
  assert (Q : 0 < INR (S n) / INR n) by (apply Rdiv_lt_0_compat; assumption).
  rewrite <- ln_div by assumption. split.
  - pose proof (ln_ge_1inv _ Q) as B. replace (1 - / (INR (S n) / INR n)) with (/ INR (S n)) in B; [exact B|].
    rewrite S_INR in *. field. lra.
  - pose proof (ln_le_sub1 _ Q) as B. rewrite E in B at 2. lra.
Qed.

Lemma gseq_dec : Un_decreasing gseq.
Proof.
  intros n. unfold gseq. rewrite (harm_S (S n)). pose proof (ln_step (S n) ltac:(lia)). lra.
Qed.

(** ln (n+1) <= H_n *)
Lemma ln_le_harm n : ln (INR (S n)) <= harm n.
Proof.
  induction n as [|n IH]; [simpl; unfold harm; simpl; rewrite ln_1; lra|].
  rewrite harm_S. pose proof (ln_step (S n) ltac:(lia)). lra.
Qed.

Lemma gseq_nonneg n : 0 <= gseq n.
Proof.
  unfold gseq. pose proof (ln_le_harm (S n)). pose proof (ln_step (S n) ltac:(lia)).
  assert (0 < / INR (S (S n))) by (apply Rinv_0_lt_compat, INR_pos; lia). lra.
Qed.

Lemma gseq_cv : { l : R | Un_cv gseq l }.
Proof.
  apply decreasing_cv; [exact gseq_dec|].
  exists 0. intros x (i & ->). unfold opp_seq. pose proof (gseq_nonneg i). lra.
Qed.

(** Euler's constant (numpy.euler_gamma): the limit of H_n - ln n *)
Definition euler_gamma : R := proj1_sig gseq_cv.

Lemma euler_gamma_spec : Un_cv gseq euler_gamma.
Proof. exact (proj2_sig gseq_cv). Qed.

(** digamma (psi) at a positive integer: psi(n) = H_(n-1) - gamma *)
Definition psi (n : nat) : R := harm (n - 1) - euler_gamma.

Lemma gamma_le n : euler_gamma <= gseq n.
Proof.
  apply (decreasing_ineq gseq); [exact gseq_dec|exact euler_gamma_spec].
Qed.

(** H_n - ln(n+1) increases to gamma *)
Lemma gamma_ge n : harm n - ln (INR (S n)) <= euler_gamma.
Proof.
  assert (M : forall k, harm n - ln (INR (S n)) <= harm (n + k) - ln (INR (S (n + k)))).
  { induction k as [|k IH]; [rewrite Nat.add_0_r; lra|].
    rewrite Nat.add_succ_r, harm_S. pose proof (ln_step (S (n + k)) ltac:(lia)). lra. }
  destruct (Rle_or_lt (harm n - ln (INR (S n))) euler_gamma) as [|C]; [assumption|exfalso].
  destruct (euler_gamma_spec ((harm n - ln (INR (S n))) - euler_gamma) ltac:(lra)) as (N & HN).
  specialize (HN (n + N)%nat ltac:(lia)). unfold R_dist, gseq in HN.
  pose proof (M N) as MN. rewrite harm_S in HN.
  assert (0 < / INR (S (n + N))) by (apply Rinv_0_lt_compat, INR_pos; lia).
  rewrite Rabs_pos_eq in HN by lra. lra.
Qed.

Lemma psi_1 : psi 1 = - euler_gamma.
Proof. unfold psi, harm. simpl. lra. Qed.

(** the recurrence psi(n+1) = psi(n) + 1/n *)
Lemma psi_S n : (0 < n)%nat -> psi (S n) = psi n + / INR n.
Proof.
  intros Hn. unfold psi. replace (S n - 1)%nat with (S (n - 1)) by lia. rewrite harm_S.
  replace (S (n - 1)) with n by lia. ring.
Qed.

Lemma harm_mono n m : (n <= m)%nat -> harm n <= harm m.
Proof.
  induction 1 as [|m Hm IH]; [lra|]. rewrite harm_S.
  assert (0 < / INR (S m)) by (apply Rinv_0_lt_compat, INR_pos; lia). lra.
Qed.

Lemma psi_diff n m : psi m - psi n = harm (m - 1) - harm (n - 1).
Proof. unfold psi. ring. Qed.

(** psi(n) <= ln n, and ln n - 1/n <= psi(n) *)
Lemma psi_le_ln n : (0 < n)%nat -> psi n <= ln (INR n).
Proof.
  intros Hn. unfold psi. pose proof (gamma_ge (n - 1)) as G. replace (S (n - 1)) with n in G by lia. lra.
Qed.
Lemma psi_ge_ln n : (0 < n)%nat -> ln (INR n) - / INR n <= psi n.
Proof.
  intros Hn. unfold psi. pose proof (gamma_le (n - 1)) as G. unfold gseq in G. rewrite harm_S in G.
  replace (S (n - 1)) with n in G by lia. lra.
Qed.
