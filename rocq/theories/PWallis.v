(** Wallis' product: the integrals of powers of the sine. *)
From Coq Require Import Reals Lra Lia.
From Coquelicot Require Import Coquelicot.
Local Open Scope R_scope.

Definition W (n : nat) : R := RInt (fun x => sin x ^ n) 0 (PI / 2).

Lemma sin_ex n : ex_RInt (fun x => sin x ^ n) 0 (PI / 2).
Proof.
  apply (ex_RInt_continuous (V := R_CompleteNormedModule)). intros x _. apply (ex_derive_continuous (fun x => sin x ^ n)). auto_derive. trivial.
Qed.
Lemma W_0 : W 0 = PI / 2.
Proof.
  unfold W. rewrite (RInt_ext _ (fun _ => 1)) by (intros; reflexivity). rewrite RInt_const. unfold scal. cbn. unfold mult. cbn. ring.
Qed.
Lemma W_1 : W 1 = 1.
Proof.
  unfold W. apply is_RInt_unique.
  replace 1 with (minus (- cos (PI / 2)) (- cos 0)) by (unfold minus, plus, opp; cbn; rewrite cos_PI2, cos_0; ring).
  apply (is_RInt_derive (fun x => - cos x) (fun x => sin x ^ 1)).
  - intros x _. auto_derive; [trivial|ring].
  - intros x _. apply (ex_derive_continuous (fun x => sin x ^ 1)). auto_derive. trivial.
Qed.
Lemma W_step n : INR (n + 2) * W (n + 2) = INR (n + 1) * W n.
Proof.
  assert (D : is_RInt (fun x => minus (scal (INR (n + 1)) (sin x ^ n)) (scal (INR (n + 2)) (sin x ^ (n + 2)))) 0 (PI / 2)
                (minus (scal (INR (n + 1)) (W n)) (scal (INR (n + 2)) (W (n + 2))))).
  { apply (is_RInt_minus (V := R_NormedModule) (fun x => scal (INR (n + 1)) (sin x ^ n)) (fun x => scal (INR (n + 2)) (sin x ^ (n + 2))));
      [apply (is_RInt_scal (V := R_NormedModule) (fun x => sin x ^ n))|apply (is_RInt_scal (V := R_NormedModule) (fun x => sin x ^ (n + 2)))];
      apply (RInt_correct (V := R_CompleteNormedModule)); apply sin_ex. }
  assert (Z : is_RInt (fun x => minus (scal (INR (n + 1)) (sin x ^ n)) (scal (INR (n + 2)) (sin x ^ (n + 2)))) 0 (PI / 2)
                (minus (sin (PI / 2) ^ (n + 1) * cos (PI / 2)) (sin 0 ^ (n + 1) * cos 0))).
  { apply (is_RInt_derive (fun x => sin x ^ (n + 1) * cos x)).
    - intros x _. auto_derive; [trivial|]. unfold minus, plus, opp, scal. cbn. unfold mult. cbn.
      replace (Nat.pred (n + 1)) with n by lia. replace (n + 2)%nat with (S (S n)) by lia. replace (n + 1)%nat with (S n) by lia.
      rewrite !S_INR. cbn [pow]. pose proof (sin2_cos2 x) as Q. unfold Rsqr in Q.
      replace (1 * cos x * ((INR n + 1) * sin x ^ n) * cos x) with ((INR n + 1) * sin x ^ n * (cos x * cos x)) by ring.
      replace (cos x * cos x) with (1 - sin x * sin x) by lra. ring.
    - intros x _. apply (ex_derive_continuous (fun x => minus (scal (INR (n + 1)) (sin x ^ n)) (scal (INR (n + 2)) (sin x ^ (n + 2))))).
      unfold minus, plus, opp, scal. cbn. unfold mult. cbn. auto_derive. trivial. }
  pose proof (is_RInt_unique _ _ _ _ D) as E1. rewrite (is_RInt_unique _ _ _ _ Z) in E1.
  revert E1. generalize (W n) (W (n + 2)). intros w w2 E1.
  unfold minus, plus, opp, scal in E1. cbn in E1. unfold mult in E1. cbn in E1.
  rewrite cos_PI2, sin_0 in E1. rewrite (pow_ne_zero (n + 1)) in E1 by lia. lra.
Qed.

Lemma W_dec n : W (S n) <= W n.
Proof.
  unfold W. apply RInt_le; [pose proof PI_RGT_0; lra|apply sin_ex|apply sin_ex|]. intros x Hx.
  assert (P : 0 <= sin x) by (apply sin_ge_0; pose proof PI_RGT_0; lra). pose proof (SIN_bound x) as (_ & B).
  cbn [pow]. rewrite <- (Rmult_1_l (sin x ^ n)) at 2. apply Rmult_le_compat_r; [apply pow_le; exact P|exact B].
Qed.
Lemma W_pos n : 0 < W n.
Proof.
  assert (X : 0 < W n /\ 0 < W (S n)); [|tauto]. induction n as [|n (IH0 & IH1)].
  - rewrite W_0, W_1. pose proof PI_RGT_0. lra.
  - split; [exact IH1|]. pose proof (W_step n) as E. replace (n + 2)%nat with (S (S n)) in E by lia.
    assert (P2 : 0 < INR (S (S n))) by (apply lt_0_INR; lia). assert (P1 : 0 < INR (n + 1)) by (apply lt_0_INR; lia).
    apply Rmult_lt_reg_l with (INR (S (S n))); [exact P2|]. rewrite Rmult_0_r, E. apply Rmult_lt_0_compat; assumption.
Qed.
(** the product (2/1 2/3) (4/3 4/5) ... (2n/(2n-1) 2n/(2n+1)) *)
Fixpoint wallis (n : nat) : R :=
  match n with 0%nat => 1 | S m => wallis m * ((2 * INR n) ^ 2 / ((2 * INR n - 1) * (2 * INR n + 1))) end.
Lemma wallis_W n : wallis n * W (2 * n) = PI / 2 * W (2 * n + 1).
Proof.
  induction n as [|n IH]; [cbn [wallis Nat.mul Nat.add]; rewrite W_0, W_1; ring|].
  pose proof (W_step (2 * n)) as E0. pose proof (W_step (2 * n + 1)) as E1.
  replace (2 * S n)%nat with (2 * n + 2)%nat by lia. replace (2 * n + 2 + 1)%nat with (2 * n + 1 + 2)%nat by lia.
  cbn [wallis]. rewrite S_INR. rewrite !plus_INR, !mult_INR in E0. rewrite !plus_INR, !mult_INR in E1. replace (INR 2) with 2 in * by (cbn; ring). replace (INR 1) with 1 in * by reflexivity.
  pose proof (pos_INR n) as P.
  assert (A : W (2 * n + 2) = (2 * INR n + 1) / (2 * INR n + 2) * W (2 * n)).
  { apply Rmult_eq_reg_l with (2 * INR n + 2); [|lra]. rewrite E0.
 field; lra. }
  assert (B : W (2 * n + 1 + 2) = (2 * INR n + 2) / (2 * INR n + 3) * W (2 * n + 1)).
  { apply Rmult_eq_reg_l with (2 * INR n + 1 + 2); [|lra]. rewrite E1. field. lra. }
  rewrite A, B. replace (PI / 2 * ((2 * INR n + 2) / (2 * INR n + 3) * W (2 * n + 1))) with ((2 * INR n + 2) / (2 * INR n + 3) * (PI / 2 * W (2 * n + 1))) by ring.
  rewrite <- IH. field. lra.
Qed.
(** ... tends to pi / 2 *)
Lemma wallis_bounds n : PI / 2 * (1 - / INR (2 * n + 2)) <= wallis n <= PI / 2.
Proof.
  pose proof (wallis_W n) as E. pose proof (W_pos (2 * n)) as P0. pose proof (W_dec (2 * n)) as D0. pose proof (W_dec (2 * n + 1)) as D1.
  replace (S (2 * n)) with (2 * n + 1)%nat in D0 by lia. replace (S (2 * n + 1)) with (2 * n + 2)%nat in D1 by lia.
  pose proof (W_step (2 * n)) as E0. pose proof PI_RGT_0 as PP.
  assert (P2 : 0 < INR (2 * n + 2)) by (apply lt_0_INR; lia).
  assert (E1 : INR (2 * n + 1) = INR (2 * n + 2) - 1) by (rewrite !plus_INR; cbn; ring).
  assert (A : W (2 * n + 2) = (1 - / INR (2 * n + 2)) * W (2 * n)).
  { apply Rmult_eq_reg_l with (INR (2 * n + 2)); [|lra]. rewrite E0, E1. field. lra. }
  rewrite A in D1. split; (apply Rmult_le_reg_r with (W (2 * n)); [exact P0|]); rewrite E; [|apply Rmult_le_compat_l; lra].
  rewrite Rmult_assoc. apply Rmult_le_compat_l; lra.
Qed.
