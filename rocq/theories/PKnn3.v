(** Proofs: ball volumes, Kozachenko-Leonenko entropy. *)
From Coq Require Import Reals Lra Lia List ZArith Arith Bool Permutation.
From Verif Require Import Res RSum Spec SpecBase SpecGamma MBase PBase MTE MPct MNorm MEst PEst PEst2 MCont SpecKern PKern PKern3 MKnn SpecKnn SpecKnn2 PKnn PKnn2 PropsKnn.
Import ListNotations.
Local Open Scope R_scope.

(** ** a function with the properties of the gamma function exists *)
Definition gfl (x : R) : nat := Z.to_nat (up x - 1).
Definition gfr (x : R) : R := x - INR (gfl x).
Definition gfac (y : R) : R := if Req_EM_T y 0 then 1 else y.
Definition gbase (f : R) : R := if Req_EM_T f (1 / 2) then sqrt PI else 1.
Fixpoint gprod (f : R) (n : nat) : R := match n with 0%nat => 1 | S n => gprod f n * gfac (f + INR n) end.
Definition gamma_like (x : R) : R := gbase (gfr x) * gprod (gfr x) (gfl x).

Lemma up_shift x : up (x + 1) = (up x + 1)%Z.
Proof.
  destruct (archimed x) as [A B]. symmetry. apply tech_up; rewrite plus_IZR; lra.
Qed.
Lemma up_pos x : 0 <= x -> (1 <= up x)%Z.
Proof. intros H. destruct (archimed x) as [A B]. assert (0 < IZR (up x)) by lra. apply lt_IZR in H0. lia. Qed.
Lemma gfl_shift x : 0 <= x -> gfl (x + 1) = S (gfl x).
Proof. intros H. unfold gfl. rewrite up_shift. pose proof (up_pos x H). lia. Qed.
Lemma gfr_shift x : 0 <= x -> gfr (x + 1) = gfr x.
Proof. intros H. unfold gfr. rewrite gfl_shift, S_INR by exact H. ring. Qed.
Lemma gfl_IZR x : 0 <= x -> INR (gfl x) = IZR (up x) - 1.
Proof. intros H. unfold gfl. pose proof (up_pos x H). rewrite INR_IZR_INZ, Z2Nat.id by lia. rewrite minus_IZR. ring. Qed.
Lemma gfr_range x : 0 <= x -> 0 <= gfr x < 1.
Proof. intros H. unfold gfr. rewrite gfl_IZR by exact H. destruct (archimed x). lra. Qed.
Lemma gfac_pos y : 0 <= y -> 0 < gfac y. Proof. intros H. unfold gfac. destruct (Req_EM_T y 0); lra. Qed.
Lemma gprod_pos f n : 0 <= f -> 0 < gprod f n.
Proof. intros H. induction n as [|n IH]; cbn; [lra|]. apply Rmult_lt_0_compat; [exact IH|apply gfac_pos]. pose proof (pos_INR n). lra. Qed.
Lemma gbase_pos f : 0 < gbase f.
Proof. unfold gbase. destruct (Req_EM_T f (1 / 2)); [apply sqrt_lt_R0, PI_RGT_0|lra]. Qed.
Lemma gamma_like_is_gamma : is_gamma gamma_like.
Proof.
  split; [|split; [|split]].
  - intros x H. apply Rmult_lt_0_compat; [apply gbase_pos|apply gprod_pos]. apply gfr_range. lra.
  - replace 1 with (0 + 1) at 1 by ring. unfold gamma_like. rewrite gfr_shift, gfl_shift by lra.
    assert (L0 : gfl 0 = 0%nat). { unfold gfl. rewrite <- (tech_up 0 1) by lra. reflexivity. }
    assert (F0 : gfr 0 = 0) by (unfold gfr; rewrite L0; cbn; ring).
    rewrite L0, F0. cbn. unfold gbase, gfac. rewrite Rplus_0_r. destruct (Req_EM_T 0 (1 / 2)); [lra|]. destruct (Req_EM_T 0 0); [ring|lra].
  - unfold gamma_like.
    assert (L0 : gfl (1 / 2) = 0%nat). { unfold gfl. rewrite <- (tech_up (1 / 2) 1) by lra. reflexivity. }
    unfold gfr. rewrite L0. cbn [INR gprod]. unfold gbase. rewrite Rminus_0_r. destruct (Req_EM_T (1 / 2) (1 / 2)); [ring|lra].
  - intros x H. unfold gamma_like. rewrite gfr_shift, gfl_shift by lra. cbn [gprod].
    replace (gfr x + INR (gfl x)) with x by (unfold gfr; ring). unfold gfac. destruct (Req_EM_T x 0); [lra|]. ring.
Qed.

(** ** volumes *)
Section vol.
  Context (G : R -> R) (HG : is_gamma G).
  Lemma G_pos x : 0 < x -> 0 < G x. Proof. apply HG. Qed.
  Lemma G_S x : 0 < x -> G (x + 1) = x * G x. Proof. apply HG. Qed.
  Lemma G_half : G (3 / 2) = sqrt PI / 2.
  Proof. replace (3 / 2) with (1 / 2 + 1) by lra. rewrite G_S by lra. destruct HG as (_ & _ & H & _). rewrite H. field. Qed.
  Lemma G_fact n : G (1 + INR n) = INR (fact n).
  Proof.
    induction n as [|n IH]; [cbn; rewrite Rplus_0_r; apply HG|].
    rewrite S_INR. replace (1 + (INR n + 1)) with ((1 + INR n) + 1) by ring. pose proof (pos_INR n). rewrite G_S by lra. rewrite IH.
    rewrite fact_simpl, mult_INR, S_INR. ring.
  Qed.
  Lemma two_ind (P : nat -> Prop) : P 0%nat -> P 1%nat -> (forall n, P n -> P (S (S n))) -> forall n, P n.
  Proof. intros H0 H1 HS n. enough (P n /\ P (S n)) by tauto. induction n as [|n [A B]]; auto. Qed.
  Lemma sqrt_PI_pos : 0 < sqrt PI. Proof. apply sqrt_lt_R0, PI_RGT_0. Qed.
  Lemma ball_gamma d r : sqrt PI ^ d * r ^ d / G (1 + INR d / 2) = euclidean_ball d r.
  Proof.
    revert d. apply two_ind.
    - cbn. replace (1 + 0 / 2) with 1 by field. destruct HG as (_ & -> & _). field.
    - cbn [pow INR euclidean_ball]. replace (1 + 1 / 2) with (3 / 2) by field. rewrite G_half. field. pose proof sqrt_PI_pos. lra.
    - intros n IH. replace (1 + INR (S (S n)) / 2) with ((1 + INR n / 2) + 1) by (rewrite !S_INR; field).
      pose proof (pos_INR n) as Pn. rewrite G_S by lra. cbn [euclidean_ball]. rewrite <- IH.
      change (sqrt PI ^ S (S n)) with (sqrt PI * (sqrt PI * sqrt PI ^ n)). change (r ^ S (S n)) with (r * (r * r ^ n)).
      replace (sqrt PI * (sqrt PI * sqrt PI ^ n)) with ((sqrt PI * sqrt PI) * sqrt PI ^ n) by ring.
      rewrite sqrt_sqrt by (left; apply PI_RGT_0). pose proof (G_pos (1 + INR n / 2) ltac:(lra)).
      rewrite !S_INR. field. repeat split; lra.
  Qed.
  Lemma rpower_half_pow d : Rpower PI (INR d / 2) = sqrt PI ^ d.
  Proof.
    rewrite <- Rpower_pow by apply sqrt_PI_pos. rewrite <- (Rpower_sqrt PI) by apply PI_RGT_0. rewrite Rpower_mult. f_equal. field.
  Qed.
  Lemma lp_ball_2 d r : lp_ball G (Some 2) d r = euclidean_ball d r.
  Proof.
    unfold lp_ball. rewrite <- ball_gamma. replace (1 + 1 / 2) with (3 / 2) by field. rewrite G_half.
    unfold Rdiv at 1 2. rewrite <- !Rmult_assoc. rewrite <- Rpow_mult_distr.
    replace (2 * r * (sqrt PI * / 2)) with (sqrt PI * r) by field. rewrite Rpow_mult_distr. reflexivity.
  Qed.
  Lemma unit_ball_ok d r m : (1 <= d)%nat -> norm_ok (np_of m) -> unit_ball_volume G d r m = Ok (lp_ball G (np_of m) d r).
  Proof.
    intros Hd Hp. destruct m as [|q]; cbn [unit_ball_volume np_of]; [unfold lp_ball; rewrite Rmult_1_r; reflexivity|]. cbn in Hp.
    destruct (Req_EM_T q 2) as [->|Nq].
    - rewrite lp_ball_2. destruct d as [|[|[|[|d]]]]; [lia| | | |].
      + reflexivity.
      + cbn [euclidean_ball INR]. f_equal. field.
      + f_equal. cbn [euclidean_ball INR]. field.
      + rewrite np_div_ok.
        * rewrite rpower_half_pow, ball_gamma. reflexivity.
        * pose proof (pos_INR (S (S (S (S d))))). pose proof (G_pos (1 + INR (S (S (S (S d)))) / 2) ltac:(lra)). lra.
    - pose proof (pos_INR d) as P0.
      assert (Pq : 0 <= INR d / q) by (apply Rmult_le_pos; [exact P0|left; apply Rinv_0_lt_compat; lra]).
      pose proof (G_pos (1 + INR d / q) ltac:(lra)).
      rewrite np_div_ok by lra. f_equal. unfold lp_ball. unfold Rdiv. ring.
  Qed.
  Lemma lp_ball_scale p d a r : lp_ball G p d (a * r) = a ^ d * lp_ball G p d r.
  Proof. unfold lp_ball. replace (2 * (a * r)) with (a * (2 * r)) by ring. rewrite Rpow_mult_distr. ring. Qed.
  Lemma lp_ball_pos p d r : norm_ok p -> 0 < r -> 0 < lp_ball G p d r.
  Proof.
    intros Hp Hr. unfold lp_ball. apply Rmult_lt_0_compat; [apply pow_lt; lra|]. destruct p as [q|]; [|lra]. cbn in Hp.
    assert (0 < / q) by (apply Rinv_0_lt_compat; lra). pose proof (pos_INR d).
    apply Rdiv_lt_0_compat; [apply pow_lt, G_pos|apply G_pos]; unfold Rdiv; [lra|]. assert (0 <= INR d * / q) by (apply Rmult_le_pos; lra). lra.
  Qed.
  Lemma lp_ball_p1 d r : lp_ball G (Some 1) d r = (2 * r) ^ d / INR (fact d).
  Proof.
    unfold lp_ball. replace (1 + 1 / 1) with (1 + INR 1) by (cbn; field). rewrite G_fact.
    replace (INR d / 1) with (INR d) by field. rewrite G_fact. cbn [fact INR Nat.mul]. rewrite pow1. cbn. unfold Rdiv. ring.
  Qed.
  Lemma lp_ball_d1 p r : norm_ok p -> lp_ball G p 1 r = 2 * r.
  Proof.
    intros Hp. unfold lp_ball. destruct p as [q|]; cbn in *; [|ring].
    assert (0 < / q) by (apply Rinv_0_lt_compat; lra). pose proof (G_pos (1 + 1 / q) ltac:(unfold Rdiv; lra)). field. lra.
  Qed.
End vol.
