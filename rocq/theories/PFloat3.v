(** Proofs: rounding errors of signed sums, products and logarithms (toolkit for the mutual informations). *)
From Coq Require Import Reals Lra Lia List ZArith Arith Bool Permutation Psatz.
From Flocq Require Import Core Relative Plus_error.
From Verif Require Import Res RSum Spec SpecBase Info Info2 Ord MBase MData MEntropy PBase PEntropy MFloat SpecFloat PFloat PFloat2.
Import ListNotations.
Local Open Scope R_scope.

Local Instance prec53' : Prec_gt_0 53. Proof. reflexivity. Qed.

(** half the smallest positive double *)
Definition omega : R := / 2 * bpow radix2 (-1074).
Lemma omega_pos : 0 < omega. Proof. unfold omega. pose proof (bpow_gt_0 radix2 (-1074)). lra. Qed.
Lemma omega_small : omega <= uro * (uro * / 4096).
Proof.
  unfold omega. rewrite uro_bpow. change (/ 4096) with (/ IZR (Zpower radix2 12)). rewrite IZR_Zpower by lia. rewrite <- bpow_opp.
  change (/ 2) with (bpow radix2 (-1)). rewrite <- !bpow_plus. apply bpow_le. lia.
Qed.

Lemma half_ulp : / 2 * bpow radix2 (- (53) + 1) = uro.
Proof. rewrite uro_bpow. change (- (53) + 1)%Z with (1 + -53)%Z. rewrite bpow_plus. change (bpow radix2 1) with 2. field. Qed.

Lemma fl_abs x : Rabs (fl x - x) <= uro * Rabs x + omega.
Proof.
  destruct (error_N_FLT radix2 (-1074) 53 ltac:(reflexivity) (fun x => negb (Z.even x)) x) as (e & h & He & Hh & _ & EQ).
  unfold fl. change ZnearestE with (Znearest (fun x => negb (Z.even x))). rewrite EQ. rewrite half_ulp in He. fold omega in Hh.
  replace (x * (1 + e) + h - x) with (e * x + h) by ring. eapply Rle_trans; [apply Rabs_triang|]. rewrite Rabs_mult.
  apply Rplus_le_compat; [|exact Hh]. apply Rmult_le_compat_r; [apply Rabs_pos|exact He].
Qed.

Definition isfl (x : R) : Prop := generic_format radix2 (FLT_exp (-1074) 53) x.
Lemma fl_isfl x : isfl (fl x).
Proof. unfold isfl, fl. apply generic_format_round; [apply FLT_exp_valid; exact prec53'|apply valid_rnd_N]. Qed.
Lemma fl_add_err x y : isfl x -> isfl y -> Rabs (fl (x + y) - (x + y)) <= uro * Rabs (x + y).
Proof.
  intros Fx Fy. destruct (FLT_plus_error_N_ex radix2 (-1074) 53 (fun x => negb (Z.even x)) x y Fx Fy) as (e & He & EQ).
  unfold fl. change ZnearestE with (Znearest (fun x => negb (Z.even x))). rewrite EQ. replace ((x + y) * (1 + e) - (x + y)) with (e * (x + y)) by ring.
  rewrite Rabs_mult. apply Rmult_le_compat_r; [apply Rabs_pos|]. eapply Rle_trans; [exact He|].
  unfold u_ro. rewrite half_ulp. pose proof uro_pos. apply (Rmult_le_reg_r (1 + uro)); [lra|]. unfold Rdiv. rewrite Rmult_assoc, Rinv_l, Rmult_1_r by lra. nra.
Qed.

Lemma sumf_abs {A} (f : A -> R) l : Rabs (sumf f l) <= sumf (fun x => Rabs (f x)) l.
Proof. induction l as [|x r IH]; cbn [sumf]; [rewrite Rabs_R0; lra|]. eapply Rle_trans; [apply Rabs_triang|]. lra. Qed.

(** ** sums of arbitrary doubles *)
Lemma fsum_err (f : nat -> R) t : (forall i, In i (leaves t) -> isfl (f i)) ->
  isfl (fsum f t) /\ Rabs (fsum f t - sumf f (leaves t)) <= ((1 + uro) ^ depth t - 1) * sumf (fun i => Rabs (f i)) (leaves t).
Proof.
  pose proof uro_pos as U0. induction t as [i|a IHa c IHc]; intros D.
  - cbn [fsum leaves depth sumf pow]. split; [apply D; left; reflexivity|]. rewrite Rplus_0_r, Rminus_diag_eq, Rabs_R0 by reflexivity. lra.
  - cbn [fsum leaves depth]. rewrite !sumf_app.
    destruct IHa as (A1 & A2). { intros i Hi. apply D. cbn [leaves]. apply in_or_app. left. exact Hi. }
    destruct IHc as (C1 & C2). { intros i Hi. apply D. cbn [leaves]. apply in_or_app. right. exact Hi. }
    split; [apply fl_isfl|]. set (xa := fsum f a) in *. set (xc := fsum f c) in *. set (sa := sumf f (leaves a)) in *. set (sc := sumf f (leaves c)) in *.
    assert (Ta : Rabs sa <= sumf (fun i => Rabs (f i)) (leaves a)) by apply sumf_abs.
    assert (Tc : Rabs sc <= sumf (fun i => Rabs (f i)) (leaves c)) by apply sumf_abs.
    set (ta := sumf (fun i => Rabs (f i)) (leaves a)) in *. set (tc := sumf (fun i => Rabs (f i)) (leaves c)) in *.
    pose proof (fl_add_err xa xc A1 C1) as FE. cbn [pow].
    pose proof (pow_up (depth a) (Nat.max (depth a) (depth c)) (Nat.le_max_l _ _)) as Pa. pose proof (pow_up (depth c) (Nat.max (depth a) (depth c)) (Nat.le_max_r _ _)) as Pc.
    set (P := (1 + uro) ^ Nat.max (depth a) (depth c)) in *. set (Pa' := (1 + uro) ^ depth a) in *. set (Pc' := (1 + uro) ^ depth c) in *.
    assert (ta0 : 0 <= ta) by (apply Rle_trans with (Rabs sa); [apply Rabs_pos|exact Ta]).
    assert (tc0 : 0 <= tc) by (apply Rle_trans with (Rabs sc); [apply Rabs_pos|exact Tc]).
    assert (Ea : Rabs (xa - sa) <= (P - 1) * ta) by (eapply Rle_trans; [exact A2|apply Rmult_le_compat_r; lra]).
    assert (Ec : Rabs (xc - sc) <= (P - 1) * tc) by (eapply Rle_trans; [exact C2|apply Rmult_le_compat_r; lra]).
    assert (Xa : Rabs xa <= P * ta).
    { replace xa with ((xa - sa) + sa) by ring. eapply Rle_trans; [apply Rabs_triang|]. lra. }
    assert (Xc : Rabs xc <= P * tc).
    { replace xc with ((xc - sc) + sc) by ring. eapply Rle_trans; [apply Rabs_triang|]. lra. }
    assert (XX : Rabs (xa + xc) <= P * (ta + tc)) by (eapply Rle_trans; [apply Rabs_triang|]; lra).
    replace (fl (xa + xc) - (sa + sc)) with ((fl (xa + xc) - (xa + xc)) + ((xa - sa) + (xc - sc))) by ring.
    eapply Rle_trans; [apply Rabs_triang|]. eapply Rle_trans; [apply Rplus_le_compat_l, Rabs_triang|].
    assert (uro * Rabs (xa + xc) <= uro * (P * (ta + tc))) by (apply Rmult_le_compat_l; lra). lra.
Qed.
Lemma f_sum_err E eps (l : list R) : accurate eps E -> Forall isfl l ->
  Rabs (f_sum E l - sumR l) <= ((1 + uro) ^ depth (f_order E (length l)) - 1) * sumf Rabs l.
Proof.
  intros (_ & _ & _ & O) F. destruct l as [|x0 r]; [unfold f_sum, sumR; cbn [sumf]; rewrite Rminus_0_r, Rabs_R0; lra|].
  set (l := x0 :: r) in *. assert (EQ : f_sum E l = fsum (fun i => nth i l 0) (f_order E (length l))) by reflexivity. rewrite EQ.
  specialize (O (length l) ltac:(simpl; lia)). set (t := f_order E (length l)) in *.
  destruct (fsum_err (fun i => nth i l 0) t) as (_ & B).
  { intros i Hi. rewrite Forall_forall in F. apply F, nth_In. apply (Permutation_in _ O) in Hi. apply in_seq in Hi. lia. }
  rewrite (sumf_perm (fun i => nth i l 0) _ _ O), sumf_nth in B. rewrite (sumf_perm (fun i => Rabs (nth i l 0)) _ _ O) in B.
  replace (sumf Rabs l) with (sumf (fun i => Rabs (nth i l 0)) (seq 0 (length l))); [exact B|].
  rewrite <- (map_length Rabs l). transitivity (sumf (fun i => nth i (map Rabs l) 0) (seq 0 (length (map Rabs l)))).
  - apply sumf_ext. intros i _. rewrite <- Rabs_R0 at 2. symmetry. apply map_nth.
  - rewrite sumf_nth. unfold sumR. rewrite sumf_map. reflexivity.
Qed.

(** ** approximations in units of [K]: the exact value is at most [c*K] in size and the computed one is within [e*K] *)
Definition ap (K c e x y : R) : Prop := Rabs y <= c * K /\ Rabs (x - y) <= e * K.
Definition unit_ok (K : R) : Prop := 0 < K /\ omega <= uro * K.

Lemma ap_weaken K c e c' e' x y : unit_ok K -> ap K c e x y -> c <= c' -> e <= e' -> ap K c' e' x y.
Proof. intros (K0 & _) (A & B) C D. split; (eapply Rle_trans; [eassumption|]); apply Rmult_le_compat_r; lra. Qed.
Lemma ap_fl K c e x y : unit_ok K -> ap K c e x y -> ap K c (e + (c + e + 1) * uro) (fl x) y.
Proof.
  intros (K0 & KO) (A & B). split; [exact A|]. pose proof uro_pos as U0. replace (fl x - y) with ((fl x - x) + (x - y)) by ring.
  eapply Rle_trans; [apply Rabs_triang|]. pose proof (fl_abs x) as F.
  assert (X : Rabs x <= (c + e) * K) by (replace x with ((x - y) + y) by ring; eapply Rle_trans; [apply Rabs_triang|]; lra).
  assert (uro * Rabs x <= uro * ((c + e) * K)) by (apply Rmult_le_compat_l; lra). lra.
Qed.
Lemma ap_plus K c1 e1 c2 e2 x1 y1 x2 y2 : ap K c1 e1 x1 y1 -> ap K c2 e2 x2 y2 -> ap K (c1 + c2) (e1 + e2) (x1 + x2) (y1 + y2).
Proof.
  intros (A1 & B1) (A2 & B2). split.
  - eapply Rle_trans; [apply Rabs_triang|]. lra.
  - replace (x1 + x2 - (y1 + y2)) with ((x1 - y1) + (x2 - y2)) by ring. eapply Rle_trans; [apply Rabs_triang|]. lra.
Qed.
Lemma ap_opp K c e x y : ap K c e x y -> ap K c e (- x) (- y).
Proof. intros (A & B). split; [rewrite Rabs_Ropp; exact A|]. replace (- x - - y) with (- (x - y)) by ring. rewrite Rabs_Ropp. exact B. Qed.
Lemma ap_minus K c1 e1 c2 e2 x1 y1 x2 y2 : ap K c1 e1 x1 y1 -> ap K c2 e2 x2 y2 -> ap K (c1 + c2) (e1 + e2) (x1 - x2) (y1 - y2).
Proof. intros A B. unfold Rminus. apply ap_plus; [exact A|apply ap_opp; exact B]. Qed.
Lemma ap_scale K c e x y k : 0 <= k -> ap K c e x y -> ap K (k * c) (k * e) (k * x) (k * y).
Proof.
  intros k0 (A & B). split.
  - rewrite Rabs_mult, (Rabs_pos_eq k) by exact k0. rewrite Rmult_assoc. apply Rmult_le_compat_l; assumption.
  - replace (k * x - k * y) with (k * (x - y)) by ring. rewrite Rabs_mult, (Rabs_pos_eq k) by exact k0. rewrite Rmult_assoc. apply Rmult_le_compat_l; assumption.
Qed.
(** a rounded weight [q] of [p] *)
Lemma ap_weight K c e x y p q : unit_ok K -> 0 <= e -> 0 < p -> (1 - uro) * p <= q <= (1 + uro) * p -> ap K c e x y ->
  ap (p * K) c (e + (c + e) * uro) (q * x) (p * y).
Proof.
  intros (K0 & _) e0 p0 Q (A & B). pose proof uro_pos as U0. split.
  - rewrite Rabs_mult, (Rabs_pos_eq p) by lra. replace (c * (p * K)) with (p * (c * K)) by ring. apply Rmult_le_compat_l; lra.
  - replace (q * x - p * y) with (p * (x - y) + (q - p) * x) by ring. eapply Rle_trans; [apply Rabs_triang|]. rewrite !Rabs_mult, (Rabs_pos_eq p) by lra.
    assert (X : Rabs x <= (c + e) * K) by (replace x with ((x - y) + y) by ring; eapply Rle_trans; [apply Rabs_triang|]; lra).
    assert (Q1 : Rabs (q - p) <= uro * p) by (apply Rabs_le; lra).
    assert (Rabs (q - p) * Rabs x <= uro * p * ((c + e) * K)) by (apply Rmult_le_compat; try apply Rabs_pos; assumption).
    assert (p * Rabs (x - y) <= p * (e * K)) by (apply Rmult_le_compat_l; lra). lra.
Qed.
Lemma ap_combine K c1 e1 c2 e2 x1 y1 x2 y2 p q : unit_ok K -> unit_ok (p * K) -> 0 <= e1 -> 0 <= e2 -> 0 < p -> (1 - uro) * p <= q <= (1 + uro) * p ->
  ap K c1 e1 x1 y1 -> ap K c2 e2 x2 y2 ->
  let w := fun c e => e + (c + e) * uro in let r := fun c e => e + (c + e + 1) * uro in
  ap (p * K) (c1 + c2) (r (c1 + c2) (r c1 (w c1 e1) + r c2 (w c2 e2))) (fl (fl (q * x1) + fl (q * x2))) (p * y1 + p * y2).
Proof.
  intros UK UP e10 e20 p0 Q A1 A2 w r. apply ap_fl; [exact UP|]. apply ap_plus; apply ap_fl; try exact UP; apply ap_weight; assumption.
Qed.

(** ** logarithms of doubles that are 1 or at least 2 *)
Lemma f_log_base_ge E eps b x : accurate eps E -> 0 <= eps <= / 10 -> float_base b -> x = 1 \/ 2 <= x ->
  exists L, f_log_base E b x = Ok L /\ Rabs (L - ln x / unit_of b) <= base_eps b eps * (ln x / unit_of b).
Proof.
  intros (A1 & A2 & A3 & _) Ee Fb Hx. pose proof uro_pos as U0. pose proof uro_small as U1. pose proof (unit_range b Fb) as UR.
  assert (X0 : 0 < x) by lra.
  assert (LX : 0 <= ln x) by (apply ln_nonneg; lra).
  assert (L1 : x = 1 -> ln x = 0) by (intros ->; apply ln_1).
  assert (L2 : x <> 1 -> / 2 <= ln x).
  { intros N. destruct Hx as [->|Hx]; [lra|]. pose proof (ln_le_sub1 (/ x) (Rinv_0_lt_compat _ X0)) as Q. rewrite ln_Rinv in Q by exact X0.
    assert (/ x <= / 2) by (apply Rinv_le_contravar; lra). lra. }
  assert (LAM0 : 0 <= ln x / unit_of b) by (apply Rmult_le_pos; [lra|left; apply Rinv_0_lt_compat; lra]).
  assert (BAS : forall g r, log_within eps r g -> unit_of b = ln r -> base_eps b eps = eps -> Rabs (g x - ln x / unit_of b) <= base_eps b eps * (ln x / unit_of b)).
  { intros g r W UE BE0. rewrite BE0. specialize (W x X0). rewrite <- UE in W. rewrite (Rabs_pos_eq (ln x / unit_of b)) in W by exact LAM0. exact W. }
  destruct b as [|r].
  - exists (f_log E x). split; [unfold f_log_base, f_np; destruct (Rlt_dec 0 x); [reflexivity|contradiction]|].
    apply (BAS (f_log E) (exp 1) A1); [cbn [unit_of]; rewrite ln_exp; reflexivity|reflexivity].
  - unfold f_log_base. destruct (Req_EM_T r 2) as [R2|N2].
    + exists (f_log2 E x). split; [unfold f_np; destruct (Rlt_dec 0 x); [reflexivity|contradiction]|].
      apply (BAS (f_log2 E) 2 A2); [cbn [unit_of]; rewrite R2; reflexivity|unfold base_eps; destruct (Req_EM_T r 2); [reflexivity|contradiction]].
    + destruct (Req_EM_T r 10) as [R10|N10].
      * exists (f_log10 E x). split; [unfold f_np; destruct (Rlt_dec 0 x); [reflexivity|contradiction]|].
        apply (BAS (f_log10 E) 10 A3); [cbn [unit_of]; rewrite R10; reflexivity|unfold base_eps; destruct (Req_EM_T r 2); [reflexivity|]; destruct (Req_EM_T r 10); [reflexivity|contradiction]].
      * assert (Fb1 : 1 < r) by apply Fb. clear Fb. cbn [unit_of] in *. destruct (Req_EM_T r 0) as [Z|_]; [lra|]. destruct (Rlt_dec r 0) as [Z|_]; [lra|].
        assert (E1 : base_eps (BNum r) eps = (1 + eps) * (1 + uro) / (1 - eps) - 1).
        { unfold base_eps. destruct (Req_EM_T r 2); [contradiction|]. destruct (Req_EM_T r 10); [contradiction|reflexivity]. }
        unfold f_np. destruct (Rlt_dec 0 x); [|contradiction]. destruct (Rlt_dec 0 r); [|lra]. cbn [bind].
        pose proof (A1 x X0) as Wx. pose proof (A1 r ltac:(lra)) as Wr. rewrite ln_exp in Wx, Wr. unfold Rdiv in Wx, Wr. rewrite Rinv_1, Rmult_1_r in Wx, Wr.
        rewrite (Rabs_pos_eq (ln x)) in Wx by lra. rewrite (Rabs_pos_eq (ln r)) in Wr by lra. apply Rabs_le_inv in Wx, Wr.
        set (a := f_log E x) in *. set (d := f_log E r) in *. set (la := ln x) in *. set (lr := ln r) in *.
        assert (Ha : (1 - eps) * la <= a <= (1 + eps) * la) by lra.
        assert (Hd : (1 - eps) * lr <= d <= (1 + eps) * lr) by lra.
        assert (d0 : 0 < d) by (assert (0 < (1 - eps) * lr) by (apply Rmult_lt_0_compat; lra); lra).
        destruct (Req_EM_T d 0) as [Z|_]; [lra|]. exists (fl (a / d)). split; [reflexivity|].
        assert (A0 : 0 <= a) by (assert (0 <= (1 - eps) * la) by (apply Rmult_le_pos; lra); lra).
        assert (DD : a / d = 0 \/ tiny <= a / d).
        { destruct (Req_dec x 1) as [X1|X1].
          - left. assert (Z : la = 0) by exact (L1 X1). assert (Z2 : a = 0) by (rewrite Z in Ha; lra). rewrite Z2. unfold Rdiv. ring.
          - right. specialize (L2 X1).
            assert (a9 : / 2 * uro <= a) by (assert (/ 2 * uro <= (1 - eps) * la) by (apply Rmult_le_compat; lra); lra).
            assert (d9 : d <= 2048) by (assert ((1 + eps) * lr <= 2 * 1024) by (apply Rmult_le_compat; lra); lra).
            apply (Rmult_le_reg_r d); [exact d0|]. unfold Rdiv. rewrite Rmult_assoc, Rinv_l, Rmult_1_r by lra.
            apply Rle_trans with (tiny * 2048); [apply Rmult_le_compat_l; [left; apply tiny_pos|exact d9]|]. eapply Rle_trans; [|exact a9].
            rewrite uro_bpow. change 2048 with (IZR (radix2 ^ 11)). rewrite IZR_Zpower by lia. unfold tiny. rewrite <- bpow_plus.
            change (/ 2) with (bpow radix2 (-1)). rewrite <- bpow_plus. apply bpow_le. lia. }
        destruct (fl_pos_err (a / d) DD) as (B1 & _ & B3). rewrite E1.
        assert (UPq : a / d <= (1 + eps) / (1 - eps) * (la / lr)).
        { apply (Rmult_le_reg_r d); [exact d0|]. unfold Rdiv at 1. rewrite Rmult_assoc, Rinv_l, Rmult_1_r by lra.
          apply Rle_trans with ((1 + eps) / (1 - eps) * (la / lr) * ((1 - eps) * lr)).
          - apply Rle_trans with ((1 + eps) * la); [apply Ha|]. right. field. split; lra.
          - apply Rmult_le_compat_l; [|apply Hd]. apply Rmult_le_pos; [apply Rmult_le_pos; [lra|left; apply Rinv_0_lt_compat; lra]|exact LAM0]. }
        assert (DNq : (1 - eps) / (1 + eps) * (la / lr) <= a / d).
        { apply (Rmult_le_reg_r d); [exact d0|]. unfold Rdiv at 3. rewrite (Rmult_assoc a), Rinv_l, Rmult_1_r by lra.
          apply Rle_trans with ((1 - eps) / (1 + eps) * (la / lr) * ((1 + eps) * lr)).
          - apply Rmult_le_compat_l; [|apply Hd]. apply Rmult_le_pos; [apply Rmult_le_pos; [lra|left; apply Rinv_0_lt_compat; lra]|exact LAM0].
          - apply Rle_trans with ((1 - eps) * la); [|apply Ha]. right. field. split; lra. }
        assert (K0 : 0 <= la / lr) by exact LAM0. set (K := la / lr) in *. set (q := a / d) in *.
        assert (AA : 0 < (1 + eps) / (1 - eps)) by (apply Rdiv_lt_0_compat; lra).
        assert (AI : (1 - eps) / (1 + eps) = / ((1 + eps) / (1 - eps))) by (field; lra). rewrite AI in DNq.
        replace ((1 + eps) * (1 + uro) / (1 - eps) - 1) with ((1 + uro) * ((1 + eps) / (1 - eps)) - 1) by (field; lra).
        set (A := (1 + eps) / (1 - eps)) in *.
        assert (A1' : 1 <= A) by (unfold A; apply (Rmult_le_reg_r (1 - eps)); [lra|]; unfold Rdiv; rewrite Rmult_assoc, Rinv_l by lra; lra).
        assert (MID : 1 - ((1 + uro) * A - 1) <= (1 - uro) * / A).
        { assert (/ A <= 1) by (rewrite <- Rinv_1; apply Rinv_le_contravar; lra). assert (IA : A * / A = 1) by (apply Rinv_r; lra). set (B := / A) in *.
          assert (0 <= uro * (A - B)) by (apply Rmult_le_pos; lra). assert (2 <= A + B) by (pose proof (Rle_0_sqr (A - 1)) as SQ; unfold Rsqr in SQ; assert (0 < B) by (unfold B; apply Rinv_0_lt_compat; lra); nra). lra. }
        assert (LO : (1 - ((1 + uro) * A - 1)) * K <= fl q).
        { apply Rle_trans with ((1 - uro) * q); [|apply B1]. apply Rle_trans with ((1 - uro) * (/ A * K)); [|apply Rmult_le_compat_l; lra].
          rewrite <- Rmult_assoc. apply Rmult_le_compat_r; assumption. }
        assert (HI : fl q <= (1 + uro) * A * K).
        { apply Rle_trans with ((1 + uro) * q); [apply B1|]. apply Rle_trans with ((1 + uro) * (A * K)); [apply Rmult_le_compat_l; lra|]. lra. }
        apply Rabs_le. lra.
Qed.
