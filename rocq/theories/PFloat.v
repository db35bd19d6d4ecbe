(** Proofs: rounding errors of the discrete entropy. *)
From Coq Require Import Reals Lra Lia List ZArith Arith Bool Permutation Psatz.
From Flocq Require Import Core Relative.
From Verif Require Import Res RSum Spec SpecBase Info Info2 Ord MBase MData MEntropy PBase PEntropy MFloat SpecFloat.
Import ListNotations.
Local Open Scope R_scope.

Local Instance prec53 : Prec_gt_0 53. Proof. reflexivity. Qed.

(** smallest positive normal double *)
Definition tiny : R := bpow radix2 (-1022).

Lemma uro_bpow : uro = bpow radix2 (-53).
Proof. unfold uro. simpl. f_equal. lra. Qed.
Lemma uro_pos : 0 < uro. Proof. unfold uro. apply Rinv_0_lt_compat. lra. Qed.
Lemma uro_small : uro <= / 1000. Proof. unfold uro. apply Rinv_le_contravar; lra. Qed.
Lemma tiny_pos : 0 < tiny. Proof. apply bpow_gt_0. Qed.
Lemma tiny_le e : (-1022 <= e)%Z -> tiny <= bpow radix2 e.
Proof. intros L. apply bpow_le. exact L. Qed.

Lemma fl_0 : fl 0 = 0. Proof. apply round_0. apply valid_rnd_N. Qed.
Lemma fl_mono x y : x <= y -> fl x <= fl y.
Proof. intros L. unfold fl. apply round_le; [apply FLT_exp_valid; exact prec53|apply valid_rnd_N|exact L]. Qed.
Lemma fl_opp x : fl (- x) = - fl x. Proof. apply round_NE_opp. Qed.
Lemma fl_bpow e : (-1074 <= e)%Z -> fl (bpow radix2 e) = bpow radix2 e.
Proof. intros L. apply round_generic; [apply valid_rnd_N|]. apply generic_format_FLT_bpow; [exact prec53|exact L]. Qed.
Lemma fl_int z : (Z.abs z <= 2 ^ 53)%Z -> fl (IZR z) = IZR z.
Proof.
  intros L. destruct (Z.eq_dec (Z.abs z) (2 ^ 53)) as [E|N].
  - assert (P : fl (IZR (2 ^ 53)) = IZR (2 ^ 53)).
    { change (IZR (2 ^ 53)) with (IZR (radix2 ^ 53)). rewrite IZR_Zpower by lia. apply fl_bpow. lia. }
    destruct (Z.abs_eq_or_opp z) as [A|A]; rewrite A in E; [rewrite E; exact P|].
    replace z with (- 2 ^ 53)%Z by lia. rewrite opp_IZR, fl_opp, P. reflexivity.
  - apply round_generic; [apply valid_rnd_N|]. apply generic_format_FLT.
    apply (FLT_spec _ _ _ _ (Float radix2 z 0)); [unfold F2R; simpl; ring|simpl; lia|simpl; lia].
Qed.
Lemma fl_pred1 : fl (1 - uro) = 1 - uro.
Proof.
  apply round_generic; [apply valid_rnd_N|]. apply generic_format_FLT.
  apply (FLT_spec _ _ _ _ (Float radix2 (2 ^ 53 - 1) (-53))); [|simpl; lia|simpl; lia].
  unfold F2R. cbn [Fnum Fexp]. rewrite <- uro_bpow. assert (Q : IZR (2 ^ 53 - 1) = 2 ^ 53 - 1) by (rewrite minus_IZR; f_equal; symmetry; apply (pow_IZR 2 53)). rewrite Q.
  rewrite Rmult_minus_distr_r. unfold uro. rewrite Rinv_r by lra. ring.
Qed.
Lemma fl_err x : x = 0 \/ tiny <= Rabs x -> Rabs (fl x - x) <= uro * Rabs x.
Proof.
  intros [->|L]; [rewrite fl_0, Rminus_0_r, Rabs_R0; lra|].
  pose proof (relative_error_N_FLT radix2 (-1074) 53 prec53 (fun x => negb (Z.even x)) x L) as E. unfold fl.
  replace (/ 2 * bpow radix2 (- (53) + 1)) with uro in E; [exact E|]. rewrite uro_bpow. change (- (53) + 1)%Z with (-1 + -53 + 2)%Z.
  change (-53)%Z with (-1 + (-53 + 1))%Z at 1. rewrite bpow_plus. f_equal.
Qed.
Lemma fl_tiny x : tiny <= x -> tiny <= fl x.
Proof. intros L. unfold tiny in *. rewrite <- (fl_bpow (-1022)) by lia. apply fl_mono. exact L. Qed.
Lemma fl_pos_err x : x = 0 \/ tiny <= x -> (1 - uro) * x <= fl x <= (1 + uro) * x /\ (fl x = 0 \/ tiny <= fl x) /\ (fl x = 0 <-> x = 0).
Proof.
  intros D. pose proof tiny_pos as T. pose proof uro_pos. pose proof uro_small.
  assert (P : 0 <= x) by (destruct D as [->|D]; lra).
  assert (E : Rabs (fl x - x) <= uro * Rabs x) by (apply fl_err; destruct D as [->|D]; [left; reflexivity|right; rewrite Rabs_pos_eq; lra]).
  rewrite (Rabs_pos_eq x P) in E. apply Rabs_le_inv in E. split; [lra|]. split.
  - destruct D as [->|D]; [left; apply fl_0|right; apply fl_tiny; exact D].
  - split; [|intros ->; apply fl_0]. intros Z. destruct D as [->|D]; [reflexivity|]. pose proof (fl_tiny x D). lra.
Qed.

(** ** sums of nonnegative numbers *)
Lemma pow_up n k : (n <= k)%nat -> (1 + uro) ^ n <= (1 + uro) ^ k.
Proof. intros L. apply Rle_pow; [pose proof uro_pos; lra|exact L]. Qed.
Lemma pow_down n k : (n <= k)%nat -> (1 - uro) ^ k <= (1 - uro) ^ n.
Proof.
  intros L. pose proof uro_pos. pose proof uro_small. induction L as [|k L IH]; [lra|]. cbn [pow].
  assert (0 < (1 - uro) ^ k) by (apply pow_lt; lra). nra.
Qed.
Lemma fsum_bounds (f : nat -> R) t : (forall i, In i (leaves t) -> f i = 0 \/ tiny <= f i) ->
  (fsum f t = 0 \/ tiny <= fsum f t) /\ (1 - uro) ^ depth t * sumf f (leaves t) <= fsum f t <= (1 + uro) ^ depth t * sumf f (leaves t) /\
  (fsum f t = 0 <-> forall i, In i (leaves t) -> f i = 0).
Proof.
  pose proof uro_pos as U0. pose proof uro_small as U1. pose proof tiny_pos as T0.
  induction t as [i|a IHa c IHc]; intros D.
  - cbn [fsum leaves depth sumf pow]. split; [apply D; left; reflexivity|]. split; [lra|]. split; [intros E j [<-|[]]; exact E|intros E; apply E; left; reflexivity].
  - cbn [fsum leaves depth]. rewrite sumf_app.
    destruct IHa as (A1 & A2 & A3). { intros i Hi. apply D. cbn [leaves]. apply in_or_app. left. exact Hi. }
    destruct IHc as (C1 & C2 & C3). { intros i Hi. apply D. cbn [leaves]. apply in_or_app. right. exact Hi. }
    assert (SN : forall t', (forall i, In i (leaves t') -> In i (leaves (Node a c))) -> 0 <= sumf f (leaves t')).
    { intros t' It. apply sumf_nonneg. intros i Hi. destruct (D i (It i Hi)) as [E|E]; lra. }
    pose proof (SN a (fun i Hi => in_or_app _ _ _ (or_introl Hi))) as Sa. pose proof (SN c (fun i Hi => in_or_app _ _ _ (or_intror Hi))) as Sc.
    set (sa := sumf f (leaves a)) in *. set (sc := sumf f (leaves c)) in *. set (xa := fsum f a) in *. set (xc := fsum f c) in *.
    assert (X : xa + xc = 0 \/ tiny <= xa + xc) by (destruct A1, C1; lra).
    destruct (fl_pos_err _ X) as (B1 & B2 & B3). split; [exact B2|]. split.
    + pose proof (pow_up (depth a) (Nat.max (depth a) (depth c)) (Nat.le_max_l _ _)) as Pa. pose proof (pow_up (depth c) (Nat.max (depth a) (depth c)) (Nat.le_max_r _ _)) as Pc.
      pose proof (pow_down (depth a) (Nat.max (depth a) (depth c)) (Nat.le_max_l _ _)) as Qa. pose proof (pow_down (depth c) (Nat.max (depth a) (depth c)) (Nat.le_max_r _ _)) as Qc.
      cbn [pow]. set (P := (1 + uro) ^ Nat.max (depth a) (depth c)) in *. set (Q := (1 - uro) ^ Nat.max (depth a) (depth c)) in *.
      assert (UPa : xa <= P * sa) by (eapply Rle_trans; [apply A2|apply Rmult_le_compat_r; assumption]).
      assert (UPc : xc <= P * sc) by (eapply Rle_trans; [apply C2|apply Rmult_le_compat_r; assumption]).
      assert (DNa : Q * sa <= xa) by (eapply Rle_trans; [|apply A2]; apply Rmult_le_compat_r; assumption).
      assert (DNc : Q * sc <= xc) by (eapply Rle_trans; [|apply C2]; apply Rmult_le_compat_r; assumption).
      split.
      * eapply Rle_trans; [|apply B1]. rewrite Rmult_assoc. apply Rmult_le_compat_l; lra.
      * eapply Rle_trans; [apply B1|]. rewrite Rmult_assoc. apply Rmult_le_compat_l; lra.
    + rewrite B3. split.
      * intros E i Hi. assert (xa = 0 /\ xc = 0) as [Ea Ec] by (destruct A1, C1; lra). apply in_app_or in Hi.
        destruct Hi as [Hi|Hi]; [apply (proj1 A3 Ea); exact Hi|apply (proj1 C3 Ec); exact Hi].
      * intros E. rewrite (proj2 A3), (proj2 C3); [ring| |]; intros i Hi; apply E, in_or_app; auto.
Qed.
Lemma fsum_opp (f : nat -> R) t : fsum (fun i => - f i) t = - fsum f t.
Proof. induction t as [i|a IHa c IHc]; [reflexivity|]. cbn [fsum]. rewrite IHa, IHc, <- fl_opp. f_equal. ring. Qed.
Lemma fsum_ext (f g : nat -> R) t : (forall i, f i = g i) -> fsum f t = fsum g t.
Proof. intros E. induction t as [i|a IHa c IHc]; [apply E|]. cbn [fsum]. rewrite IHa, IHc. reflexivity. Qed.

Lemma sumf_nth (l : list R) : sumf (fun i => nth i l 0) (seq 0 (length l)) = sumR l.
Proof.
  unfold sumR. induction l as [|x l IH]; [reflexivity|]. cbn [length seq sumf nth]. f_equal. rewrite <- IH, <- seq_shift, sumf_map. reflexivity.
Qed.

(** the sum of an array of numbers that are zero or at least [tiny] *)
Lemma f_sum_bounds E eps (l : list R) : accurate eps E -> Forall (fun x => x = 0 \/ tiny <= x) l ->
  (1 - uro) ^ depth (f_order E (length l)) * sumR l <= f_sum E l <= (1 + uro) ^ depth (f_order E (length l)) * sumR l /\
  (f_sum E l = 0 <-> Forall (fun x => x = 0) l).
Proof.
  intros (_ & _ & _ & O) F. destruct l as [|x0 r]; [unfold f_sum, sumR; simpl; split; [split; lra|split; [constructor|reflexivity]]|].
  set (l := x0 :: r) in *. assert (EQ : f_sum E l = fsum (fun i => nth i l 0) (f_order E (length l))) by reflexivity. rewrite EQ.
  specialize (O (length l) ltac:(simpl; lia)). set (t := f_order E (length l)) in *.
  assert (IN : forall i, In i (leaves t) <-> (i < length l)%nat).
  { intros i. split; intros Hi.
    - apply (Permutation_in _ O) in Hi. apply in_seq in Hi. lia.
    - apply (Permutation_in _ (Permutation_sym O)). apply in_seq. lia. }
  destruct (fsum_bounds (fun i => nth i l 0) t) as (_ & B & Z).
  { intros i Hi. rewrite Forall_forall in F. apply F, nth_In, IN, Hi. }
  rewrite (sumf_perm _ _ _ O), sumf_nth in B. split; [exact B|]. rewrite Z. split.
  - intros Q. apply Forall_forall. intros x Hx. apply (In_nth l x 0) in Hx. destruct Hx as (i & Hi & <-). apply Q, IN, Hi.
  - intros Q i Hi. rewrite Forall_forall in Q. apply Q, nth_In, IN, Hi.
Qed.
Lemma f_sum_opp E (l : list R) : f_sum E (map Ropp l) = - f_sum E l.
Proof.
  destruct l as [|x0 r]; [unfold f_sum; simpl; ring|]. set (l := x0 :: r).
  assert (E1 : f_sum E (map Ropp l) = fsum (fun i => nth i (map Ropp l) 0) (f_order E (length (map Ropp l)))) by reflexivity.
  assert (E2 : f_sum E l = fsum (fun i => nth i l 0) (f_order E (length l))) by reflexivity.
  rewrite E1, E2, map_length, <- fsum_opp. apply fsum_ext. intros i. rewrite <- (Ropp_0) at 1. apply map_nth.
Qed.

(** ** probabilities *)
Lemma f_prob_facts c N : (1 <= c <= N)%Z -> (N <= 2 ^ 53)%Z ->
  let p := IZR c / IZR N in
  f_prob c N = fl p /\ uro <= f_prob c N <= 1 /\ (1 - uro) * p <= f_prob c N <= (1 + uro) * p /\
  (c = N -> f_prob c N = 1) /\ ((c < N)%Z -> f_prob c N <= 1 - uro).
Proof.
  intros C L p. assert (N0 : 0 < IZR N) by (apply IZR_lt; lia). assert (C1 : 1 <= IZR c) by (apply IZR_le; lia). assert (CN : IZR c <= IZR N) by (apply IZR_le; lia).
  assert (LN : IZR N <= 2 ^ 53) by (rewrite (pow_IZR 2 53); apply IZR_le; exact L).
  pose proof uro_pos as U0. pose proof uro_small as U1.
  assert (UN : uro * IZR N <= 1).
  { unfold uro. apply (Rmult_le_reg_l (2 ^ 53)); [lra|]. rewrite <- Rmult_assoc, Rinv_r, Rmult_1_l, Rmult_1_r by lra. exact LN. }
  assert (PU : uro <= p).
  { unfold p. apply (Rmult_le_reg_r (IZR N)); [exact N0|]. unfold Rdiv. rewrite Rmult_assoc, Rinv_l, Rmult_1_r by lra. lra. }
  assert (P1 : p <= 1) by (unfold p; apply (Rmult_le_reg_r (IZR N)); [exact N0|]; unfold Rdiv; rewrite Rmult_assoc, Rinv_l, Rmult_1_r by lra; lra).
  assert (E : f_prob c N = fl p) by (unfold f_prob; rewrite !fl_int by lia; reflexivity).
  assert (F1 : fl 1 = 1) by (change 1 with (IZR 1); apply fl_int; simpl; lia).
  rewrite E. split; [reflexivity|]. split; [split|].
  - assert (FU : fl uro = uro) by (rewrite uro_bpow; apply fl_bpow; lia). rewrite <- FU at 1. apply fl_mono. exact PU.
  - rewrite <- F1. apply fl_mono. exact P1.
  - assert (T : tiny <= p) by (eapply Rle_trans; [|exact PU]; rewrite uro_bpow; apply tiny_le; lia).
    split; [apply (fl_pos_err p (or_intror T))|]. split.
    + intros ->. unfold p. replace (IZR N / IZR N) with 1 by (field; lra). exact F1.
    + intros Lt. assert (CN' : IZR c <= IZR N - 1) by (rewrite <- minus_IZR; apply IZR_le; lia).
      rewrite <- fl_pred1. apply fl_mono. unfold p. apply (Rmult_le_reg_r (IZR N)); [exact N0|]. unfold Rdiv. rewrite Rmult_assoc, Rinv_l, Rmult_1_r by lra. lra.
Qed.

(** ** logarithms *)
Lemma float_big b : float_base b -> big_base b.
Proof. destruct b as [|r]; [auto|]. intros (A & _). exact A. Qed.
Lemma unit_range b : float_base b -> 0 < unit_of b <= 1024.
Proof.
  destruct b as [|r]; cbn [float_base unit_of]; [lra|]. intros (A & B). split; [apply ln_pos; exact A|].
  assert (r0 : 0 < r) by (apply Rlt_trans with 1; [exact Rlt_0_1|exact A]).
  apply Rle_trans with (ln (2 ^ 1024)); [apply ln_monotone; assumption|]. rewrite ln_pow by exact Rlt_0_2. clear A B r0.
  assert (L2 : ln 2 <= 1) by (pose proof (ln_le_sub1 2 ltac:(lra)); lra). rewrite INR_IZR_INZ. change (Z.of_nat 1024) with 1024%Z. lra.
Qed.

(** [-log x] of a double in (0, 1] *)
Lemma f_log_base_ok E eps b x : accurate eps E -> 0 <= eps <= / 10 -> float_base b -> 0 < x <= 1 -> (x = 1 \/ x <= 1 - uro) ->
  exists L, f_log_base E b x = Ok L /\ let lam := - ln x / unit_of b in
    (1 - base_eps b eps) * lam <= - L <= (1 + base_eps b eps) * lam /\ 0 <= lam /\ (L = 0 <-> x = 1) /\ (x <> 1 -> uro / unit_of b <= lam).
Proof.
  intros (A1 & A2 & A3 & _) Ee Fb Hx Hx1. pose proof uro_pos as U0. pose proof uro_small as U1. pose proof (unit_range b Fb) as UR.
  assert (X0 : 0 < x) by lra.
  assert (LX : ln x <= 0) by (apply ln_nonpos; lra).
  assert (LU : x <> 1 -> uro <= - ln x) by (intros N; destruct Hx1 as [->|Hx1]; [lra|]; pose proof (ln_le_sub1 x X0); lra).
  assert (L1 : x = 1 -> ln x = 0) by (intros ->; apply ln_1).
  assert (LAM0 : 0 <= - ln x / unit_of b) by (apply Rmult_le_pos; [lra|left; apply Rinv_0_lt_compat; lra]).
  assert (LAMU : x <> 1 -> uro / unit_of b <= - ln x / unit_of b) by (intros N; apply Rmult_le_compat_r; [left; apply Rinv_0_lt_compat; lra|auto]).
  assert (BAS : forall g r L, log_within eps r g -> L = g x -> unit_of b = ln r -> base_eps b eps = eps ->
    (1 - base_eps b eps) * (- ln x / unit_of b) <= - L <= (1 + base_eps b eps) * (- ln x / unit_of b) /\ (L = 0 <-> x = 1)).
  { intros g r L W -> UE BE0. rewrite BE0. specialize (W x X0). rewrite <- UE in W.
    assert (AB : Rabs (ln x / unit_of b) = - ln x / unit_of b).
    { rewrite Rabs_left1; [unfold Rdiv; ring|]. unfold Rdiv in *. rewrite Ropp_mult_distr_l_reverse in LAM0. lra. }
    rewrite AB in W. apply Rabs_le_inv in W. assert (EQ : ln x / unit_of b = - (- ln x / unit_of b)) by (unfold Rdiv; ring).
    rewrite EQ in W. split; [lra|]. split.
    - intros Z. destruct (Req_dec x 1) as [X1|X1]; [exact X1|exfalso]. pose proof (LAMU X1). assert (0 < uro / unit_of b) by (apply Rdiv_lt_0_compat; lra).
      set (lam := - ln x / unit_of b) in *. assert (eps * lam <= / 10 * lam) by (apply Rmult_le_compat_r; lra). lra.
    - intros X1. assert (Z : - ln x / unit_of b = 0) by (rewrite (L1 X1); unfold Rdiv; ring). rewrite Z in W. lra. }
  destruct b as [|r].
  - exists (f_log E x). split; [unfold f_log_base, f_np; destruct (Rlt_dec 0 x); [reflexivity|contradiction]|].
    destruct (BAS (f_log E) (exp 1) _ A1 eq_refl) as (B1 & B2); [cbn [unit_of]; rewrite ln_exp; reflexivity|reflexivity|]. cbv zeta. auto.
  - unfold f_log_base. destruct (Req_EM_T r 2) as [R2|N2].
    + exists (f_log2 E x). split; [unfold f_np; destruct (Rlt_dec 0 x); [reflexivity|contradiction]|].
      destruct (BAS (f_log2 E) 2 _ A2 eq_refl) as (B1 & B2); [cbn [unit_of]; rewrite R2; reflexivity|unfold base_eps; destruct (Req_EM_T r 2); [reflexivity|contradiction]|]. cbv zeta. auto.
    + destruct (Req_EM_T r 10) as [R10|N10].
      * exists (f_log10 E x). split; [unfold f_np; destruct (Rlt_dec 0 x); [reflexivity|contradiction]|].
        destruct (BAS (f_log10 E) 10 _ A3 eq_refl) as (B1 & B2); [cbn [unit_of]; rewrite R10; reflexivity|unfold base_eps; destruct (Req_EM_T r 2); [reflexivity|]; destruct (Req_EM_T r 10); [reflexivity|contradiction]|]. cbv zeta. auto.
      * assert (Fb1 : 1 < r) by apply Fb. clear Fb. cbn [unit_of] in *. destruct (Req_EM_T r 0) as [Z|_]; [lra|]. destruct (Rlt_dec r 0) as [Z|_]; [lra|].
        assert (E1 : base_eps (BNum r) eps = (1 + eps) * (1 + uro) / (1 - eps) - 1).
        { unfold base_eps. destruct (Req_EM_T r 2); [contradiction|]. destruct (Req_EM_T r 10); [contradiction|reflexivity]. }
        unfold f_np. destruct (Rlt_dec 0 x); [|contradiction]. destruct (Rlt_dec 0 r); [|lra]. cbn [bind].
        pose proof (A1 x X0) as Wx. pose proof (A1 r ltac:(lra)) as Wr. rewrite ln_exp in Wx, Wr. unfold Rdiv in Wx, Wr. rewrite Rinv_1, Rmult_1_r in Wx, Wr.
        rewrite (Rabs_left1 (ln x)) in Wx by lra. rewrite (Rabs_pos_eq (ln r)) in Wr by lra. apply Rabs_le_inv in Wx, Wr.
        set (a := - f_log E x). set (d := f_log E r) in *. set (la := - ln x) in *. set (lr := ln r) in *.
        assert (Ha : (1 - eps) * la <= a <= (1 + eps) * la) by (unfold a; unfold la in *; lra).
        assert (Hd : (1 - eps) * lr <= d <= (1 + eps) * lr) by lra.
        assert (la0 : 0 <= la) by (unfold la; lra). assert (d0 : 0 < d) by (assert (0 < (1 - eps) * lr) by (apply Rmult_lt_0_compat; lra); lra).
        destruct (Req_EM_T d 0) as [Z|_]; [lra|]. exists (fl (f_log E x / d)). split; [reflexivity|]. cbv zeta.
        assert (NEG : - fl (f_log E x / d) = fl (a / d)) by (rewrite <- fl_opp; f_equal; unfold a, Rdiv; ring).
        assert (A0 : 0 <= a) by (assert (0 <= (1 - eps) * la) by (apply Rmult_le_pos; lra); lra).
        assert (DIC : a / d = 0 /\ x = 1 \/ tiny <= a / d /\ x <> 1).
        { destruct (Req_dec x 1) as [X1|X1].
          - left. split; [|exact X1]. assert (Z : la = 0) by (unfold la; rewrite (L1 X1); ring). assert (Z2 : a = 0) by (rewrite Z in Ha; lra). rewrite Z2. unfold Rdiv. ring.
          - right. split; [|exact X1]. pose proof (LU X1) as LU1. fold la in LU1.
            assert (a9 : / 2 * uro <= a) by (assert (/ 2 * uro <= (1 - eps) * la) by (apply Rmult_le_compat; lra); lra).
            assert (d9 : d <= 2048) by (assert ((1 + eps) * lr <= 2 * 1024) by (apply Rmult_le_compat; lra); lra).
            apply (Rmult_le_reg_r d); [exact d0|]. unfold Rdiv. rewrite Rmult_assoc, Rinv_l, Rmult_1_r by lra.
            apply Rle_trans with (tiny * 2048); [apply Rmult_le_compat_l; [left; apply tiny_pos|exact d9]|]. eapply Rle_trans; [|exact a9].
            rewrite uro_bpow. change 2048 with (IZR (radix2 ^ 11)). rewrite IZR_Zpower by lia. unfold tiny. rewrite <- bpow_plus.
            change (/ 2) with (bpow radix2 (-1)). rewrite <- bpow_plus. apply bpow_le. lia. }
        assert (DD : a / d = 0 \/ tiny <= a / d) by tauto.
        destruct (fl_pos_err (a / d) DD) as (B1 & _ & B3). rewrite NEG. rewrite E1.
        assert (UPq : a / d <= (1 + eps) / (1 - eps) * (la / lr)).
        { apply (Rmult_le_reg_r d); [exact d0|]. unfold Rdiv at 1. rewrite Rmult_assoc, Rinv_l, Rmult_1_r by lra.
          apply Rle_trans with ((1 + eps) / (1 - eps) * (la / lr) * ((1 - eps) * lr)).
          - apply Rle_trans with ((1 + eps) * la); [apply Ha|]. right. field. split; lra.
          - apply Rmult_le_compat_l; [|apply Hd]. apply Rmult_le_pos; [apply Rmult_le_pos; [lra|left; apply Rinv_0_lt_compat; lra]|exact LAM0]. }
        assert (DNq : (1 - eps) / (1 + eps) * (la / lr) <= a / d).
        { apply (Rmult_le_reg_r d); [exact d0|]. unfold Rdiv at 3. rewrite (Rmult_assoc a), Rinv_l, Rmult_1_r by lra.
          apply Rle_trans with ((1 - eps) / (1 + eps) * (la / lr) * ((1 + eps) * lr)).
          - apply Rmult_le_compat_l; [|apply Hd]. apply Rmult_le_pos; [apply Rmult_le_pos; [lra|left; apply Rinv_0_lt_compat; lra]|exact LAM0].
          - apply Rle_trans with ((1 - eps) * la); [|apply Ha]. right. field. split; lra. }
        assert (K0 : 0 <= la / lr) by exact LAM0. set (K := la / lr) in *. set (q := a / d) in *.
        assert (AA : 0 < (1 + eps) / (1 - eps)) by (apply Rdiv_lt_0_compat; lra).
        assert (AI : (1 - eps) / (1 + eps) = / ((1 + eps) / (1 - eps))) by (field; lra). rewrite AI in DNq.
        replace ((1 + eps) * (1 + uro) / (1 - eps) - 1) with ((1 + uro) * ((1 + eps) / (1 - eps)) - 1) by (field; lra).
        set (A := (1 + eps) / (1 - eps)) in *.
        assert (A1' : 1 <= A) by (unfold A; apply (Rmult_le_reg_r (1 - eps)); [lra|]; unfold Rdiv; rewrite Rmult_assoc, Rinv_l by lra; lra).
        assert (MID : 1 - ((1 + uro) * A - 1) <= (1 - uro) * / A).
        { assert (/ A <= 1) by (rewrite <- Rinv_1; apply Rinv_le_contravar; lra). assert (IA : A * / A = 1) by (apply Rinv_r; lra). set (B := / A) in *.
          assert (0 <= uro * (A - B)) by (apply Rmult_le_pos; lra). assert (2 <= A + B) by (pose proof (Rle_0_sqr (A - 1)) as SQ; unfold Rsqr in SQ; assert (0 < B) by (unfold B; apply Rinv_0_lt_compat; lra); nra). lra. }
        split; [split|].
        -- apply Rle_trans with ((1 - uro) * q); [|apply B1]. apply Rle_trans with ((1 - uro) * (/ A * K)); [|apply Rmult_le_compat_l; lra].
           rewrite <- Rmult_assoc. apply Rmult_le_compat_r; assumption.
        -- apply Rle_trans with ((1 + uro) * q); [apply B1|]. apply Rle_trans with ((1 + uro) * (A * K)); [apply Rmult_le_compat_l; lra|]. lra.
        -- split; [exact LAM0|]. split; [|exact LAMU].
           assert (ZE : fl (f_log E x / d) = 0 <-> fl q = 0) by (rewrite <- NEG; split; lra). rewrite ZE, B3. destruct DIC as [(Z1 & Z2)|(Z1 & Z2)]; [tauto|].
           pose proof tiny_pos. split; [lra|contradiction].
Qed.
