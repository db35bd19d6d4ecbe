(** C63: the Gaussian kernel on one-dimensional data *)
From Coq Require Import Reals List ZArith Arith Bool Lia Lra Permutation.
From Verif Require Import Res RSum Spec SpecBase SpecKern SpecGauss MBase PBase MTE MPct MNorm MCont MKern PKern PKern2 PKern3 PropsKern PropsKern2.
Import ListNotations.
Local Open Scope R_scope.

Definition gauss_args (h : R) (w : Z) (b : base) : kargs := mkKargs (BwNum h) KGauss w b.

Lemma varied_length xs : varied xs -> (2 <= length xs)%nat.
Proof. intros (x & y & Hx & Hy & N). destruct xs as [|a [|c xs]]; cbn in *; try tauto; [|lia]. destruct Hx as [->|[]], Hy as [->|[]]. congruence. Qed.

Lemma sample_var_pos xs : varied xs -> 0 < sample_var xs.
Proof.
  intros V. pose proof (varied_length xs V) as L. destruct V as (x & y & Hx & Hy & N). unfold sample_var.
  apply Rdiv_lt_0_compat.
  - assert (P : forall z, In z xs -> 0 <= (z - mean xs) ^ 2) by (intros; apply pow2_ge_0).
    destruct (Req_dec x (mean xs)) as [E|E].
    + assert (y <> mean xs) by congruence. apply Rlt_le_trans with ((y - mean xs) ^ 2).
      * assert (y - mean xs <> 0) by lra. pose proof (pow2_ge_0 (y - mean xs)). destruct H1 as [H1|H1]; [exact H1|].
        exfalso. symmetry in H1. apply H0. apply Rsqr_0_uniq. unfold Rsqr. lra.
      * apply (sumf_In_le (fun z => (z - mean xs) ^ 2)); assumption.
    + apply Rlt_le_trans with ((x - mean xs) ^ 2).
      * assert (x - mean xs <> 0) by lra. pose proof (pow2_ge_0 (x - mean xs)). destruct H0 as [H0|H0]; [exact H0|].
        exfalso. symmetry in H0. apply H. apply Rsqr_0_uniq. unfold Rsqr. lra.
      * apply (sumf_In_le (fun z => (z - mean xs) ^ 2)); assumption.
  - apply le_INR in L. cbn [INR] in L. lra.
Qed.

Lemma stdev_pos xs : varied xs -> 0 < stdev xs.
Proof. intros V. apply sqrt_lt_R0. apply (sample_var_pos xs V). Qed.

Lemma gauss1_ok xs h : varied xs -> 0 < h -> exists f, gauss1 xs h = Ok f /\ forall q, f q = gdensity h xs q.
Proof.
  intros V Hh. pose proof (varied_length xs V) as L. pose proof (sample_var_pos xs V) as SV.
  pose proof (stdev_pos xs V) as SP.
  unfold gauss1. destruct (Nat.leb_spec (length xs) 1); [lia|].
  assert (E2 : stdev xs ^ 2 = sample_var xs) by (unfold stdev; rewrite pow2_sqrt; [reflexivity|left; exact SV]).
  assert (P : 0 < sample_var xs * h ^ 2) by (apply Rmult_lt_0_compat; [exact SV|apply pow_lt; exact Hh]).
  destruct (Rlt_dec 0 _) as [_|X]; [|contradiction].
  eexists. split; [reflexivity|]. intros q. unfold gdensity. rewrite mean_map.
  set (s := h * stdev xs). assert (Hs : 0 < s) by (unfold s; nra).
  assert (VS : sample_var xs * h ^ 2 = s ^ 2) by (unfold s; rewrite Rpow_mult_distr, E2; ring).
  rewrite VS. unfold normal. rewrite sumf_div.
  assert (SQ : sqrt (2 * PI * s ^ 2) = s * sqrt (2 * PI)).
  { pose proof PI_RGT_0. rewrite sqrt_mult; [|nra|apply pow2_ge_0]. rewrite sqrt_pow2 by lra. ring. }
  rewrite SQ.
  assert (QP : 0 < sqrt (2 * PI)) by (apply sqrt_lt_R0; pose proof PI_RGT_0; lra).
  rewrite (sumf_ext (fun x => exp (- (q - x) ^ 2 / (2 * s ^ 2))) (fun x => exp (- ((q - x) / s) ^ 2 / 2))).
  - field. repeat split; try lra. apply not_0_INR. lia.
  - intros x _. f_equal. field. lra.
Qed.

Lemma normal_pos m s q : 0 < s -> 0 < normal m s q.
Proof.
  intros Hs. unfold normal. apply Rdiv_lt_0_compat; [apply exp_pos|]. apply Rmult_lt_0_compat; [exact Hs|].
  apply sqrt_lt_R0. pose proof PI_RGT_0. lra.
Qed.
Lemma gdensity_pos h xs q : varied xs -> 0 < h -> 0 < gdensity h xs q.
Proof.
  intros V Hh. pose proof (varied_length xs V) as L. pose proof (stdev_pos xs V) as SP.
  unfold gdensity. rewrite mean_map. apply Rdiv_lt_0_compat; [|apply lt_0_INR; lia].
  apply sumf_pos; [destruct xs; [cbn in L; lia|discriminate]|]. intros x _. apply normal_pos. nra.
Qed.

Lemma map_pts xs : map (fun r : pt => nth 0 r 0) (map (fun x => [x]) xs) = xs.
Proof. rewrite map_map. cbn. apply map_id. Qed.

Lemma kde_gauss E h w xs at_ : varied xs -> 0 < h -> (0 < cpus E)%Z -> workers_ok w ->
  (2 <= length at_)%nat ->
  kde E (map (fun x => [x]) xs) (BwNum h) (Some (map (fun x => [x]) at_)) KGauss w = Ok (D1 (map (gdensity h xs) at_)) /\
  kde E (map (fun x => [x]) xs) (BwNum h) None KGauss w = Ok (D1 (map (gdensity h xs) xs)).
Proof.
  intros V Hh HC HW LA. pose proof (varied_length xs V) as L.
  assert (W : (0 < (if Z.eqb w (-1) then cpus E else w))%Z).
  { destruct (Z.eqb_spec w (-1)); [exact HC|]. destruct HW; [assumption|congruence]. }
  assert (WD : forall l : list R, (2 <= length l)%nat -> width (map (fun x => [x]) l) = 1%nat) by (intros [|? l] Hl; [cbn in Hl; lia|reflexivity]).
  assert (G : forall ys, (2 <= length ys)%nat -> gaussian_kernel_densities E (map (fun x => [x]) xs) h (map (fun x => [x]) ys)
     (if Z.eqb w (-1) then cpus E else w) = Ok (D1 (map (gdensity h xs) ys))).
  { intros ys Ly. unfold gaussian_kernel_densities. rewrite (WD xs L), map_pts. destruct (gauss1_ok xs h V Hh) as (f & -> & Hf).
    cbn [bind]. rewrite (proj1 (C53_parallel_is_sequential (fun q : pt => f (nth 0 q 0)) _ _ _ W ltac:(rewrite map_length; exact Ly))).
    do 2 f_equal. rewrite map_map. apply map_ext. intros x. cbn. apply Hf. }
  unfold kde. destruct (Rle_dec h 0); [lra|]. rewrite (WD xs L), (WD at_ LA), Nat.eqb_refl. cbn [bind].
  rewrite (G at_ LA), (G xs L). split; reflexivity.
Qed.

Lemma gauss_workers E h w b : workers_ok w -> (0 < cpus E)%Z -> workers_ok (n_workers E (gauss_args h w b)).
Proof. intros HW HC. apply n_workers_ok; assumption. Qed.

Section Gauss.
Variables (E : kenv) (h : R) (w : Z) (b : base).
Hypothesis (Hh : 0 < h) (HC : (0 < cpus E)%Z) (HW : workers_ok w) (HV : valid_base b).

(** local values and mean: minus the logarithm of the estimated density; the number of workers does not matter *)
Theorem C63_gaussian_entropy : forall xs, varied xs ->
  kernel_entropy_local E (gauss_args h w b) (FArr (F1 xs)) = Ok (map (fun q => - ln (gdensity h xs q) / unit_of b) xs) /\
  kernel_entropy E (gauss_args h w b) (FArr (F1 xs)) = Ok (GH h xs / unit_of b).
Proof using Hh HC HW HV.
  intros xs V. pose proof (varied_length xs V) as L.
  assert (A : kernel_entropy_local E (gauss_args h w b) (FArr (F1 xs)) = Ok (map (fun q => - ln (gdensity h xs q) / unit_of b) xs)).
  { unfold kernel_entropy_local. cbn [make_rows bind rows2d]. unfold kdens. cbn [gauss_args k_bw k_kern k_base].
    rewrite (proj2 (kde_gauss E h _ xs xs V Hh HC (gauss_workers E h w b HW HC) L)).
    cbn [bind]. destruct (base_guard_ok b HV) as [-> ->]. cbn [bind].
    rewrite (mapM_ok _ (fun p => - (ln p / unit_of b))).
    - rewrite map_map. f_equal. apply map_ext. intros t. unfold Rdiv. ring.
    - intros p Hp. apply in_map_iff in Hp as (t & <- & Ht). apply kent_local_ok; [exact HV|]. apply gdensity_pos; assumption. }
  split; [exact A|]. unfold kernel_entropy. rewrite A. cbn [bind].
  rewrite mean_ok by (apply map_ne; intros ->; cbn in L; lia). f_equal. unfold GH.
  apply (mean_map_div (fun q => - ln (gdensity h xs q))).
Qed.

(** the value lies between ln (h s sqrt(2 pi)) and ln (N h s sqrt(2 pi)), where s is the standard deviation *)
Theorem C63_bounds : forall xs, varied xs -> big_base b ->
  exists H, kernel_entropy E (gauss_args h w b) (FArr (F1 xs)) = Ok H /\
    ln (h * stdev xs * sqrt (2 * PI)) / unit_of b <= H <= ln (INR (length xs) * (h * stdev xs * sqrt (2 * PI))) / unit_of b.
Proof using Hh HC HW HV.
  intros xs V HB. pose proof (varied_length xs V) as L. pose proof (stdev_pos xs V) as SP.
  eexists. split; [apply C63_gaussian_entropy; exact V|].
  pose proof (unit_pos b HV HB) as U.
  assert (QP : 0 < sqrt (2 * PI)) by (apply sqrt_lt_R0; pose proof PI_RGT_0; lra).
  set (s := h * stdev xs). assert (Hs : 0 < s) by (unfold s; nra).
  set (z := s * sqrt (2 * PI)). assert (Hz : 0 < z) by (unfold z; nra).
  assert (HN : 0 < INR (length xs)) by (apply lt_0_INR; lia).
  assert (X : forall q, In q xs -> ln z <= - ln (gdensity h xs q) <= ln (INR (length xs) * z)).
  { intros q Hq. pose proof (gdensity_pos h xs q V Hh) as GP.
    assert (N1 : forall x, normal x s q <= / z).
    { intros x. unfold normal. fold z. unfold Rdiv at 1. rewrite <- (Rmult_1_l (/ z)) at 2.
      apply Rmult_le_compat_r; [left; apply Rinv_0_lt_compat; exact Hz|]. rewrite <- exp_0.
      pose proof (pow2_ge_0 ((q - x) / s)).
      destruct (Req_dec (- ((q - x) / s) ^ 2 / 2) 0) as [->|Ne]; [lra|]. left. apply exp_increasing. lra. }
    assert (N2 : normal q s q = / z).
    { unfold normal. fold z. replace (- ((q - q) / s) ^ 2 / 2) with 0 by (unfold Rminus; rewrite Rplus_opp_r; unfold Rdiv; ring).
      rewrite exp_0. unfold Rdiv. ring. }
    assert (G1 : gdensity h xs q <= / z).
    { unfold gdensity. rewrite mean_map. apply (Rmult_le_reg_r (INR (length xs))); [exact HN|].
      unfold Rdiv. rewrite Rmult_assoc, Rinv_l, Rmult_1_r by lra. rewrite (Rmult_comm (/ z)), <- sumf_const.
      apply sumf_le. intros x _. apply N1. }
    assert (G2 : / (INR (length xs) * z) <= gdensity h xs q).
    { unfold gdensity. rewrite mean_map. rewrite Rinv_mult, (Rmult_comm (/ INR (length xs)) (/ z)). unfold Rdiv.
      apply Rmult_le_compat_r; [left; apply Rinv_0_lt_compat; exact HN|]. rewrite <- N2.
      apply (sumf_In_le (fun x => normal x s q)); [|exact Hq]. intros y _. left. apply normal_pos. exact Hs. }
    split.
    - assert (ln (gdensity h xs q) <= ln (/ z)) by (destruct G1 as [G1| ->]; [left; apply ln_increasing; assumption|lra]).
      rewrite ln_Rinv in H by exact Hz. lra.
    - assert (PZ : 0 < INR (length xs) * z) by nra.
      assert (ln (/ (INR (length xs) * z)) <= ln (gdensity h xs q))
        by (destruct G2 as [G2| <-]; [left; apply ln_increasing; [apply Rinv_0_lt_compat|]; assumption|lra]).
      rewrite ln_Rinv in H by exact PZ. lra. }
  fold s z. unfold GH. rewrite mean_map.
  assert (LO : INR (length xs) * ln z <= sumf (fun q => - ln (gdensity h xs q)) xs)
    by (rewrite <- sumf_const; apply sumf_le; intros q Hq; apply X; exact Hq).
  assert (HI : sumf (fun q => - ln (gdensity h xs q)) xs <= INR (length xs) * ln (INR (length xs) * z))
    by (rewrite <- sumf_const; apply sumf_le; intros q Hq; apply X; exact Hq).
  split; apply (Rmult_le_compat_r (/ unit_of b)); try (left; apply Rinv_0_lt_compat; exact U);
    apply (Rmult_le_reg_r (INR (length xs))); try exact HN; unfold Rdiv; rewrite Rmult_assoc, Rinv_l by lra; lra.
Qed.

Lemma mean_affine a c xs : xs <> [] -> mean (map (fun x => a * x + c) xs) = a * mean xs + c.
Proof.
  intros N. rewrite mean_map, sumf_plus, sumf_scal, sumf_const. unfold mean.
  assert (INR (length xs) <> 0) by (apply not_0_INR; destruct xs; [congruence|discriminate]).
  unfold sumR. field. exact H.
Qed.
Lemma stdev_affine a c xs : xs <> [] -> stdev (map (fun x => a * x + c) xs) = Rabs a * stdev xs.
Proof.
  intros N. unfold stdev. rewrite mean_affine by exact N. rewrite sumf_map, map_length.
  rewrite (sumf_ext (fun x => (a * x + c - (a * mean xs + c)) ^ 2) (fun x => a ^ 2 * (x - mean xs) ^ 2)) by (intros; ring).
  rewrite sumf_scal. unfold Rdiv. rewrite Rmult_assoc, sqrt_mult_alt by apply pow2_ge_0.
  f_equal. replace (a ^ 2) with (Rsqr a) by (unfold Rsqr; ring). apply sqrt_Rsqr_abs.
Qed.

(** an affine change of units x -> a x + c adds ln |a|; the order of the samples does not matter *)
Theorem C63_invariances : forall xs ys a c, varied xs -> Permutation xs ys -> a <> 0 ->
  exists H, kernel_entropy E (gauss_args h w b) (FArr (F1 xs)) = Ok H /\
    kernel_entropy E (gauss_args h w b) (FArr (F1 ys)) = Ok H /\
    kernel_entropy E (gauss_args h w b) (FArr (F1 (map (fun x => a * x + c) xs))) = Ok (H + ln (Rabs a) / unit_of b).
Proof using Hh HC HW HV.
  intros xs ys a c V P Ha. pose proof (varied_length xs V) as L. pose proof (stdev_pos xs V) as SP.
  assert (N : xs <> []) by (intros ->; cbn in L; lia).
  assert (Vy : varied ys).
  { destruct V as (x & y & Hx & Hy & D). exists x, y. split; [|split]; try assumption; eapply Permutation_in; eauto. }
  assert (Va : varied (map (fun x => a * x + c) xs)).
  { destruct V as (x & y & Hx & Hy & D). exists (a * x + c), (a * y + c).
    split; [apply (in_map (fun x => a * x + c)); exact Hx|]. split; [apply (in_map (fun x => a * x + c)); exact Hy|].
    intros X. apply D. apply (Rmult_eq_reg_l a); lra. }
  assert (HA : 0 < Rabs a) by (apply Rabs_pos_lt; exact Ha).
  exists (GH h xs / unit_of b). split; [apply C63_gaussian_entropy; exact V|]. split.
  - rewrite (proj2 (C63_gaussian_entropy ys Vy)). do 2 f_equal.
    assert (ME : mean xs = mean ys).
    { unfold mean. rewrite (Permutation_length P). f_equal. unfold sumR. apply sumf_perm'. exact P. }
    assert (ST : stdev xs = stdev ys).
    { unfold stdev. rewrite ME, (Permutation_length P). do 2 f_equal. apply sumf_perm'. exact P. }
    unfold GH. rewrite !mean_map, (Permutation_length P). f_equal.
    rewrite (sumf_perm' _ _ _ P). apply sumf_ext. intros q _. unfold gdensity.
    rewrite !mean_map, ST, (Permutation_length P). do 3 f_equal. symmetry. apply sumf_perm'. exact P.
  - rewrite (proj2 (C63_gaussian_entropy _ Va)). f_equal.
    assert (G : forall q, In q xs -> - ln (gdensity h (map (fun x => a * x + c) xs) (a * q + c)) = - ln (gdensity h xs q) + ln (Rabs a)).
    { intros q _. assert (X : gdensity h (map (fun x => a * x + c) xs) (a * q + c) = gdensity h xs q * / Rabs a).
      { unfold gdensity. rewrite map_map, !mean_map, stdev_affine by exact N.
        rewrite (sumf_ext _ (fun x => normal x (h * stdev xs) q * / Rabs a)).
        - rewrite sumf_scal_r. unfold Rdiv. ring.
        - intros x _. unfold normal.
          assert (EQ : ((a * q + c - (a * x + c)) / (h * (Rabs a * stdev xs))) ^ 2 = ((q - x) / (h * stdev xs)) ^ 2).
          { replace (a * q + c - (a * x + c)) with (a * (q - x)) by ring. unfold Rdiv. rewrite !Rpow_mult_distr, !pow_inv, !Rpow_mult_distr.
            rewrite <- (pow2_abs a). field. repeat split; lra. }
          rewrite EQ. field. repeat split; try lra. apply Rgt_not_eq. apply sqrt_lt_R0. pose proof PI_RGT_0. lra. }
      rewrite X, ln_mult, ln_Rinv; [lra|exact HA|apply gdensity_pos; assumption|apply Rinv_0_lt_compat; exact HA]. }
    unfold GH. rewrite map_map, !mean_map, (sumf_ext _ _ _ G), sumf_plus, sumf_const.
    assert (INR (length xs) <> 0) by (apply not_0_INR; lia).
    field. split; [apply unit_ne; exact HV|assumption].
Qed.

(** cross-entropy: the density of the reference at the samples; against itself it is the entropy *)
Theorem C63_cross_entropy : forall xs ref, varied ref -> (2 <= length xs)%nat ->
  kernel_cross_entropy E (gauss_args h w b) (F1 xs) (F1 ref)
    = Ok (mean (map (fun x => - ln (gdensity h ref x)) xs) / unit_of b) /\
  kernel_kld E (gauss_args h w b) (F1 ref) (F1 ref) = Ok 0.
Proof using Hh HC HW HV.
  assert (G : forall xs ref, varied ref -> (2 <= length xs)%nat ->
    kernel_cross_entropy E (gauss_args h w b) (F1 xs) (F1 ref)
    = Ok (mean (map (fun x => - ln (gdensity h ref x)) xs) / unit_of b)).
  { intros xs ref V L. unfold kernel_cross_entropy. cbn [rows2d gauss_args k_bw k_kern k_base].
    rewrite (proj1 (kde_gauss E h _ ref xs V Hh HC (gauss_workers E h w b HW HC) L)).
    cbn [bind]. destruct (base_guard_ok b HV) as [-> _]. cbn [bind].
    assert (FL : filter (fun p => if Rlt_dec 0 p then true else false) (map (gdensity h ref) xs) = map (gdensity h ref) xs).
    { clear L. induction xs as [|x xs IH]; [reflexivity|]. cbn [map filter]. pose proof (gdensity_pos h ref x V Hh).
      destruct (Rlt_dec 0 _); [|contradiction]. rewrite IH. reflexivity. }
    rewrite FL, (mapM_ok _ (fun p => ln p / unit_of b)).
    2:{ intros p Hp. apply in_map_iff in Hp as (x & <- & _). apply log_base_ok; [exact HV|apply gdensity_pos; assumption]. }
    cbn [bind]. rewrite map_length. unfold np_div.
    assert (INR (length xs) <> 0) by (apply not_0_INR; lia).
    destruct (Req_EM_T _ 0) as [X|_]; [contradiction|]. f_equal. rewrite mean_map, sumf_opp. unfold sumR.
    rewrite map_map, sumf_map, sumf_div. field. split; [assumption|apply unit_ne; exact HV]. }
  intros xs ref V L. split; [apply G; assumption|].
  unfold kernel_kld. rewrite (G ref ref V (varied_length ref V)). cbn [bind].
  rewrite (proj2 (C63_gaussian_entropy ref V)). cbn [bind]. unfold GH. f_equal. ring.
Qed.

(** constant data, and a single sample, are rejected *)
Theorem C63_constant_rejected : forall xs, xs <> [] -> ~ varied xs ->
  kernel_entropy E (gauss_args h w b) (FArr (F1 xs)) = Raise ValueError.
Proof using Hh HC HW HV.
  intros xs N V.
  assert (W : (0 < (if Z.eqb (n_workers E (gauss_args h w b)) (-1) then cpus E else n_workers E (gauss_args h w b)))%Z).
  { pose proof (gauss_workers E h w b HW HC) as X. destruct (Z.eqb_spec (n_workers E (gauss_args h w b)) (-1)); [exact HC|].
    destruct X; [assumption|congruence]. }
  assert (G : gauss1 xs h = Raise ValueError).
  { unfold gauss1. destruct (Nat.leb_spec (length xs) 1); [reflexivity|].
    assert (X0 : forall x, In x xs -> x = hd 0 xs).
    { intros x Hx. destruct (Req_dec x (hd 0 xs)) as [|D]; [assumption|]. exfalso. apply V. exists x, (hd 0 xs).
      split; [exact Hx|]. split; [destruct xs; [congruence|left; reflexivity]|exact D]. }
    assert (M : mean xs = hd 0 xs).
    { unfold mean, sumR. rewrite (sumf_ext _ (fun _ => hd 0 xs)) by (intros; apply X0; assumption).
      rewrite sumf_const. field. apply not_0_INR. lia. }
    assert (S0 : sample_var xs = 0).
    { unfold sample_var. rewrite M, (sumf_ext _ (fun _ => 0)) by (intros x Hx; rewrite (X0 x Hx); ring).
      rewrite sumf_zero. unfold Rdiv. ring. }
    rewrite S0. destruct (Rlt_dec 0 (0 * h ^ 2)); [lra|reflexivity]. }
  unfold kernel_entropy, kernel_entropy_local. cbn [make_rows bind rows2d]. unfold kdens, kde. cbn [gauss_args k_bw k_kern k_base].
  destruct (Rle_dec h 0); [lra|]. cbn [bind]. unfold gaussian_kernel_densities.
  assert (WD : width (map (fun x => [x]) xs) = 1%nat) by (destruct xs; [congruence|reflexivity]).
  rewrite WD, map_pts, G. cbn [bind]. unfold parallel_kde_evaluate. cbn [bind].
  destruct (_ || _); [reflexivity|]. 
  match goal with |- context[array_split ?l ?v] => destruct (C53_chunks l v ltac:(lia)) as (ch & -> & LC & _) end.
  cbn [bind]. destruct ch as [|c ch]; [cbn in LC; lia|]. reflexivity.
Qed.
End Gauss.

(** the hypotheses can be met *)
Example C63_example : varied [0; 1; 3] /\ ~ varied [2; 2] /\ workers_ok (-1) /\ big_base BE.
Proof.
  split; [exists 0, 1; cbn; repeat split; auto; lra|]. split; [|split; [right; reflexivity|exact Logic.I]].
  intros (x & y & [<-|[<-|[]]] & [<-|[<-|[]]] & N); congruence.
Qed.
