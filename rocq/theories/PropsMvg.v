(** C87: entropy, cross-entropy and divergence with the Gaussian kernel on data of any dimension.
    [genv c eig]: c processors, eigenvalue routine [eig]; [gauss_args h w b]: bandwidth=h, kernel="gaussian", workers=w, base=b. *)
From Coq Require Import Reals Lra Lia List ZArith Arith Bool Permutation FunctionalExtensionality.
From Verif Require Import Res RSum Spec SpecBase MBase PBase MTE MPct MNorm MCont SpecKern SpecGauss MKern PKern PKern2 PKern3 PKern4 PropsKern PropsKern2 PropsKern5 SpecMvg MGauss PMvg PMvg2 PMvg3 PMvg4 PMvg5.
Import ListNotations.
Local Open Scope R_scope.

(** ** the specification means what it says: 2 x 2 determinant, and z^T C^-1 z = z . y where C y = z *)
Theorem C87_spec_det2 : forall a b c, a <> 0 ->
  gdet 2 (fun i j => match i, j with O, O => a | S _, S _ => c | _, _ => b end) = a * c - b * b.
Proof. intros a b c Ha. cbn. unfold schur. field. exact Ha. Qed.
Theorem C87_spec_quadratic : forall n d data z y, (2 <= n)%nat -> table n d data -> regular d data ->
  (forall i, (i < d)%nat -> inner d (covar data i) y = z i) -> gquad d (covar data) z = inner d z y.
Proof. intros n d data z y Hn T Rg E. apply gquad_solution; [apply covar_sym|apply (regular_Piv n); assumption|exact E]. Qed.
Theorem C87_spec_one_dimension : forall h xs, varied xs -> 0 < h -> MvH h 1 (map (fun x => [x]) xs) = GH h xs.
Proof.
  intros h xs V Hh. unfold MvH, GH. rewrite map_map. f_equal. apply map_ext. intros q. rewrite mvdensity_1 by assumption. reflexivity.
Qed.

Section Gauss.
Variables (c : Z) (eig : nat -> (nat -> nat -> R) -> list (R * (nat -> R))) (h : R) (w : Z) (b : base).
Hypothesis (HC : (0 < c)%Z) (Hh : 0 < h) (HW : workers_ok w) (HV : valid_base b).

Lemma entropy_rows i n d data : (2 <= n)%nat -> table n d data -> ready eig d data -> make_rows i = Ok data ->
  kernel_entropy_local (genv c eig) (gauss_args h w b) i = Ok (map (fun q => - ln (mvdensity h d data q) / unit_of b) data) /\
  kernel_entropy (genv c eig) (gauss_args h w b) i = Ok (MvH h d data / unit_of b).
Proof using HC Hh HW HV.
  intros Hn T Rd M. pose proof (regular_Piv n d data Hn T (proj1 Rd)) as Pv.
  assert (ND : data <> []) by (destruct T as [L _]; destruct data; [cbn in L; lia|discriminate]).
  assert (A : kernel_entropy_local (genv c eig) (gauss_args h w b) i = Ok (map (fun q => - ln (mvdensity h d data q) / unit_of b) data)).
  { unfold kernel_entropy_local. rewrite M. cbn [bind]. rewrite (kdens_mv c eig h w b n d data) by assumption. cbn [bind gauss_args k_base].
    destruct (base_guard_ok b HV) as [-> ->]. cbn [bind]. rewrite <- (proj1 T), (map_nth_seq (mvdensity h d data)).
    rewrite (mapM_ok _ (fun p => - (ln p / unit_of b))).
    - rewrite map_map. f_equal. apply map_ext. intros t. unfold Rdiv. ring.
    - intros p Hp. apply in_map_iff in Hp as (t & <- & Ht). apply kent_local_ok; [exact HV|]. apply mvdensity_pos; assumption. }
  split; [exact A|]. unfold kernel_entropy. rewrite A. cbn [bind]. rewrite mean_ok by (apply map_ne; exact ND). f_equal. unfold MvH.
  apply (mean_map_div (fun q => - ln (mvdensity h d data q))).
Qed.

(** the entropy is the mean of - ln of the kernel density estimate at the samples, for any number of workers *)
Theorem C87_entropy : forall a n d, (2 <= n)%nat -> table n d (rows2d a) -> ready eig d (rows2d a) ->
  kernel_entropy_local (genv c eig) (gauss_args h w b) (FArr a)
    = Ok (map (fun q => - ln (mvdensity h d (rows2d a) q) / unit_of b) (rows2d a)) /\
  kernel_entropy (genv c eig) (gauss_args h w b) (FArr a) = Ok (MvH h d (rows2d a) / unit_of b).
Proof using HC Hh HW HV. intros a n d Hn T Rd. apply (entropy_rows (FArr a) n d); auto. Qed.

(** a tuple of arrays: the entropy of the joint variable *)
Theorem C87_joint_entropy : forall cols n ds, (2 <= n)%nat -> cols <> [] -> Forall2 (fun d a => table n d (rows2d a)) ds cols ->
  let J := joint n (map rows2d cols) in let d := fold_right Nat.add 0%nat ds in
  ready eig d J ->
  kernel_entropy_local (genv c eig) (gauss_args h w b) (FTuple cols) = Ok (map (fun q => - ln (mvdensity h d J q) / unit_of b) J) /\
  kernel_entropy (genv c eig) (gauss_args h w b) (FTuple cols) = Ok (MvH h d J / unit_of b).
Proof using HC Hh HW HV.
  intros cols n ds Hn Nc F J d Rd. pose proof (tabs_cols n ds cols F) as T.
  assert (TJ : table n d J).
  { split; [unfold J, joint; rewrite map_length, seq_length; reflexivity|]. apply Forall_forall. intros p Hp. apply in_map_iff in Hp as (t & <- & Ht).
    apply in_seq in Ht. apply (jrow_length n ds (map rows2d cols) t T). lia. }
  apply (entropy_rows (FTuple cols) n d); auto. apply make_rows_tuple; [exact Nc|]. eapply tabs_tables. exact T.
Qed.

(** the value lies between ln Z and ln (N Z), where Z = sqrt((2 pi h^2)^d det C) *)
Theorem C87_bounds : forall n d data, (2 <= n)%nat -> table n d data -> ready eig d data -> big_base b ->
  let Z := sqrt ((2 * PI * h ^ 2) ^ d * gdet d (covar data)) in
  0 < Z /\ exists v, kernel_entropy (genv c eig) (gauss_args h w b) (FArr (F2 data)) = Ok v /\
    ln Z / unit_of b <= v <= ln (INR n * Z) / unit_of b.
Proof using HC Hh HW HV.
  intros n d data Hn T Rd HB Z. pose proof (regular_Piv n d data Hn T (proj1 Rd)) as Pv.
  assert (ND : data <> []) by (destruct T as [L _]; destruct data; [cbn in L; lia|discriminate]).
  split; [apply (Zmv_pos h d data Hh Pv)|]. eexists. split; [apply (C87_entropy (F2 data) n d Hn T Rd)|].
  pose proof (unit_pos b HV HB) as U. destruct (MvH_bounds h d data Hh ND Pv) as [B1 B2]. rewrite (proj1 T) in B2.
  unfold Rdiv. split; (apply Rmult_le_compat_r; [left; apply Rinv_0_lt_compat; exact U|assumption]).
Qed.

(** the order of the samples does not matter *)
Theorem C87_sample_order : forall n d data data', (2 <= n)%nat -> table n d data -> ready eig d data -> Permutation data data' ->
  exists v, kernel_entropy (genv c eig) (gauss_args h w b) (FArr (F2 data)) = Ok v /\
            kernel_entropy (genv c eig) (gauss_args h w b) (FArr (F2 data')) = Ok v.
Proof using HC Hh HW HV.
  intros n d data data' Hn T Rd P. eexists. split; [apply (C87_entropy (F2 data) n d Hn T Rd)|].
  cbn [rows2d]. rewrite (MvH_perm h d _ _ P). apply (C87_entropy (F2 data') n d Hn (table_perm n d _ _ P T) (ready_perm eig d _ _ P Rd)).
Qed.

(** nor does the order of the coordinates *)
Theorem C87_coordinate_order : forall n d data pi, (2 <= n)%nat -> table n d data -> Permutation pi (seq 0 d) ->
  ready eig d data -> eigen_of d (covar (map (pick pi) data)) (eig d (covar (map (pick pi) data))) ->
  exists v, kernel_entropy (genv c eig) (gauss_args h w b) (FArr (F2 data)) = Ok v /\
            kernel_entropy (genv c eig) (gauss_args h w b) (FArr (F2 (map (pick pi) data))) = Ok v.
Proof using HC Hh HW HV.
  intros n d data pi Hn T P Rd Eg. pose proof (Permutation_length P) as LP. rewrite seq_length in LP.
  assert (T' : table n d (map (pick pi) data)).
  { destruct T as [L F]. split; [rewrite map_length; exact L|]. apply Forall_forall. intros p Hp. apply in_map_iff in Hp as (q & <- & _).
    unfold pick. rewrite map_length. exact LP. }
  assert (PC : Permutation (colsof d data) (colsof d (map (pick pi) data))).
  { replace (colsof d (map (pick pi) data)) with (map (column data) pi); [apply Permutation_map, Permutation_sym, P|].
    unfold colsof. rewrite <- (map_nth_seq (column data) pi 0%nat), LP. apply map_ext_in. intros i Hi. apply in_seq in Hi.
    unfold column. rewrite map_map. apply map_ext. intros p. unfold pick. rewrite (nth_map_lt _ pi 0%nat) by lia. reflexivity. }
  assert (Rd' : ready eig d (map (pick pi) data)) by (split; [apply (regular_cols n d data); auto; apply Rd|intros _; exact Eg]).
  eexists. split; [apply (C87_entropy (F2 data) n d Hn T Rd)|]. cbn [rows2d].
  rewrite (MvH_cols h n d data (map (pick pi) data) T T' PC) by (apply (regular_Piv n); auto; apply Rd).
  apply (C87_entropy (F2 (map (pick pi) data)) n d Hn T' Rd').
Qed.

(** another unit and origin for every coordinate adds the logarithms of the factors, if both data sets are regular *)
Theorem C87_units : forall n d data a s, (2 <= n)%nat -> table n d data -> (forall i, (i < d)%nat -> a i <> 0) ->
  ready eig d data -> ready eig d (map (affine d a s) data) ->
  exists v, kernel_entropy (genv c eig) (gauss_args h w b) (FArr (F2 data)) = Ok v /\
    kernel_entropy (genv c eig) (gauss_args h w b) (FArr (F2 (map (affine d a s) data)))
      = Ok (v + sumf (fun i => ln (Rabs (a i))) (seq 0 d) / unit_of b).
Proof using HC Hh HW HV.
  intros n d data a s Hn T Na Rd Rd'. pose proof (regular_Piv n d data Hn T (proj1 Rd)) as Pv.
  assert (ND : data <> []) by (destruct T as [L _]; destruct data; [cbn in L; lia|discriminate]).
  eexists. split; [apply (C87_entropy (F2 data) n d Hn T Rd)|].
  rewrite (proj2 (C87_entropy (F2 (map (affine d a s) data)) n d Hn (affine_table n d a s data T) Rd')). cbn [rows2d].
  rewrite MvH_affine by assumption. f_equal. unfold Rdiv. ring.
Qed.
(** enlarging the numbers keeps the data regular *)
Theorem C87_enlarging_keeps_regular : forall n d data a s, (2 <= n)%nat -> table n d data -> (forall i, (i < d)%nat -> 1 <= Rabs (a i)) ->
  regular d data -> regular d (map (affine d a s) data).
Proof. intros; apply (regular_affine n); assumption. Qed.

(** reducing them does not: for every data set of two or more dimensions there is a unit from which on all smaller
    factors end in ValueError, although the entropy of rescaled data should only change by d ln a *)
Theorem C87_small_units_refuted : forall n d data, (2 <= n)%nat -> (2 <= d)%nat -> table n d data ->
  exists a0, 0 < a0 /\ forall a, 0 < a <= a0 ->
    eigen_of d (covar (rescale a data)) (eig d (covar (rescale a data))) ->
    kernel_entropy (genv c eig) (gauss_args h w b) (FArr (F2 (rescale a data))) = Raise ValueError.
Proof using HC Hh HW.
  intros n d data Hn Hd T. set (v := total_variance d data).
  assert (V0 : 0 <= v) by (apply (total_variance_nonneg n); assumption).
  exists (sqrt (eigen_threshold / (v + 1))).
  assert (Q : 0 < eigen_threshold / (v + 1)) by (apply Rdiv_lt_0_compat; [apply threshold_pos|lra]).
  split; [apply sqrt_lt_R0, Q|]. intros a [A0 A1] Eg.
  assert (TV : total_variance d (rescale a data) <= eigen_threshold).
  { rewrite (total_variance_rescale n) by (assumption || lia). fold v.
    assert (A2 : a ^ 2 <= eigen_threshold / (v + 1)).
    { rewrite <- (pow2_sqrt (eigen_threshold / (v + 1))) by lra. apply pow_incr. lra. }
    apply Rle_trans with (eigen_threshold / (v + 1) * (v + 1)); [|right; field; lra].
    apply Rmult_le_compat; [apply pow2_ge_0|exact V0|exact A2|lra]. }
  assert (T' : table n d (rescale a data)) by (apply (table_map n d); [exact T|intros; rewrite map_length; assumption]).
  pose proof (mv_gauss_tiny eig n d (rescale a data) h Hn ltac:(lia) T' TV Eg) as B.
  unfold kernel_entropy, kernel_entropy_local. cbn [make_rows bind rows2d]. unfold kdens, kde. cbn [gauss_args k_bw k_kern].
  destruct (Rle_dec h 0); [lra|]. cbn [bind]. unfold gaussian_kernel_densities. rewrite (table_width n d _ ltac:(lia) T').
  destruct d as [|[|d']]; [lia|lia|]. cbn [mvg genv] in *. rewrite B. unfold parallel_kde_evaluate.
  destruct (_ || _) eqn:PW; [reflexivity|]. cbn [bind].
  set (W := Z.min _ _). assert (PWk : (0 < W)%Z).
  { unfold W. pose proof (gauss_workers (genv c eig) h w b HW HC) as [X|X].
    - destruct (Z.eqb_spec (n_workers (genv c eig) (gauss_args h w b)) (-1)); lia.
    - rewrite X, Z.eqb_refl. cbn [genv cpus]. lia. }
  destruct (C53_chunks (rescale a data) W PWk) as (chunks & E & LC & _). rewrite E. cbn [bind].
  destruct chunks as [|c1 cs]; [cbn in LC; lia|]. reflexivity.
Qed.

(** cross-entropy: the mean over the samples of - ln of the density of the reference; a data set has divergence 0 from itself *)
Theorem C87_cross_entropy : forall n m d xs ref, (2 <= n)%nat -> (2 <= m)%nat -> table n d (rows2d ref) -> table m d (rows2d xs) -> ready eig d (rows2d ref) ->
  kernel_cross_entropy (genv c eig) (gauss_args h w b) xs ref
    = Ok (mean (map (fun q => - ln (mvdensity h d (rows2d ref) q)) (rows2d xs)) / unit_of b) /\
  kernel_kld (genv c eig) (gauss_args h w b) ref ref = Ok 0.
Proof using HC Hh HW HV.
  assert (G : forall n m d xs ref, (2 <= n)%nat -> (2 <= m)%nat -> table n d (rows2d ref) -> table m d (rows2d xs) -> ready eig d (rows2d ref) ->
    kernel_cross_entropy (genv c eig) (gauss_args h w b) xs ref = Ok (mean (map (fun q => - ln (mvdensity h d (rows2d ref) q)) (rows2d xs)) / unit_of b)).
  { intros n m d xs ref Hn Hm T Tx Rd. pose proof (regular_Piv n d _ Hn T (proj1 Rd)) as Pv.
    assert (ND : rows2d ref <> []) by (destruct T as [L _]; destruct (rows2d ref); [cbn in L; lia|discriminate]).
    unfold kernel_cross_entropy. cbn [gauss_args k_bw k_kern k_base].
    rewrite (proj1 (kde_mv c eig h _ n m d _ _ HC Hh (gauss_workers (genv c eig) h w b HW HC) Hn Hm T Tx Rd)).
    cbn [bind]. destruct (base_guard_ok b HV) as [-> _]. cbn [bind].
    rewrite filter_all.
    2:{ intros p Hp. apply in_map_iff in Hp as (x & <- & _). pose proof (mvdensity_pos h d (rows2d ref) x Hh ND Pv). destruct (Rlt_dec 0 _); [reflexivity|contradiction]. }
    rewrite (mapM_ok _ (fun p => ln p / unit_of b)).
    2:{ intros p Hp. apply in_map_iff in Hp as (x & <- & _). apply log_base_ok; [exact HV|apply mvdensity_pos; assumption]. }
    cbn [bind]. rewrite map_length, (proj1 Tx). unfold np_div.
    assert (INR m <> 0) by (apply not_0_INR; lia).
    destruct (Req_EM_T _ 0) as [X|_]; [contradiction|]. f_equal. rewrite mean_map, sumf_opp, (proj1 Tx). unfold sumR.
    rewrite map_map, sumf_map, sumf_div. field. split; [assumption|apply unit_ne; exact HV]. }
  intros n m d xs ref Hn Hm T Tx Rd. split; [apply (G n m); assumption|].
  unfold kernel_kld. rewrite (G n n d ref ref) by assumption. cbn [bind].
  rewrite (proj2 (C87_entropy ref n d Hn T Rd)). cbn [bind]. unfold MvH. f_equal. ring.
Qed.
End Gauss.

(** the hypotheses hold, e.g. for the corners of a square and an eigenvalue routine for diagonal matrices *)
Definition square4 : list (list R) := [[0; 0]; [2; 0]; [0; 2]; [2; 2]].
Definition diag_eig (d : nat) (C : nat -> nat -> R) : list (R * (nat -> R)) :=
  map (fun i => (C i i, fun j => if Nat.eqb i j then 1 else 0)) (seq 0 d).
Lemma square_covar : covar square4 0 0 = 4 / 3 /\ covar square4 1 1 = 4 / 3 /\ covar square4 0 1 = 0 /\ covar square4 1 0 = 0.
Proof. unfold covar, column, square4, mean, sumR. cbn [map sumf nth length INR]. repeat split; field. Qed.
Example C87_example : table 4 2 square4 /\ ready diag_eig 2 square4 /\ workers_ok (-1) /\ valid_base BE /\ big_base BE /\
  gdet 2 (covar square4) = 16 / 9.
Proof.
  destruct square_covar as (A & B & C & D). split; [split; [reflexivity|repeat constructor]|]. split; [split|].
  - right. split; [lia|]. intros u Hu. rewrite <- form_variance. unfold form, inner. cbn [seq sumf]. rewrite A, B, C, D.
    assert (P : 0 < u 0%nat * u 0%nat + u 1%nat * u 1%nat).
    { pose proof (inner_pos 2 u Hu) as X. unfold inner in X. cbn [seq sumf] in X. lra. }
    assert (Q : / 10 ^ 10 <= / 1) by (apply Rinv_le_contravar; [lra|]; replace (10 ^ 10) with (IZR (10 ^ 10)) by (rewrite pow_IZR; reflexivity); apply IZR_le; lia).
    rewrite Rinv_1 in Q. nra.
  - intros _. split; [reflexivity|]. repeat constructor.
    + exists 0%nat. cbn. split; [lia|lra].
    + intros i Hi. unfold inner. cbn [seq sumf snd fst Nat.eqb]. destruct i as [|[|i]]; [| |lia]; rewrite ?A, ?B, ?C, ?D; cbn; lra.
    + exists 1%nat. cbn. split; [lia|lra].
    + intros i Hi. unfold inner. cbn [seq sumf snd fst Nat.eqb]. destruct i as [|[|i]]; [| |lia]; rewrite ?A, ?B, ?C, ?D; cbn; lra.
  - split; [right; reflexivity|]. split; [exact Logic.I|]. split; [exact Logic.I|]. cbn. unfold schur. rewrite A, B, C, D. field.
Qed.
