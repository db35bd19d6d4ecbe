(** Proofs: the Gaussian kernel of multi-dimensional data computes the specified density. *)
From Coq Require Import Reals Lra Lia List ZArith Arith Bool Permutation FunctionalExtensionality.
From Verif Require Import Res RSum Spec SpecBase SpecKern SpecGauss SpecMvg MBase PBase MTE MPct MNorm MCont MKern MGauss PKern PKern2 PKern3 PropsKern PropsKern2 PropsKern5 PMvg PMvg2.
Import ListNotations.
Local Open Scope R_scope.

Lemma covar_sym data : Sym (covar data).
Proof. intros i j. unfold covar. f_equal. apply sumf_ext. intros; ring. Qed.
Lemma np_cov_eq data : np_cov data = covar data. Proof. reflexivity. Qed.

Lemma mean_inner d u data : mean (map (fun p => inner d u (coords p)) data) = Sum d (fun i => u i * mean (column data i)).
Proof.
  rewrite mean_map. unfold inner, coords. rewrite sumf_swap. unfold Rdiv. rewrite <- sumf_scal_r. apply sumf_ext. intros i _.
  rewrite sumf_scal. unfold column. rewrite mean_map. unfold Rdiv. ring.
Qed.

Lemma square_sum d (f : nat -> R) : Sum d f ^ 2 = Sum d (fun i => Sum d (fun j => f i * f j)).
Proof.
  rewrite (sumf_ext (fun i => Sum d (fun j => f i * f j)) (fun i => f i * Sum d f)) by (intros i _; apply sumf_scal).
  rewrite sumf_scal_r. ring.
Qed.

Lemma form_variance d data u : form d (covar data) u = variance (map (fun p => inner d u (coords p)) data).
Proof.
  unfold variance. rewrite sumf_map, map_length, mean_inner.
  set (g := fun (x : pt) i j => (u i * (nth i x 0 - mean (column data i))) * (u j * (nth j x 0 - mean (column data j)))).
  rewrite (sumf_ext (fun x => (inner d u (coords x) - Sum d (fun i => u i * mean (column data i))) ^ 2)
    (fun x => Sum d (fun i => Sum d (fun j => g x i j)))).
  2:{ intros x _. unfold g. rewrite <- square_sum. f_equal. unfold inner, coords. rewrite <- sumf_minus. apply sumf_ext. intros; ring. }
  rewrite (sumf_swap (fun x i => Sum d (fun j => g x i j)) data (seq 0 d)).
  unfold form, Rdiv. rewrite <- (sumf_scal_r (/ (INR (length data) - 1)) (fun i => sumf (fun x => Sum d (fun j => g x i j)) data)).
  apply sumf_ext. intros i _. rewrite (sumf_swap (fun x j => g x i j) data (seq 0 d)).
  rewrite <- (sumf_scal_r (/ (INR (length data) - 1)) (fun j => sumf (fun x => g x i j) data)). apply sumf_ext. intros j _.
  unfold g. rewrite (sumf_ext _ (fun x => (u i * u j) * ((nth i x 0 - mean (column data i)) * (nth j x 0 - mean (column data j))))) by (intros; ring).
  rewrite sumf_scal. unfold covar, Rdiv. ring.
Qed.

Lemma inner_pos d u : nonzero d u -> 0 < inner d u u.
Proof.
  intros (i & Hi & N). apply Rlt_le_trans with (u i * u i); [apply (Rsqr_pos_lt _ N)|].
  apply (sumf_In_le (fun i => u i * u i)); [intros; apply (Rle_0_sqr (u y))|apply in_seq; lia].
Qed.

Lemma spread_PD t d data : 0 <= t -> spread t d data -> PD d (covar data).
Proof.
  intros Ht Sp u Hu. rewrite form_variance. pose proof (inner_pos d u Hu). specialize (Sp u Hu). nra.
Qed.

(** v^T C v = lambda v^T v for eigenpairs *)
Lemma eigen_form d C lam v : (forall i, (i < d)%nat -> inner d (C i) v = lam * v i) -> form d C v = lam * inner d v v.
Proof.
  intros E. unfold form, inner in *. rewrite <- sumf_scal. apply Sum_ext. intros i Hi.
  rewrite (sumf_ext _ (fun j => v i * (C i j * v j))) by (intros; ring). rewrite sumf_scal, E by exact Hi. ring.
Qed.

Lemma sort_desc_perm l : Permutation l (sort_desc l).
Proof.
  assert (I1 : forall x l, Permutation (x :: l) (insert_desc x l)).
  { intros x. induction l0 as [|y l0 IH]; cbn; [reflexivity|]. destruct (Rle_dec _ _); [reflexivity|].
    rewrite perm_swap. constructor. exact IH. }
  induction l as [|x l IH]; cbn; [constructor|]. rewrite <- I1. constructor. exact IH.
Qed.
Lemma filter_all {A} (p : A -> bool) l : (forall x, In x l -> p x = true) -> filter p l = l.
Proof. induction l as [|x l IH]; intros E; cbn; [reflexivity|]. rewrite E by (left; reflexivity). f_equal. apply IH. intros; apply E; right; assumption. Qed.
Lemma filter_none {A} (p : A -> bool) l : (forall x, In x l -> p x = false) -> filter p l = [].
Proof. induction l as [|x l IH]; intros E; cbn; [reflexivity|]. rewrite E by (left; reflexivity). apply IH. intros; apply E; right; assumption. Qed.

(** [gaussian_kde] *)
Lemma gaussian_kde_ok d data h : (1 <= d)%nat -> (2 <= length data)%nat -> 0 < h -> PD d (covar data) ->
  exists f, gaussian_kde d data h = Ok f /\ forall q, f q = mvdensity h d data q.
Proof.
  intros Hd HN Hh P. pose proof (covar_sym data) as Sy.
  assert (H2 : 0 < h ^ 2) by (apply pow_lt, Hh).
  set (A := fun i j => np_cov data i j * h ^ 2).
  assert (SA : Sym A) by (intros i j; unfold A; rewrite np_cov_eq, Sy; reflexivity).
  assert (PA : PD d A) by (apply PD_scale; assumption).
  destruct (cholesky_ok d A SA PA) as (L & E & PL & DL & QL).
  unfold gaussian_kde. destruct (Nat.leb_spec (d * length data) 1); [nia|]. destruct (Nat.leb_spec (length data) 1); [lia|].
  fold A. rewrite E. cbn [bind]. eexists. split; [reflexivity|]. intros q. unfold mvdensity. rewrite mean_map.
  assert (ED : gdet d A = (h ^ 2) ^ d * gdet d (covar data)) by (apply gdet_scale; assumption).
  assert (QP : 0 < sqrt (2 * PI)) by (apply sqrt_lt_R0; pose proof PI_RGT_0; lra).
  set (w := fold_right Rmult 1 (map fst L)) in *.
  assert (NW : sqrt ((2 * PI * h ^ 2) ^ d * gdet d (covar data)) = sqrt (2 * PI) ^ d * w).
  { apply sqrt_lem_1.
    - left. apply Rmult_lt_0_compat; [apply pow_lt; pose proof PI_RGT_0; nra|apply PD_det; assumption].
    - left. apply Rmult_lt_0_compat; [apply pow_lt; exact QP|exact PL].
    - replace (sqrt (2 * PI) ^ d * w * (sqrt (2 * PI) ^ d * w)) with ((sqrt (2 * PI) ^ d * sqrt (2 * PI) ^ d) * w ^ 2) by ring.
      rewrite DL, ED, <- Rpow_mult_distr, sqrt_sqrt by (pose proof PI_RGT_0; lra). rewrite <- Rmult_assoc, <- Rpow_mult_distr. reflexivity. }
  assert (PW : 0 < sqrt (2 * PI) ^ d * w) by (apply Rmult_lt_0_compat; [apply pow_lt; exact QP|exact PL]).
  unfold Rdiv at 2. rewrite <- sumf_scal_r. apply sumf_ext. intros x _.
  rewrite QL. unfold mvnormal. rewrite NW. unfold A. rewrite gquad_scale by assumption. rewrite np_cov_eq.
  set (g := gquad d (covar data) (fun i => nth i q 0 - nth i x 0)). clearbody g.
  replace (- (g / h ^ 2) / 2) with (- g / (2 * h ^ 2)) by (field; lra).
  unfold Rdiv. rewrite Rmult_assoc, Rmult_assoc. f_equal. ring.
Qed.

Lemma mvnormal_pos s d C z : 0 < s -> Piv d C -> 0 < mvnormal s d C z.
Proof.
  intros Hs P. unfold mvnormal. apply Rdiv_lt_0_compat; [apply exp_pos|]. apply sqrt_lt_R0.
  apply Rmult_lt_0_compat; [apply pow_lt; pose proof PI_RGT_0; assert (0 < s ^ 2) by (apply pow_lt, Hs); nra|apply Piv_det, P].
Qed.
Lemma mvdensity_pos h d data q : 0 < h -> data <> [] -> Piv d (covar data) -> 0 < mvdensity h d data q.
Proof.
  intros Hh N P. unfold mvdensity. rewrite mean_map. apply Rdiv_lt_0_compat; [|apply lt_0_INR; destruct data; [congruence|cbn; lia]].
  apply sumf_pos; [exact N|]. intros x _. apply mvnormal_pos; assumption.
Qed.

Lemma table_width n d data : (0 < n)%nat -> table n d data -> width data = d.
Proof. intros Hn [L F]. unfold width. destruct data as [|p data]; [cbn in L; lia|]. inversion F; assumption. Qed.

Lemma threshold_pos : 0 < eigen_threshold.
Proof. unfold eigen_threshold. apply Rinv_0_lt_compat, pow_lt. lra. Qed.

(** the full-rank branch *)
Lemma mv_gauss_ok eig n d data h : (2 <= n)%nat -> (1 <= d)%nat -> table n d data -> 0 < h ->
  spread eigen_threshold d data -> eigen_of d (covar data) (eig d (covar data)) ->
  exists f, mv_gauss eig data h = Ok f /\ forall q, f q = mvdensity h d data q.
Proof.
  intros Hn Hd T Hh Sp [LE FE]. pose proof threshold_pos as T0.
  unfold mv_gauss. rewrite (proj1 T). destruct (Nat.leb_spec n 1); [lia|]. rewrite (table_width n d data ltac:(lia) T), np_cov_eq.
  rewrite filter_all.
  - assert (LS : length (sort_desc (eig d (covar data))) = d) by (rewrite <- LE at 2; symmetry; apply (Permutation_length (sort_desc_perm (eig d (covar data))))).
    rewrite LS, Nat.ltb_irrefl.
    apply gaussian_kde_ok; [exact Hd|rewrite (proj1 T); exact Hn|exact Hh|]. apply (spread_PD eigen_threshold); [lra|exact Sp].
  - intros lv Hlv. apply (Permutation_in _ (Permutation_sym (sort_desc_perm _))) in Hlv.
    rewrite Forall_forall in FE. destruct (FE lv Hlv) as [NZ EV]. pose proof (eigen_form d _ _ _ EV) as X.
    rewrite form_variance in X. specialize (Sp _ NZ). rewrite X in Sp. pose proof (inner_pos d _ NZ) as IP.
    destruct (Rlt_dec eigen_threshold (fst lv)) as [_|Y]; [reflexivity|]. exfalso. apply Y. apply (Rmult_lt_reg_r _ _ _ IP). exact Sp.
Qed.

(** Cauchy-Schwarz *)
Lemma cauchy_schwarz d a b : inner d a b ^ 2 <= inner d a a * inner d b b.
Proof.
  assert (Q : 0 <= Sum d (fun i => Sum d (fun j => (a i * b j - a j * b i) ^ 2))).
  { apply sumf_nonneg. intros i _. apply sumf_nonneg. intros j _. apply pow2_ge_0. }
  rewrite (sumf_ext _ (fun i => (a i * a i) * inner d b b + (b i * b i) * inner d a a - (2 * (a i * b i)) * inner d a b)) in Q.
  - rewrite sumf_minus, sumf_plus, !sumf_scal_r, sumf_scal in Q. unfold inner in *. nra.
  - intros i _. unfold inner. rewrite <- !sumf_scal, <- sumf_plus, <- sumf_minus. apply sumf_ext. intros; ring.
Qed.

(** the variance in a direction is at most the total variance *)
Lemma variance_total n d data u : length data = n -> (2 <= n)%nat ->
  variance (map (fun p => inner d u (coords p)) data) <= inner d u u * total_variance d data.
Proof.
  intros L Hn. unfold variance at 1. rewrite sumf_map, map_length, mean_inner.
  assert (PN : 0 < INR (length data) - 1) by (rewrite L; apply le_INR in Hn; change (INR 2) with 2 in Hn; lra).
  assert (E : inner d u u * total_variance d data =
     sumf (fun x => inner d u u * inner d (fun i => nth i x 0 - mean (column data i)) (fun i => nth i x 0 - mean (column data i))) data / (INR (length data) - 1)).
  { rewrite sumf_scal. unfold total_variance, inner at 3. rewrite sumf_swap. unfold Rdiv at 1. rewrite Rmult_assoc. f_equal.
    rewrite <- sumf_scal_r. apply sumf_ext. intros i _. unfold variance, column. rewrite sumf_map, map_length. unfold Rdiv. f_equal.
    apply sumf_ext. intros; ring. }
  rewrite E. unfold Rdiv. apply Rmult_le_compat_r; [left; apply Rinv_0_lt_compat, PN|]. apply sumf_le. intros x _.
  eapply Rle_trans; [|apply cauchy_schwarz]. right. f_equal. unfold inner, coords. rewrite <- sumf_minus. apply sumf_ext. intros; ring.
Qed.

(** the branch in which nothing is left *)
Lemma mv_gauss_tiny eig n d data h : (2 <= n)%nat -> (1 <= d)%nat -> table n d data -> total_variance d data <= eigen_threshold ->
  eigen_of d (covar data) (eig d (covar data)) -> mv_gauss eig data h = Raise ValueError.
Proof.
  intros Hn Hd T TV [LE FE]. unfold mv_gauss. rewrite (proj1 T). destruct (Nat.leb_spec n 1); [lia|].
  rewrite (table_width n d data ltac:(lia) T), np_cov_eq. rewrite filter_none.
  - cbn [length]. destruct (Nat.ltb_spec 0 d); [|lia]. reflexivity.
  - intros lv Hlv. apply (Permutation_in _ (Permutation_sym (sort_desc_perm _))) in Hlv.
    rewrite Forall_forall in FE. destruct (FE lv Hlv) as [NZ EV]. pose proof (eigen_form d _ _ _ EV) as X.
    rewrite form_variance in X. pose proof (variance_total n d data (snd lv) (proj1 T) Hn) as Y. pose proof (inner_pos d _ NZ) as IP.
    destruct (Rlt_dec eigen_threshold (fst lv)) as [Z|_]; [|reflexivity]. exfalso. rewrite X in Y.
    apply (Rmult_lt_compat_r _ _ _ IP) in Z. apply (Rmult_le_compat_r (inner d (snd lv) (snd lv))) in TV; lra.
Qed.

(** one dimension: the same density *)
Lemma column_pts xs : column (map (fun x => [x]) xs) 0 = xs.
Proof. unfold column. rewrite map_map. cbn. apply map_id. Qed.
Lemma covar_pts xs : covar (map (fun x => [x]) xs) 0 0 = sample_var xs.
Proof. unfold covar, sample_var. rewrite sumf_map, map_length, column_pts. f_equal. apply sumf_ext. intros; cbn. ring. Qed.
Lemma mvdensity_1 h xs q : varied xs -> 0 < h -> mvdensity h 1 (map (fun x => [x]) xs) [q] = gdensity h xs q.
Proof.
  intros V Hh. unfold mvdensity, gdensity. rewrite map_map. f_equal. apply map_ext. intros x.
  unfold mvnormal, normal. cbn [gquad gdet nth pow]. rewrite covar_pts. pose proof (stdev_pos xs V) as SP. pose proof (sample_var_pos xs V) as SV.
  assert (E2 : stdev xs ^ 2 = sample_var xs) by (unfold stdev; rewrite pow2_sqrt; [reflexivity|left; exact SV]).
  rewrite <- E2. set (s := stdev xs) in *. clearbody s.
  replace (2 * PI * (h * (h * 1)) * 1 * (s ^ 2 * 1)) with ((2 * PI) * (h * s) ^ 2) by ring.
  rewrite sqrt_mult; [|pose proof PI_RGT_0; lra|apply pow2_ge_0]. rewrite sqrt_pow2 by nra. f_equal; [|ring].
  f_equal. field. lra.
Qed.
