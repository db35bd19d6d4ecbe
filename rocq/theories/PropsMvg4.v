(** C87, degenerate data: if some principal axes of the data carry no more variance than 1e-10, the Gaussian kernel
    is put on the remaining axes only, and there it is a product of one-dimensional normal densities. *)
From Coq Require Import Reals Lra Lia List ZArith Arith Bool Permutation Sorted FunctionalExtensionality.
From Verif Require Import Res RSum Spec SpecTE SpecTEc SpecBase MBase PBase MTE PTE2 MPct MNorm MCont SpecKern SpecGauss MKern PKern PKern2 PKern3 PKern4 PKern5 PTEc PropsKern PropsKern2 PropsKern3 PropsKern5 SpecMvg MGauss PMvg PMvg2 PMvg3 PMvg4 PMvg5 PropsMvg PropsMvg2.
Import ListNotations.
Local Open Scope R_scope.

(** ** Specification: the axes (eigenvalue, eigenvector) with a variance above the threshold; the average over the
    samples of the product of normal densities along those axes, of standard deviations h sqrt(variance) *)
Definition strong_axes (pairs : list (R * (nat -> R))) : list (R * (nat -> R)) :=
  filter (fun lv => if Rlt_dec (/ 10 ^ 10) (fst lv) then true else false) pairs.
Definition axes_density (h : R) (d : nat) (axes : list (R * (nat -> R))) (data : list (list R)) (q : list R) : R :=
  mean (map (fun x => fold_right Rmult 1
    (map (fun lv => normal 0 (h * sqrt (fst lv)) (inner d (fun i => nth i q 0 - nth i x 0) (snd lv))) axes)) data).

(** ** descending order *)
Definition desc (a b : R * (nat -> R)) : Prop := fst b <= fst a.
Lemma insert_desc_sorted x l : StronglySorted desc l -> StronglySorted desc (insert_desc x l).
Proof.
  induction 1 as [|y l S IH F]; cbn; [constructor; constructor|]. destruct (Rle_dec (fst y) (fst x)) as [L|L].
  - constructor; [constructor; assumption|]. constructor; [exact L|]. eapply List.Forall_impl; [|exact F]. unfold desc. intros; lra.
  - constructor; [exact IH|]. assert (P : Permutation (x :: l) (insert_desc x l)).
    { clear. induction l as [|z l IH]; cbn; [reflexivity|]. destruct (Rle_dec _ _); [reflexivity|]. rewrite perm_swap. constructor. exact IH. }
    apply List.Forall_forall. intros z Hz. apply (Permutation_in _ (Permutation_sym P)) in Hz. destruct Hz as [<-|Hz].
    + unfold desc. lra.
    + rewrite List.Forall_forall in F. apply F, Hz.
Qed.
Lemma sort_desc_sorted l : StronglySorted desc (sort_desc l).
Proof. induction l as [|x l IH]; cbn; [constructor|apply insert_desc_sorted, IH]. Qed.
Lemma firstn_strong l : StronglySorted desc l ->
  firstn (length (filter (fun lv : R * (nat -> R) => if Rlt_dec eigen_threshold (fst lv) then true else false) l)) l = strong_axes l.
Proof.
  unfold strong_axes. change (/ 10 ^ 10) with eigen_threshold. induction 1 as [|x l S IH F]; [reflexivity|]. cbn [filter].
  destruct (Rlt_dec eigen_threshold (fst x)) as [L|L]; [cbn [length firstn]; rewrite IH; reflexivity|].
  rewrite filter_none; [reflexivity|]. intros y Hy. rewrite List.Forall_forall in F. specialize (F y Hy). unfold desc in F.
  destruct (Rlt_dec eigen_threshold (fst y)); [lra|reflexivity].
Qed.

(** ** the covariance along two directions *)
Lemma sum_prod d (f g : nat -> R) : Sum d f * Sum d g = Sum d (fun i => Sum d (fun j => f i * g j)).
Proof.
  rewrite (sumf_ext (fun i => Sum d (fun j => f i * g j)) (fun i => f i * Sum d g)) by (intros i _; apply sumf_scal).
  rewrite sumf_scal_r. ring.
Qed.
Definition proj (d : nat) (axes : list (R * (nat -> R))) (p : pt) : pt := map (fun lv => sumf (fun i => nth i p 0 * snd lv i) (seq 0 d)) axes.
Lemma nth_proj d axes p i : (i < length axes)%nat -> nth i (proj d axes p) 0 = inner d (snd (nth i axes (0, fun _ => 0))) (coords p).
Proof.
  intros Hi. unfold proj. rewrite (nth_map_lt _ axes (0, fun _ => 0)) by exact Hi. unfold inner, coords. apply sumf_ext. intros; ring.
Qed.
Lemma covar_proj d axes data i j : (i < length axes)%nat -> (j < length axes)%nat ->
  let u := snd (nth i axes (0, fun _ => 0)) in let v := snd (nth j axes (0, fun _ => 0)) in
  covar (map (proj d axes) data) i j = Sum d (fun a => u a * inner d (covar data a) v).
Proof.
  intros Hi Hj u v.
  assert (M : forall k, (k < length axes)%nat -> mean (column (map (proj d axes) data) k) = Sum d (fun a => snd (nth k axes (0, fun _ => 0)) a * mean (column data a))).
  { intros k Hk. unfold column at 1. rewrite map_map, <- mean_inner. f_equal. apply map_ext. intros p. apply nth_proj, Hk. }
  unfold covar at 1. rewrite sumf_map, map_length, (M i Hi), (M j Hj). fold u v.
  set (g := fun (x : pt) a b => (u a * (nth a x 0 - mean (column data a))) * (v b * (nth b x 0 - mean (column data b)))).
  rewrite (sumf_ext _ (fun x => Sum d (fun a => Sum d (fun b => g x a b)))).
  2:{ intros x _. unfold g. rewrite <- sum_prod. f_equal; rewrite nth_proj by assumption; fold u v; unfold inner, coords; rewrite <- sumf_minus; apply sumf_ext; intros; ring. }
  rewrite (sumf_swap (fun x a => Sum d (fun b => g x a b)) data (seq 0 d)).
  unfold Rdiv. rewrite <- (sumf_scal_r (/ (INR (length data) - 1)) (fun a => sumf (fun x => Sum d (fun b => g x a b)) data)).
  apply sumf_ext. intros a _. rewrite (sumf_swap (fun x b => g x a b) data (seq 0 d)).
  rewrite <- (sumf_scal_r (/ (INR (length data) - 1)) (fun b => sumf (fun x => g x a b) data)). unfold inner. rewrite <- sumf_scal. apply sumf_ext. intros b _.
  unfold g. rewrite (sumf_ext _ (fun x => (u a * v b) * ((nth a x 0 - mean (column data a)) * (nth b x 0 - mean (column data b))))) by (intros; ring).
  rewrite sumf_scal. unfold covar, Rdiv. ring.
Qed.

(** ** diagonal covariance *)
Definition diagonal (d : nat) (C : mat) : Prop := forall i j, (i < d)%nat -> (j < d)%nat -> i <> j -> C i j = 0.
Lemma normal_0 s q : normal 0 s q = exp (- (q / s) ^ 2 / 2) / (s * sqrt (2 * PI)).
Proof. unfold normal. rewrite Rminus_0_r. reflexivity. Qed.
Lemma diag_normal h (axes : list (R * (nat -> R))) : forall (C : mat) (z : vec), 0 < h ->
  (forall i, (i < length axes)%nat -> 0 < fst (nth i axes (0, fun _ => 0)) /\ C i i = fst (nth i axes (0, fun _ => 0))) -> diagonal (length axes) C ->
  mvnormal h (length axes) C z = fold_right Rmult 1 (map (fun i => normal 0 (h * sqrt (C i i)) (z i)) (seq 0 (length axes))).
Proof.
  induction axes as [|a axes IH]; intros C z Hh HC HD.
  { unfold mvnormal. cbn [length gquad gdet seq map fold_right]. rewrite pow_O, Rmult_1_r, sqrt_1. replace (- 0 / (2 * h ^ 2)) with 0 by (field; lra). rewrite exp_0. lra. }
  cbn [length seq map fold_right].
  destruct (HC 0%nat ltac:(cbn; lia)) as [P0 E0]. cbn [nth] in P0, E0.
  assert (SC : forall i j, (i < length axes)%nat -> (j < length axes)%nat -> schur C i j = C (S i) (S j)).
  { intros i j Hi Hj. unfold schur. rewrite (HD (S i) 0%nat) by (cbn; lia). unfold Rdiv. ring. }
  assert (IHC := IH (schur C) (fun i => z (S i)) Hh).
  rewrite <- seq_shift, map_map.
  rewrite (map_ext_in (fun x => normal 0 (h * sqrt (C (S x) (S x))) (z (S x))) (fun i => normal 0 (h * sqrt (schur C i i)) (z (S i))) (seq 0 (length axes))).
  2:{ intros i Hi. apply in_seq in Hi. rewrite SC by lia. reflexivity. }
  rewrite <- IHC.
  2:{ intros i Hi. destruct (HC (S i) ltac:(cbn; lia)) as [A B]. cbn [nth] in A, B. split; [exact A|]. rewrite SC by exact Hi. exact B. }
  2:{ intros i j Hi Hj N. rewrite SC by assumption. apply HD; cbn; lia. }
  unfold mvnormal. cbn [gdet gquad].
  rewrite (gquad_ext (length axes) (schur C) (schur C) (fun i => z (S i) - C (S i) 0%nat * z 0%nat / C 0%nat 0%nat) (fun i => z (S i))).
  2: reflexivity.
  2:{ intros i Hi. rewrite (HD (S i) 0%nat) by (cbn; lia). unfold Rdiv. ring. }
  set (Q := gquad _ _ _). rewrite E0. set (lam := fst a) in *.
  assert (GP : 0 < gdet (length axes) (schur C)).
  { assert (G : forall n (D : mat), (forall i, (i < n)%nat -> 0 < D i i) -> diagonal n D -> 0 < gdet n D).
    { induction n as [|n IHn]; intros D H1 H2; cbn; [lra|]. apply Rmult_lt_0_compat; [apply H1; lia|]. apply IHn.
      - intros i Hi. unfold schur. rewrite (H2 (S i) 0%nat) by lia. replace (D (S i) (S i) - 0 * D 0%nat (S i) / D 0%nat 0%nat) with (D (S i) (S i)) by (unfold Rdiv; ring). apply H1. lia.
      - intros i j Hi Hj N. unfold schur. rewrite (H2 (S i) 0%nat), (H2 (S i) (S j)) by lia. unfold Rdiv. ring. }
    apply G.
    - intros i Hi. rewrite SC by exact Hi. destruct (HC (S i) ltac:(cbn; lia)) as [A B]. cbn [nth] in A, B. rewrite B. exact A.
    - intros i j Hi Hj N. rewrite SC by assumption. apply HD; cbn; lia. }
  set (G := gdet _ _) in *. clearbody Q G.
  assert (K0 : 0 < 2 * PI) by (pose proof PI_RGT_0; lra).
  assert (KP : 0 < (2 * PI * h ^ 2) ^ length axes) by (apply pow_lt, Rmult_lt_0_compat; [exact K0|apply pow_lt, Hh]).
  rewrite normal_0. replace (h * sqrt lam * sqrt (2 * PI)) with (sqrt (2 * PI * h ^ 2 * lam)).
  2:{ assert (H2 : 0 < h ^ 2) by (apply pow_lt, Hh). assert (H3 : 0 < 2 * PI * h ^ 2) by (apply Rmult_lt_0_compat; assumption).
      rewrite (sqrt_mult (2 * PI * h ^ 2) lam), (sqrt_mult (2 * PI) (h ^ 2)) by lra. rewrite (sqrt_pow2 h) by lra. ring. }
  replace ((2 * PI * h ^ 2) ^ S (length axes) * (lam * G)) with ((2 * PI * h ^ 2 * lam) * ((2 * PI * h ^ 2) ^ length axes * G)) by (cbn [pow]; ring).
  rewrite sqrt_mult.
  2:{ apply Rlt_le. apply Rmult_lt_0_compat; [apply Rmult_lt_0_compat; [exact K0|apply pow_lt, Hh]|exact P0]. }
  2:{ apply Rlt_le, Rmult_lt_0_compat; assumption. }
  replace (- (z 0%nat ^ 2 / lam + Q) / (2 * h ^ 2)) with (- (z 0%nat / (h * sqrt lam)) ^ 2 / 2 + - Q / (2 * h ^ 2)).
  2:{ assert (SQ : sqrt lam * sqrt lam = lam) by (apply sqrt_sqrt; lra). assert (SN : sqrt lam <> 0) by (intros X; rewrite X in SQ; lra).
      replace ((z 0%nat / (h * sqrt lam)) ^ 2) with (z 0%nat ^ 2 / (h ^ 2 * (sqrt lam * sqrt lam))) by (field; split; [exact SN|lra]). rewrite SQ. field. split; lra. }
  rewrite exp_plus. set (s1 := sqrt (2 * PI * h ^ 2 * lam)). set (s2 := sqrt ((2 * PI * h ^ 2) ^ length axes * G)).
  assert (0 < s1) by (apply sqrt_lt_R0; apply Rmult_lt_0_compat; [apply Rmult_lt_0_compat; [exact K0|apply pow_lt, Hh]|exact P0]).
  assert (0 < s2) by (apply sqrt_lt_R0, Rmult_lt_0_compat; assumption).
  field. split; lra.
Qed.

Section Degenerate.
Variables (c : Z) (eig : nat -> (nat -> nat -> R) -> list (R * (nat -> R))) (h : R) (w : Z) (b : base).
Hypothesis (HC : (0 < c)%Z) (Hh : 0 < h) (HW : workers_ok w) (HV : valid_base b).

Lemma fold_mult_perm l l' : Permutation l l' -> fold_right Rmult 1 l = fold_right Rmult 1 l'.
Proof. induction 1 as [|x l l' P IH|x y l|l l' l'' P IH P' IH']; cbn; try congruence. ring. Qed.
Lemma filter_perm {A} (p : A -> bool) l l' : Permutation l l' -> Permutation (filter p l) (filter p l').
Proof.
  induction 1 as [|x l l' P IH|x y l|l l' l'' P IH P' IH']; cbn; [constructor| | |eapply perm_trans; eassumption].
  - destruct (p x); [constructor; exact IH|exact IH].
  - destruct (p x), (p y); try reflexivity. apply perm_swap.
Qed.
Lemma axes_density_perm d l l' data q : Permutation l l' -> axes_density h d l data q = axes_density h d l' data q.
Proof. intros P. unfold axes_density. f_equal. apply map_ext. intros x. apply fold_mult_perm, Permutation_map, P. Qed.

(** perpendicular unit vectors stay such when the list is reordered or thinned out *)
Definition perp (d : nat) (pairs : list (R * (nat -> R))) : Prop :=
  Forall (fun lv => inner d (snd lv) (snd lv) = 1) pairs /\ ForallOrdPairs (fun u v => inner d (snd u) (snd v) = 0) pairs.
Lemma inner_sym d u v : inner d u v = inner d v u.
Proof. unfold inner. apply sumf_ext. intros; ring. Qed.
Lemma orthonormal_perp d pairs : orthonormal d pairs -> perp d pairs.
Proof.
  intros O. split.
  - apply List.Forall_forall. intros x Hx. destruct (In_nth pairs x (0, fun _ => 0) Hx) as (i & Hi & E). specialize (O i i Hi Hi). rewrite E, Nat.eqb_refl in O. exact O.
  - induction pairs as [|x l IH]; constructor.
    + apply List.Forall_forall. intros y Hy. destruct (In_nth l y (0, fun _ => 0) Hy) as (i & Hi & E). specialize (O 0%nat (S i) ltac:(cbn; lia) ltac:(cbn; lia)). cbn in O. rewrite E in O. exact O.
    + apply IH. intros i j Hi Hj. specialize (O (S i) (S j) ltac:(cbn; lia) ltac:(cbn; lia)). exact O.
Qed.
Lemma perp_perm d l l' : Permutation l l' -> perp d l -> perp d l'.
Proof.
  intros P. unfold perp. induction P as [|x l l' P IH|x y l|l l' l'' P IH P' IH']; intros [F O].
  - split; constructor.
  - inversion F; subst. inversion O; subst. destruct IH as [F' O']; [split; assumption|]. split; [constructor; assumption|]. constructor; [|assumption].
    apply List.Forall_forall. intros z Hz. apply (Permutation_in _ (Permutation_sym P)) in Hz. match goal with H : List.Forall _ l |- _ => rewrite List.Forall_forall in H; apply H; exact Hz end.
  - inversion F; subst. inversion O; subst. match goal with H : List.Forall _ (x :: l) |- _ => idtac end.
    match goal with H : ForallOrdPairs _ (x :: l) |- _ => inversion H; subst end.
    match goal with H : List.Forall (fun lv => inner d (snd lv) (snd lv) = 1) (x :: l) |- _ => inversion H; subst end.
    match goal with H : List.Forall (fun v => inner d (snd y) (snd v) = 0) (x :: l) |- _ => inversion H; subst end.
    split; [constructor; [assumption|constructor; assumption]|]. constructor; [|constructor; assumption]. constructor; [rewrite inner_sym; assumption|assumption].
  - apply IH', IH. split; assumption.
Qed.
Lemma perp_filter d p l : perp d l -> perp d (filter p l).
Proof.
  intros [F O]. induction l as [|x l IH]; [split; constructor|]. inversion F; subst. inversion O; subst. cbn [filter].
  destruct IH as [F' O']; [assumption..|]. destruct (p x); [|split; assumption]. split; [constructor; assumption|]. constructor; [|assumption].
  apply List.Forall_forall. intros z Hz. apply filter_In in Hz. match goal with H : List.Forall (fun v => inner d (snd x) (snd v) = 0) l |- _ => rewrite List.Forall_forall in H; apply H, Hz end.
Qed.
Lemma perp_nth d l i j : perp d l -> (i < length l)%nat -> (j < length l)%nat ->
  inner d (snd (nth i l (0, fun _ => 0))) (snd (nth j l (0, fun _ => 0))) = if Nat.eqb i j then 1 else 0.
Proof.
  revert i j. induction l as [|x l IH]; intros i j [F O] Hi Hj; [cbn in Hi; lia|]. inversion F; subst. inversion O; subst.
  match goal with H : List.Forall (fun v => inner d (snd x) (snd v) = 0) l |- _ => rewrite List.Forall_forall in H; rename H into HX end.
  destruct i as [|i], j as [|j]; cbn [nth Nat.eqb].
  - assumption.
  - apply HX, nth_In. cbn in Hj. lia.
  - rewrite inner_sym. apply HX, nth_In. cbn in Hi. lia.
  - apply IH; [split; assumption|cbn in Hi; lia|cbn in Hj; lia].
Qed.

Lemma mv_gauss_degenerate n d data : (2 <= n)%nat -> (2 <= d)%nat -> table n d data ->
  let pairs := eig d (covar data) in eigen_of d (covar data) pairs -> orthonormal d pairs ->
  (length (strong_axes pairs) < d)%nat ->
  (strong_axes pairs = [] -> mv_gauss eig data h = Raise ValueError) /\
  (strong_axes pairs <> [] -> exists f, mv_gauss eig data h = Ok f /\ forall q, f q = axes_density h d (strong_axes pairs) data q).
Proof using Hh.
  intros Hn Hd T pairs [LE FE] O Lk.
  set (sp := sort_desc pairs). pose proof (sort_desc_perm pairs) as PS. fold sp in PS.
  set (comps := strong_axes sp).
  assert (PC : Permutation (strong_axes pairs) comps) by (apply filter_perm, PS).
  assert (KL : length (filter (fun lv : R * (nat -> R) => if Rlt_dec eigen_threshold (fst lv) then true else false) sp) = length comps) by reflexivity.
  assert (FS : firstn (length comps) sp = comps) by (unfold comps at 1; apply firstn_strong, sort_desc_sorted).
  assert (LC : length comps = length (strong_axes pairs)) by (symmetry; apply Permutation_length, PC).
  assert (E0 : mv_gauss eig data h = (let* f := gaussian_kde (length comps) (map (proj d comps) data) h in Ok (fun q => f (proj d comps q)))).
  { unfold mv_gauss. rewrite (proj1 T). destruct (Nat.leb_spec n 1); [lia|]. rewrite (table_width n d data ltac:(lia) T), np_cov_eq. fold pairs sp.
    rewrite KL, FS. destruct (Nat.ltb_spec (length comps) d); [|lia]. reflexivity. }
  assert (PP : perp d comps) by (apply perp_filter, (perp_perm d pairs); [exact PS|apply orthonormal_perp, O]).
  assert (EV : forall j, (j < length comps)%nat -> eigen_threshold < fst (nth j comps (0, fun _ => 0)) /\
      forall i, (i < d)%nat -> inner d (covar data i) (snd (nth j comps (0, fun _ => 0))) = fst (nth j comps (0, fun _ => 0)) * snd (nth j comps (0, fun _ => 0)) i).
  { intros j Hj. pose proof (nth_In comps (0, fun _ => 0) Hj) as I1. set (lv := nth j comps (0, fun _ => 0)) in *. clearbody lv.
    unfold comps, strong_axes in I1. apply filter_In in I1. destruct I1 as [I1 I2]. change (/ 10 ^ 10) with eigen_threshold in I2.
    destruct (Rlt_dec eigen_threshold (fst lv)); [|discriminate]. split; [assumption|].
    apply (Permutation_in _ (Permutation_sym PS)) in I1. rewrite List.Forall_forall in FE. apply (FE lv I1). }
  pose proof threshold_pos as TP.
  assert (CV : forall i j, (i < length comps)%nat -> (j < length comps)%nat ->
     covar (map (proj d comps) data) i j = if Nat.eqb i j then fst (nth j comps (0, fun _ => 0)) else 0).
  { intros i j Hi Hj. pose proof (covar_proj d comps data i j Hi Hj) as X. cbv zeta in X. rewrite X.
    rewrite (Sum_ext d _ (fun a => fst (nth j comps (0, fun _ => 0)) * (snd (nth i comps (0, fun _ => 0)) a * snd (nth j comps (0, fun _ => 0)) a))).
    2:{ intros a Ha. rewrite (proj2 (EV j Hj) a Ha). ring. }
    rewrite sumf_scal. fold (inner d (snd (nth i comps (0, fun _ => 0))) (snd (nth j comps (0, fun _ => 0)))). rewrite perp_nth by assumption.
    destruct (Nat.eqb i j); ring. }
  split.
  - intros EN. assert (comps = []) by (destruct comps; [reflexivity|rewrite EN in LC; discriminate]). rewrite E0, H. reflexivity.
  - intros NE. assert (KP : (1 <= length comps)%nat) by (rewrite LC; destruct (strong_axes pairs); [congruence|cbn; lia]).
    assert (DG : diagonal (length comps) (covar (map (proj d comps) data))).
    { intros i j Hi Hj N. rewrite CV by assumption. destruct (Nat.eqb_spec i j); [contradiction|reflexivity]. }
    destruct (gaussian_kde_ok (length comps) (map (proj d comps) data) h KP ltac:(rewrite map_length, (proj1 T); exact Hn) Hh) as (f & E & Hf).
    { intros u (i & Hi & Nu). unfold form.
      rewrite (Sum_ext _ _ (fun i => covar (map (proj d comps) data) i i * (u i * u i))).
      2:{ intros a Ha. rewrite (Sum_ext _ _ (fun j => if Nat.eqb j a then covar (map (proj d comps) data) a a * (u a * u a) else 0)).
          - clear - Ha. generalize (covar (map (proj d comps) data) a a * (u a * u a)). intros v. revert a Ha. generalize (length comps). 
            induction n as [|n IHn]; intros a Ha; [lia|]. rewrite Sum_S. destruct a as [|a]; cbn [Nat.eqb].
            + rewrite sumf_const, seq_length. ring.
            + rewrite IHn by lia. ring.
          - intros j Hj. destruct (Nat.eqb_spec j a) as [->|N]; [ring|]. rewrite DG by (assumption || congruence). ring. }
      apply Rlt_le_trans with (covar (map (proj d comps) data) i i * (u i * u i)).
      - rewrite CV, Nat.eqb_refl by assumption. apply Rmult_lt_0_compat; [pose proof (proj1 (EV i Hi)); lra|apply (Rsqr_pos_lt _ Nu)].
      - apply (sumf_In_le (fun i => covar (map (proj d comps) data) i i * (u i * u i)) (seq 0 (length comps)) i); [|apply in_seq; lia].
        intros a Ha. apply in_seq in Ha. rewrite CV, Nat.eqb_refl by lia. apply Rmult_le_pos; [pose proof (proj1 (EV a ltac:(lia))); lra|apply Rle_0_sqr]. }
    rewrite E0, E. cbn [bind]. eexists. split; [reflexivity|]. intros q. cbv beta. rewrite Hf.
    rewrite (axes_density_perm d _ comps data q PC). unfold mvdensity, axes_density. rewrite map_map. f_equal. apply map_ext. intros x.
    rewrite (diag_normal h comps); [|exact Hh| |exact DG].
    2:{ intros i Hi. rewrite CV, Nat.eqb_refl by assumption. split; [pose proof (proj1 (EV i Hi)); lra|reflexivity]. }
    f_equal. rewrite <- (map_nth_seq (fun lv => normal 0 (h * sqrt (fst lv)) (inner d (fun i => nth i q 0 - nth i x 0) (snd lv))) comps (0, fun _ => 0)).
    apply map_ext_in. intros i Hi. apply in_seq in Hi. rewrite CV, Nat.eqb_refl by lia. f_equal. rewrite !nth_proj by lia.
    unfold inner, coords. rewrite <- sumf_minus. apply sumf_ext. intros; ring.
Qed.

Lemma axes_density_pos d axes data q : data <> [] -> (forall lv, In lv axes -> 0 < fst lv) -> 0 < axes_density h d axes data q.
Proof using Hh.
  intros ND P. unfold axes_density. rewrite mean_map. apply Rdiv_lt_0_compat.
  - apply sumf_pos; [exact ND|]. intros x _. induction axes as [|a axes IH]; cbn; [lra|]. apply Rmult_lt_0_compat; [|apply IH; intros; apply P; right; assumption].
    unfold normal. apply Rdiv_lt_0_compat; [apply exp_pos|]. apply Rmult_lt_0_compat; [apply Rmult_lt_0_compat; [exact Hh|apply sqrt_lt_R0, P; left; reflexivity]|].
    apply sqrt_lt_R0. pose proof PI_RGT_0. lra.
  - apply lt_0_INR. destruct data; [congruence|cbn; lia].
Qed.

(** the entropy of degenerate data: mean of - ln of the product of normals along the remaining axes *)
Theorem C87_degenerate : forall n d data, (2 <= n)%nat -> (2 <= d)%nat -> table n d data ->
  let axes := eig d (covar data) in eigen_of d (covar data) axes -> orthonormal d axes ->
  strong_axes axes <> [] -> (length (strong_axes axes) < d)%nat ->
  kernel_entropy_local (genv c eig) (gauss_args h w b) (FArr (F2 data))
    = Ok (map (fun q => - ln (axes_density h d (strong_axes axes) data q) / unit_of b) data) /\
  kernel_entropy (genv c eig) (gauss_args h w b) (FArr (F2 data))
    = Ok (mean (map (fun q => - ln (axes_density h d (strong_axes axes) data q)) data) / unit_of b).
Proof using HC Hh HW HV.
  intros n d data Hn Hd T axes Eg O NE LT.
  destruct (proj2 (mv_gauss_degenerate n d data Hn Hd T Eg O LT) NE) as (f & EF & Hf). fold axes in Hf.
  assert (ND : data <> []) by (destruct T as [L _]; destruct data; [cbn in L; lia|discriminate]).
  assert (AP : forall lv, In lv (strong_axes axes) -> 0 < fst lv).
  { intros lv I1. unfold strong_axes in I1. apply filter_In in I1. change (/ 10 ^ 10) with eigen_threshold in I1. pose proof threshold_pos.
    destruct (Rlt_dec eigen_threshold (fst lv)); [lra|destruct I1; discriminate]. }
  assert (KJ : kdens (genv c eig) (gauss_args h w b) data = Ok (D1 (map f data))).
  { unfold kdens, kde. cbn [gauss_args k_bw k_kern]. destruct (Rle_dec h 0); [lra|]. cbn [bind]. unfold gaussian_kernel_densities.
    rewrite (table_width n d data ltac:(lia) T). destruct d as [|[|d']]; [lia|lia|]. cbn [mvg genv]. rewrite EF.
    assert (W : (0 < (if Z.eqb (n_workers (genv c eig) (gauss_args h w b)) (-1) then cpus (genv c eig) else n_workers (genv c eig) (gauss_args h w b)))%Z).
    { destruct (Z.eqb_spec (n_workers (genv c eig) (gauss_args h w b)) (-1)); [exact HC|]. destruct (gauss_workers (genv c eig) h w b HW HC); [assumption|contradiction]. }
    rewrite (proj1 (C53_parallel_is_sequential f (length data) data _ W ltac:(rewrite (proj1 T); exact Hn))). reflexivity. }
  assert (A : kernel_entropy_local (genv c eig) (gauss_args h w b) (FArr (F2 data))
    = Ok (map (fun q => - ln (axes_density h d (strong_axes axes) data q) / unit_of b) data)).
  { unfold kernel_entropy_local. cbn [make_rows bind rows2d]. rewrite KJ. cbn [bind gauss_args k_base].
    destruct (base_guard_ok b HV) as [-> ->]. cbn [bind].
    rewrite (mapM_ok _ (fun p => - (ln p / unit_of b))).
    - rewrite map_map. f_equal. apply map_ext. intros t. rewrite Hf. unfold Rdiv. ring.
    - intros p Hp. apply in_map_iff in Hp as (t & <- & Ht). apply kent_local_ok; [exact HV|]. rewrite Hf. apply axes_density_pos; assumption. }
  split; [exact A|]. unfold kernel_entropy. rewrite A. cbn [bind]. rewrite mean_ok by (apply map_ne; exact ND). f_equal.
  apply (mean_map_div (fun q => - ln (axes_density h d (strong_axes axes) data q))).
Qed.

(** no axis carries more variance than the threshold: ValueError *)
Theorem C87_no_variance : forall n d data, (2 <= n)%nat -> (2 <= d)%nat -> table n d data ->
  let axes := eig d (covar data) in eigen_of d (covar data) axes -> orthonormal d axes -> strong_axes axes = [] ->
  kernel_entropy (genv c eig) (gauss_args h w b) (FArr (F2 data)) = Raise ValueError.
Proof using HC Hh HW.
  intros n d data Hn Hd T axes Eg O NE.
  assert (B : mv_gauss eig data h = Raise ValueError).
  { apply (proj1 (mv_gauss_degenerate n d data Hn Hd T Eg O ltac:(fold axes; rewrite NE; cbn; lia)) NE). }
  unfold kernel_entropy, kernel_entropy_local. cbn [make_rows bind rows2d]. unfold kdens, kde. cbn [gauss_args k_bw k_kern].
  destruct (Rle_dec h 0); [lra|]. cbn [bind]. unfold gaussian_kernel_densities. rewrite (table_width n d _ ltac:(lia) T).
  destruct d as [|[|d']]; [lia|lia|]. cbn [mvg genv] in *. rewrite B. unfold parallel_kde_evaluate.
  destruct (_ || _) eqn:PW; [reflexivity|]. cbn [bind].
  set (W := Z.min _ _). assert (PWk : (0 < W)%Z).
  { unfold W. pose proof (gauss_workers (genv c eig) h w b HW HC) as [X|X].
    - destruct (Z.eqb_spec (n_workers (genv c eig) (gauss_args h w b)) (-1)); [|lia]. cbn [genv cpus]. lia.
    - rewrite X, Z.eqb_refl. cbn [genv cpus]. lia. }
  destruct (C53_chunks data W PWk) as (chunks & E & LC & _). rewrite E. cbn [bind].
  destruct chunks as [|c1 cs]; [cbn in LC; lia|]. reflexivity.
Qed.
End Degenerate.

(** points on the line y = x in the plane: one axis is kept *)
Example C87_degenerate_example : let data := [[0; 0]; [1; 1]; [2; 2]] in
  let axes := [(2, fun _ : nat => / sqrt 2); (0, fun i => match i with O => / sqrt 2 | _ => - / sqrt 2 end)] in
  table 3 2 data /\ eigen_of 2 (covar data) axes /\ orthonormal 2 axes /\ strong_axes axes <> [] /\ (length (strong_axes axes) < 2)%nat.
Proof.
  intros data axes. assert (S2 : 0 < sqrt 2) by (apply sqrt_lt_R0; lra). pose proof (sqrt_sqrt 2 ltac:(lra)) as SQ.
  unfold axes. set (r := sqrt 2) in *. clearbody r.
  assert (I2 : / r * / r = / 2) by (rewrite <- SQ; field; lra). assert (IP : 0 < / r) by (apply Rinv_0_lt_compat, S2). set (k := / r) in *. clearbody k.
  assert (HC2 : forall i j, (i < 2)%nat -> (j < 2)%nat -> covar data i j = 1).
  { intros i j Hi Hj. unfold data, covar, column, mean, sumR. destruct i as [|[|]], j as [|[|]]; try lia; cbn; field. }
  assert (TH : 0 < / 10 ^ 10 < 2).
  { split; [apply threshold_pos|]. assert (Q : / 10 ^ 10 <= / 1) by (apply Rinv_le_contravar; [lra|]; replace (10 ^ 10) with (IZR (10 ^ 10)) by (rewrite pow_IZR; reflexivity); apply IZR_le; lia). rewrite Rinv_1 in Q. lra. }
  split; [split; [reflexivity|repeat constructor]|]. split.
  - split; [reflexivity|]. apply Forall_cons; [|apply Forall_cons; [|apply Forall_nil]]; (split; [exists 0%nat; cbn; split; [lia|lra]|]);
      intros i Hi; unfold inner; cbn [seq sumf snd fst]; rewrite !HC2 by lia; destruct i as [|[|]]; try lia; lra.
  - split.
    + intros i j Hi Hj. cbn in Hi, Hj. destruct i as [|[|]], j as [|[|]]; try lia; cbn; lra.
    + unfold strong_axes. cbn [filter fst]. destruct (Rlt_dec (/ 10 ^ 10) 2); [|lra]. destruct (Rlt_dec (/ 10 ^ 10) 0); [lra|].
      split; [discriminate|cbn; lia].
Qed.
