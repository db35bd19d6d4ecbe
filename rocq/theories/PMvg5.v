(** Proofs: invariances and bounds of multi-dimensional Gaussian kernel entropies. *)
From Coq Require Import Reals Lra Lia List ZArith Arith Bool Permutation FunctionalExtensionality FinFun.
From Verif Require Import Res RSum Spec SpecBase MBase PBase MTE MPct MNorm MCont SpecKern SpecGauss MKern PKern PKern2 PKern3 PKern4 PropsKern PropsKern2 PropsKern5 SpecMvg MGauss PMvg PMvg2 PMvg3 PMvg4.
Import ListNotations.
Local Open Scope R_scope.

Lemma mean_perm l l' : Permutation l l' -> mean l = mean l'.
Proof. intros P. unfold mean, sumR. rewrite (sumf_perm' _ _ _ P), (Permutation_length P). reflexivity. Qed.

(** ** order of the samples *)
Lemma covar_perm data data' : Permutation data data' -> covar data = covar data'.
Proof.
  intros P. extensionality i. extensionality j. unfold covar, column.
  rewrite !(mean_perm _ _ (Permutation_map (fun p => nth i p 0) P)), !(mean_perm _ _ (Permutation_map (fun p => nth j p 0) P)), (Permutation_length P).
  f_equal. apply sumf_perm'. exact P.
Qed.
Lemma variance_perm l l' : Permutation l l' -> variance l = variance l'.
Proof. intros P. unfold variance. rewrite (mean_perm _ _ P), (Permutation_length P). f_equal. apply sumf_perm'. exact P. Qed.
Lemma mvdensity_perm h d data data' q : Permutation data data' -> mvdensity h d data q = mvdensity h d data' q.
Proof. intros P. unfold mvdensity. rewrite (covar_perm _ _ P). apply mean_perm. apply Permutation_map. exact P. Qed.
Lemma MvH_perm h d data data' : Permutation data data' -> MvH h d data = MvH h d data'.
Proof.
  intros P. unfold MvH. rewrite (map_ext _ (fun q => - ln (mvdensity h d data' q))) by (intros; rewrite (mvdensity_perm h d _ _ _ P); reflexivity).
  apply mean_perm. apply Permutation_map. exact P.
Qed.
Lemma table_perm n d data data' : Permutation data data' -> table n d data -> table n d data'.
Proof.
  intros P [L F]. split; [rewrite <- (Permutation_length P); exact L|]. rewrite Forall_forall in *. intros p Hp. apply F.
  apply (Permutation_in _ (Permutation_sym P)). exact Hp.
Qed.
Lemma ready_perm eig d data data' : Permutation data data' -> ready eig d data -> ready eig d data'.
Proof.
  intros P [Rg Eg]. rewrite (covar_perm _ _ P) in Eg. split; [|exact Eg].
  destruct Rg as [[-> (x & y & Hx & Hy & N)]|[Hd Sp]]; [left|right]; (split; [auto|]).
  - exists x, y. split; [|split]; [| |exact N]; (eapply Permutation_in; [apply Permutation_map; exact P|assumption]).
  - intros u Hu. rewrite <- (variance_perm _ _ (Permutation_map (fun p => inner d u (coords p)) P)). apply Sp, Hu.
Qed.

(** ** order of the coordinates *)
Definition colsof (d : nat) (data : list pt) : list (list R) := map (column data) (seq 0 d).
Definition colcov (n : nat) (a b : list R) : R := sumf (fun t => (nth t a 0 - mean a) * (nth t b 0 - mean b)) (seq 0 n) / (INR n - 1).

Lemma sumf_nth_seq {A} (f : A -> R) (l : list A) a0 : sumf (fun t => f (nth t l a0)) (seq 0 (length l)) = sumf f l.
Proof. rewrite <- (sumf_map (fun t => nth t l a0) f), (map_nth_seq (fun x => x)), map_id. reflexivity. Qed.

Lemma nth_column n d data t i : table n d data -> (t < n)%nat -> nth t (column data i) 0 = nth i (nth t data []) 0.
Proof. intros [L _] Ht. unfold column. rewrite (nth_map_lt _ data []) by lia. reflexivity. Qed.
Lemma nth_colsof d data i : (i < d)%nat -> nth i (colsof d data) [] = column data i.
Proof. intros Hi. unfold colsof. rewrite (nth_map_lt _ (seq 0 d) 0%nat) by (rewrite seq_length; exact Hi). rewrite seq_nth by exact Hi. reflexivity. Qed.
Lemma colsof_length d data : length (colsof d data) = d.
Proof. unfold colsof. rewrite map_length, seq_length. reflexivity. Qed.

Lemma covar_cols n d data i j : table n d data -> (i < d)%nat -> (j < d)%nat -> covar data i j = selC [] (colcov n) (colsof d data) i j.
Proof.
  intros T Hi Hj. unfold selC. rewrite !nth_colsof by assumption. unfold covar, colcov. rewrite <- (proj1 T). f_equal.
  rewrite <- (sumf_nth_seq _ data []). apply sumf_ext. intros t Ht. apply in_seq in Ht.
  rewrite !(nth_column n d) by (assumption || (rewrite <- (proj1 T); lia)). reflexivity.
Qed.

Definition coldens (h : R) (n d : nat) (cols : list (list R)) (t : nat) : R :=
  mean (map (fun s => mvnormal h d (selC [] (colcov n) cols) (selz [] (fun c => nth t c 0 - nth s c 0) cols)) (seq 0 n)).
Lemma mvnormal_ext s d C C' z z' : (forall i j, (i < d)%nat -> (j < d)%nat -> C i j = C' i j) -> (forall i, (i < d)%nat -> z i = z' i) ->
  mvnormal s d C z = mvnormal s d C' z'.
Proof. intros EC EZ. unfold mvnormal. rewrite (gdet_ext d C C' EC), (gquad_ext d C C' z z' EC EZ). reflexivity. Qed.

Lemma density_cols h n d data t : table n d data -> (t < n)%nat ->
  mvdensity h d data (nth t data []) = coldens h n d (colsof d data) t.
Proof.
  intros T Ht. unfold mvdensity, coldens. rewrite !mean_map, seq_length, (proj1 T). f_equal.
  rewrite <- (sumf_nth_seq _ data []), (proj1 T). apply sumf_ext. intros s Hs. apply in_seq in Hs. apply mvnormal_ext.
  - intros i j Hi Hj. apply (covar_cols n); assumption.
  - intros i Hi. unfold selz. rewrite nth_colsof by exact Hi. rewrite !(nth_column n d) by (assumption || lia). reflexivity.
Qed.

Lemma coldens_perm h n d cols cols' t : Permutation cols cols' -> length cols = d -> Piv d (selC [] (colcov n) cols) ->
  coldens h n d cols t = coldens h n d cols' t.
Proof.
  intros P L Pv. unfold coldens. f_equal. apply map_ext. intros s.
  assert (Sy : symT (colcov n)) by (intros a b; unfold colcov; f_equal; apply sumf_ext; intros; ring).
  subst d. destruct (sel_perm [] cols cols' P (colcov n) (fun c => nth t c 0 - nth s c 0) Sy Pv) as (_ & E1 & E2).
  pose proof (Permutation_length P) as LP. unfold mvnormal. rewrite E1, E2, LP. reflexivity.
Qed.

Lemma MvH_cols h n d A B : table n d A -> table n d B -> Permutation (colsof d A) (colsof d B) -> Piv d (covar A) -> MvH h d A = MvH h d B.
Proof.
  intros TA TB P Pv. rewrite <- (LH_mv h n d A (proj1 TA)), <- (LH_mv h n d B (proj1 TB)). unfold LH. f_equal.
  apply map_ext_in. intros t Ht. apply in_seq in Ht. rewrite (density_cols h n d A), (density_cols h n d B) by (assumption || lia).
  rewrite (coldens_perm h n d (colsof d A) (colsof d B)); [reflexivity|exact P|apply colsof_length|].
  apply (Piv_ext d (covar A)); [|exact Pv]. intros i j Hi Hj. apply (covar_cols n); assumption.
Qed.

(** regularity does not depend on the order of the coordinates *)
Lemma regular_cols n d A B : table n d A -> table n d B -> Permutation (colsof d A) (colsof d B) -> regular d A -> regular d B.
Proof.
  intros TA TB P [[-> V]|[Hd Sp]].
  - left. split; [reflexivity|]. unfold colsof in P. cbn [seq map] in P. apply Permutation_length_1 in P. rewrite <- P. exact V.
  - right. split; [exact Hd|]. intros u Hu.
    destruct (proj1 (Permutation_nth _ _ []) P) as (_ & f & BF & BI & HF). rewrite colsof_length in *.
    assert (BS : bSurjective d f) by (apply bInjective_bSurjective; assumption).
    destruct (bSurjective_bBijective BF BS) as (g & BG & HG).
    set (u' := fun j => u (g j)).
    assert (PS : Permutation (map f (seq 0 d)) (seq 0 d)).
    { apply NoDup_Permutation.
      - apply NoDup_nth with (d := 0%nat). rewrite map_length, seq_length. intros i j Hi Hj E.
        rewrite !(nth_map_lt f (seq 0 d) 0%nat) in E by (rewrite seq_length; assumption). rewrite !seq_nth in E by assumption. apply BI in E; assumption.
      - apply seq_NoDup.
      - intros x. rewrite in_map_iff, in_seq. split.
        + intros (y & <- & Hy). apply in_seq in Hy. specialize (BF y ltac:(lia)). lia.
        + intros Hx. exists (g x). split; [apply HG; lia|]. apply in_seq. specialize (BG x ltac:(lia)). lia. }
    assert (SS : forall F, Sum d F = Sum d (fun x => F (f x))).
    { intros F. rewrite <- (sumf_perm' F _ _ PS), sumf_map. reflexivity. }
    assert (EV : map (fun p => inner d u (coords p)) B = map (fun p => inner d u' (coords p)) A).
    { rewrite <- (map_nth_seq (fun p => inner d u (coords p)) B []), <- (map_nth_seq (fun p => inner d u' (coords p)) A []).
      rewrite (proj1 TA), (proj1 TB). apply map_ext_in. intros t Ht. apply in_seq in Ht. unfold inner.
      rewrite (SS (fun i => u' i * _)). apply Sum_ext. intros i Hi. unfold u', coords. rewrite (proj1 (HG i Hi)). f_equal.
      rewrite <- (nth_column n d B), <- (nth_column n d A) by (assumption || lia). specialize (BF i Hi).
      rewrite <- (nth_colsof d B i Hi), (HF i Hi), nth_colsof by exact BF. reflexivity. }
    rewrite EV. replace (inner d u u) with (inner d u' u').
    + apply Sp. destruct Hu as (i & Hi & Nz). exists (f i). split; [apply BF; exact Hi|]. unfold u'. rewrite (proj1 (HG i Hi)). exact Nz.
    + unfold inner. rewrite (SS (fun i => u' i * u' i)). apply Sum_ext. intros i Hi. unfold u'. rewrite (proj1 (HG i Hi)). reflexivity.
Qed.

(** ** units of the coordinates *)
Lemma affine_table n d a c data : table n d data -> table n d (map (affine d a c) data).
Proof. intros [L F]. split; [rewrite map_length; exact L|]. apply Forall_forall. intros p Hp. apply in_map_iff in Hp as (q & <- & _). unfold affine. rewrite map_length, seq_length. reflexivity. Qed.
Lemma nth_affine d a c p i : (i < d)%nat -> nth i (affine d a c p) 0 = a i * nth i p 0 + c i.
Proof. intros Hi. unfold affine. rewrite (nth_map_lt _ (seq 0 d) 0%nat) by (rewrite seq_length; exact Hi). rewrite seq_nth by exact Hi. reflexivity. Qed.
Lemma mean_affine (l : list R) a c : l <> [] -> mean (map (fun x => a * x + c) l) = a * mean l + c.
Proof.
  intros N. rewrite mean_map, sumf_plus, sumf_scal, sumf_const. unfold mean, sumR.
  assert (INR (length l) <> 0) by (apply not_0_INR; destruct l; [congruence|discriminate]). field. assumption.
Qed.
Lemma column_affine d a c data i : (i < d)%nat -> column (map (affine d a c) data) i = map (fun x => a i * x + c i) (column data i).
Proof. intros Hi. unfold column. rewrite !map_map. apply map_ext. intros p. apply nth_affine. exact Hi. Qed.

Lemma covar_affine d a c data i j : data <> [] -> (i < d)%nat -> (j < d)%nat ->
  covar (map (affine d a c) data) i j = a i * covar data i j * a j.
Proof.
  intros N Hi Hj. assert (NC : forall k, column data k <> []) by (intros k; unfold column; destruct data; [congruence|discriminate]).
  unfold covar. rewrite !column_affine by assumption. rewrite !mean_affine by apply NC. rewrite sumf_map, map_length.
  rewrite (sumf_ext _ (fun p => (a i * a j) * ((nth i p 0 - mean (column data i)) * (nth j p 0 - mean (column data j))))).
  - rewrite sumf_scal. unfold Rdiv. ring.
  - intros p _. rewrite !nth_affine by assumption. ring.
Qed.

Lemma mvdensity_affine h d a c data q : 0 < h -> data <> [] -> (forall i, (i < d)%nat -> a i <> 0) -> Piv d (covar data) ->
  mvdensity h d (map (affine d a c) data) (affine d a c q) = mvdensity h d data q / Rabs (prodf d a).
Proof.
  intros Hh N Na Pv. unfold mvdensity. rewrite !mean_map, sumf_map, map_length.
  assert (PA : forall d (a : vec), (forall i, (i < d)%nat -> a i <> 0) -> prodf d a <> 0).
  { clear. induction d as [|d IH]; intros a Ha; cbn; [lra|]. apply Rmult_integral_contrapositive_currified; [apply Ha; lia|apply IH; intros; apply Ha; lia]. }
  pose proof (Rabs_pos_lt _ (PA d a Na)) as AP.
  unfold Rdiv. rewrite Rmult_assoc, (Rmult_comm (/ INR _)), <- Rmult_assoc. f_equal. rewrite <- sumf_scal_r. apply sumf_ext. intros x _.
  destruct (rescale_coords d (covar data) a (fun i => nth i q 0 - nth i x 0) Pv Na) as (_ & E1 & E2).
  rewrite (mvnormal_ext h d _ (fun i j => a i * covar data i j * a j) _ (fun i => a i * (nth i q 0 - nth i x 0))).
  - unfold mvnormal. rewrite E1, E2. rewrite <- Rmult_assoc, (Rmult_comm _ (prodf d a ^ 2)), Rmult_assoc.
    rewrite sqrt_mult; [|apply pow2_ge_0|].
    + rewrite <- (pow2_abs (prodf d a)), sqrt_pow2 by (left; exact AP). unfold Rdiv. rewrite (Rinv_mult (Rabs _)). ring.
    + left. apply Rmult_lt_0_compat; [apply pow_lt; pose proof PI_RGT_0; assert (0 < h ^ 2) by (apply pow_lt, Hh); nra|apply Piv_det, Pv].
  - intros i j Hi Hj. apply covar_affine; assumption.
  - intros i Hi. rewrite !nth_affine by exact Hi. ring.
Qed.

Lemma ln_prodf d : forall a : vec, (forall i, (i < d)%nat -> a i <> 0) -> ln (Rabs (prodf d a)) = Sum d (fun i => ln (Rabs (a i))) /\ prodf d a <> 0.
Proof.
  induction d as [|d IH]; intros a Na; [cbn; rewrite Rabs_R1, ln_1; split; [reflexivity|lra]|].
  destruct (IH (fun i => a (S i))) as [E N]; [intros; apply Na; lia|]. pose proof (Na 0%nat ltac:(lia)) as N0.
  cbn [prodf]. rewrite Sum_S, <- E, Rabs_mult, ln_mult by (apply Rabs_pos_lt; assumption). split; [reflexivity|].
  apply Rmult_integral_contrapositive_currified; assumption.
Qed.

Lemma MvH_affine h d a c data : 0 < h -> data <> [] -> (forall i, (i < d)%nat -> a i <> 0) -> Piv d (covar data) ->
  MvH h d (map (affine d a c) data) = MvH h d data + Sum d (fun i => ln (Rabs (a i))).
Proof.
  intros Hh N Na Pv. destruct (ln_prodf d a Na) as [E Np]. pose proof (Rabs_pos_lt _ Np) as AP.
  unfold MvH. rewrite map_map, !mean_map.
  rewrite (sumf_ext _ (fun q => - ln (mvdensity h d data q) + Sum d (fun i => ln (Rabs (a i))))).
  - rewrite sumf_plus, sumf_const. assert (INR (length data) <> 0) by (apply not_0_INR; destruct data; [congruence|discriminate]). field. assumption.
  - intros q _. rewrite (mvdensity_affine h d a c data q Hh N Na Pv). pose proof (mvdensity_pos h d data q Hh N Pv) as MP.
    unfold Rdiv. rewrite ln_mult, ln_Rinv, E; [lra|exact AP|exact MP|apply Rinv_0_lt_compat, AP].
Qed.

(** enlarging the numbers keeps the data regular *)
Lemma regular_affine n d a c data : (2 <= n)%nat -> table n d data -> (forall i, (i < d)%nat -> 1 <= Rabs (a i)) -> regular d data ->
  regular d (map (affine d a c) data).
Proof.
  intros Hn T Ha [[-> (x & y & Hx & Hy & Nq)]|[Hd Sp]].
  - left. split; [reflexivity|]. rewrite column_affine by lia. exists (a 0%nat * x + c 0%nat), (a 0%nat * y + c 0%nat).
    split; [|split]; [apply (in_map (fun x => a 0%nat * x + c 0%nat)); assumption| apply (in_map (fun x => a 0%nat * x + c 0%nat)); assumption|].
    intros E. apply Nq. apply (Rmult_eq_reg_l (a 0%nat)); [lra|]. intros Z. specialize (Ha 0%nat ltac:(lia)). rewrite Z, Rabs_R0 in Ha. lra.
  - right. split; [exact Hd|]. intros u Hu. set (u' := fun i => u i * a i).
    assert (EV : map (fun p => inner d u (coords p)) (map (affine d a c) data) = map (fun x => 1 * x + inner d u c) (map (fun p => inner d u' (coords p)) data)).
    { rewrite !map_map. apply map_ext. intros p. unfold inner. rewrite Rmult_1_l, <- sumf_plus. apply Sum_ext. intros i Hi. unfold coords, u'. rewrite nth_affine by exact Hi. ring. }
    rewrite EV.
    assert (NE : map (fun p => inner d u' (coords p)) data <> []) by (destruct T as [L _]; destruct data; [cbn in L; lia|discriminate]).
    replace (variance (map (fun x => 1 * x + inner d u c) (map (fun p => inner d u' (coords p)) data))) with (variance (map (fun p => inner d u' (coords p)) data)).
    2:{ unfold variance at 2. rewrite mean_affine by exact NE. rewrite sumf_map, map_length. unfold variance. f_equal. apply sumf_ext. intros x _. ring. }
    assert (Nu : nonzero d u').
    { destruct Hu as (i & Hi & Nz). exists i. split; [exact Hi|]. unfold u'. apply Rmult_integral_contrapositive_currified; [exact Nz|].
      intros Z. specialize (Ha i Hi). rewrite Z, Rabs_R0 in Ha. lra. }
    eapply Rle_lt_trans; [|apply Sp; exact Nu]. apply Rmult_le_compat_l; [left; apply threshold_pos|].
    apply sumf_le. intros i Hi. apply in_seq in Hi. unfold u'. specialize (Ha i ltac:(lia)).
    assert (1 <= a i * a i). { rewrite <- (Rabs_pos_eq (a i * a i)) by (apply Rle_0_sqr). rewrite Rabs_mult. nra. }
    pose proof (Rle_0_sqr (u i)) as Q. unfold Rsqr in Q. replace (u i * a i * (u i * a i)) with (u i * u i * (a i * a i)) by ring. nra.
Qed.

(** total variance of rescaled data *)
Lemma total_variance_rescale n d s data : (0 < n)%nat -> table n d data -> total_variance d (rescale s data) = s ^ 2 * total_variance d data.
Proof.
  intros Hn T. unfold total_variance. rewrite <- sumf_scal. apply Sum_ext. intros i Hi.
  assert (E : column (rescale s data) i = map (fun x => s * x + 0) (column data i)).
  { unfold column, rescale. rewrite !map_map. apply map_ext_in. intros p Hp. destruct T as [_ F]. rewrite Forall_forall in F.
    rewrite (nth_map_lt (Rmult s) p 0) by (rewrite F by exact Hp; exact Hi). ring. }
  assert (NE : column data i <> []) by (destruct T as [L _]; destruct data; [cbn in L; lia|discriminate]).
  rewrite E. unfold variance. rewrite mean_affine by exact NE. rewrite sumf_map, map_length. unfold Rdiv. rewrite <- Rmult_assoc. f_equal.
  rewrite <- sumf_scal. apply sumf_ext. intros x _. ring.
Qed.
Lemma total_variance_nonneg n d data : (2 <= n)%nat -> table n d data -> 0 <= total_variance d data.
Proof.
  intros Hn T. apply sumf_nonneg. intros i _. unfold variance. unfold column. rewrite map_length, (proj1 T).
  apply Rmult_le_pos; [apply sumf_nonneg; intros; apply pow2_ge_0|]. left. apply Rinv_0_lt_compat. apply le_INR in Hn. change (INR 2) with 2 in Hn. lra.
Qed.

(** ** bounds *)
Definition Zmv (h : R) (d : nat) (data : list pt) : R := sqrt ((2 * PI * h ^ 2) ^ d * gdet d (covar data)).
Lemma gquad_zero d : forall C : mat, gquad d C (fun _ => 0) = 0.
Proof.
  induction d as [|d IH]; intros C; [reflexivity|]. cbn [gquad].
  rewrite (gquad_ext d _ (schur C) _ (fun _ => 0)); [rewrite IH; unfold Rdiv; ring|reflexivity|intros; unfold Rdiv; ring].
Qed.
Lemma Zmv_pos h d data : 0 < h -> Piv d (covar data) -> 0 < Zmv h d data.
Proof.
  intros Hh Pv. apply sqrt_lt_R0. apply Rmult_lt_0_compat; [apply pow_lt; pose proof PI_RGT_0; assert (0 < h ^ 2) by (apply pow_lt, Hh); nra|apply Piv_det, Pv].
Qed.
Lemma mvdensity_bounds h d data q : 0 < h -> Piv d (covar data) -> In q data ->
  / (INR (length data) * Zmv h d data) <= mvdensity h d data q <= / Zmv h d data.
Proof.
  intros Hh Pv Hq. pose proof (Zmv_pos h d data Hh Pv) as ZP. assert (HN : 0 < INR (length data)) by (apply lt_0_INR; destruct data; [contradiction|cbn; lia]).
  assert (H2 : 0 < h ^ 2) by (apply pow_lt, Hh).
  assert (N1 : forall z, mvnormal h d (covar data) z <= / Zmv h d data).
  { intros z. unfold mvnormal. fold (Zmv h d data). unfold Rdiv at 1. rewrite <- (Rmult_1_l (/ Zmv h d data)) at 2.
    apply Rmult_le_compat_r; [left; apply Rinv_0_lt_compat; exact ZP|]. rewrite <- exp_0.
    assert (- gquad d (covar data) z / (2 * h ^ 2) <= 0).
    { pose proof (Piv_quad d (covar data) z Pv). unfold Rdiv. assert (0 < / (2 * h ^ 2)) by (apply Rinv_0_lt_compat; lra). nra. }
    destruct (Req_dec (- gquad d (covar data) z / (2 * h ^ 2)) 0) as [->|Ne]; [lra|]. left. apply exp_increasing. lra. }
  assert (N2 : mvnormal h d (covar data) (fun i => nth i q 0 - nth i q 0) = / Zmv h d data).
  { unfold mvnormal. fold (Zmv h d data). rewrite (gquad_ext d _ (covar data) _ (fun _ => 0)); [|reflexivity|intros; ring].
    rewrite gquad_zero. replace (- 0 / (2 * h ^ 2)) with 0 by (unfold Rdiv; ring). rewrite exp_0. unfold Rdiv. ring. }
  unfold mvdensity. rewrite mean_map. split.
  - rewrite Rinv_mult, Rmult_comm. apply Rmult_le_compat_r; [left; apply Rinv_0_lt_compat; exact HN|]. rewrite <- N2.
    apply (sumf_In_le (fun x => mvnormal h d (covar data) (fun i => nth i q 0 - nth i x 0))); [|exact Hq].
    intros x _. left. apply mvnormal_pos; assumption.
  - apply (Rmult_le_reg_r (INR (length data))); [exact HN|]. unfold Rdiv. rewrite Rmult_assoc, Rinv_l, Rmult_1_r by lra.
    rewrite (Rmult_comm (/ _)), <- sumf_const. apply sumf_le. intros x _. apply N1.
Qed.
Lemma MvH_bounds h d data : 0 < h -> data <> [] -> Piv d (covar data) -> ln (Zmv h d data) <= MvH h d data <= ln (INR (length data) * Zmv h d data).
Proof.
  intros Hh N Pv. pose proof (Zmv_pos h d data Hh Pv) as ZP. assert (HN : 0 < INR (length data)) by (apply lt_0_INR; destruct data; [congruence|cbn; lia]).
  assert (NZ : 0 < INR (length data) * Zmv h d data) by nra.
  assert (X : forall q, In q data -> ln (Zmv h d data) <= - ln (mvdensity h d data q) <= ln (INR (length data) * Zmv h d data)).
  { intros q Hq. destruct (mvdensity_bounds h d data q Hh Pv Hq) as [B1 B2]. pose proof (mvdensity_pos h d data q Hh N Pv) as MP.
    rewrite <- (ln_Rinv (mvdensity h d data q)) by exact MP. split; apply ln_monotone; try assumption.
    - rewrite <- (Rinv_inv (Zmv h d data)). apply Rinv_le_contravar; assumption.
    - apply Rinv_0_lt_compat, MP.
    - rewrite <- (Rinv_inv (INR (length data) * Zmv h d data)). apply Rinv_le_contravar; [apply Rinv_0_lt_compat, NZ|exact B1]. }
  unfold MvH. rewrite mean_map. split; apply (Rmult_le_reg_r (INR (length data))); try exact HN; unfold Rdiv; rewrite Rmult_assoc, Rinv_l, Rmult_1_r by lra;
    rewrite Rmult_comm, <- sumf_const; apply sumf_le; intros q Hq; apply X, Hq.
Qed.
