(** C88: a variable with itself under the Gaussian kernel. *)
From Coq Require Import Reals Lra Lia List ZArith Arith Bool Permutation FunctionalExtensionality.
From Verif Require Import Res RSum Spec SpecTE SpecTEc SpecBase MBase PBase MTE PTE2 MPct MNorm MCont SpecKern SpecGauss MKern PKern PKern2 PKern3 PKern4 PKern5 PTEc PropsKern PropsKern2 PropsKern3 PropsKern5 SpecMvg MGauss PMvg PMvg2 PMvg3 PMvg4 PMvg5 PropsMvg PropsMvg2.
Import ListNotations.
Local Open Scope R_scope.

Lemma sq_zero x : x * x = 0 -> x = 0. Proof. intros H. apply Rmult_integral in H. tauto. Qed.

Lemma self_covar n xs i j : length xs = n -> (i < 2)%nat -> (j < 2)%nat ->
  covar (joint n [map (fun x => [x]) xs; map (fun x => [x]) xs]) i j = sample_var xs.
Proof.
  intros L Hi Hj. set (J := joint n _).
  assert (EJ : J = map (fun x => [x; x]) xs).
  { unfold J, joint. rewrite <- (map_nth_seq (fun x => [x; x]) xs 0), L. apply map_ext_in. intros t Ht. apply in_seq in Ht.
    cbn [map concat]. rewrite !(nth_map_lt (fun x => [x]) xs 0) by lia. reflexivity. }
  rewrite EJ. assert (CO : forall k, (k < 2)%nat -> column (map (fun x => [x; x]) xs) k = xs).
  { intros k Hk. unfold column. rewrite map_map. rewrite (map_ext _ (fun x => x)); [apply map_id|]. intros x. destruct k as [|[|k]]; [reflexivity|reflexivity|lia]. }
  unfold covar, sample_var. rewrite !CO, sumf_map, map_length by assumption. f_equal. apply sumf_ext. intros x _.
  destruct i as [|[|i]], j as [|[|j]]; try lia; cbn; ring.
Qed.

(** the eigenpairs of a matrix with four equal entries s > 0, sorted: 2s with a vector of two equal entries, and 0 *)
Lemma self_eigen (C : mat) s pairs : 0 < s -> (forall i j, (i < 2)%nat -> (j < 2)%nat -> C i j = s) -> eigen_of 2 C pairs -> orthonormal 2 pairs ->
  exists u z, sort_desc pairs = [(2 * s, u); (0, z)] /\ u 0%nat = u 1%nat /\ u 0%nat ^ 2 = / 2.
Proof.
  intros Hs HC [L F] O. destruct pairs as [|[l1 v1] [|[l2 v2] [|]]]; cbn in L; try lia.
  pose proof (Forall_inv F) as [_ E1]. pose proof (Forall_inv (Forall_inv_tail F)) as [_ E2]. cbn [fst snd] in E1, E2.
  pose proof (O 0 0 ltac:(cbn; lia) ltac:(cbn; lia))%nat as O1. pose proof (O 1 1 ltac:(cbn; lia) ltac:(cbn; lia))%nat as O2.
  pose proof (O 0 1 ltac:(cbn; lia) ltac:(cbn; lia))%nat as O3. cbn [nth snd Nat.eqb] in O1, O2, O3.
  pose proof (E1 0%nat ltac:(lia)) as A1. pose proof (E1 1%nat ltac:(lia)) as A2. pose proof (E2 0%nat ltac:(lia)) as B1. pose proof (E2 1%nat ltac:(lia)) as B2.
  clear O E1 E2 F L. unfold inner in *. cbn [seq sumf] in *. rewrite !HC in A1, A2, B1, B2 by lia.
  set (a := v1 0%nat) in *. set (b := v1 1%nat) in *. set (p := v2 0%nat) in *. set (q := v2 1%nat) in *.
  assert (K : forall l x y, s * x + (s * y + 0) = l * x -> s * x + (s * y + 0) = l * y -> x * x + (y * y + 0) = 1 ->
    (l = 0 /\ x = - y) \/ (l = 2 * s /\ x = y)).
  { intros l x y K1 K2 K3. destruct (Req_dec l 0) as [->|Nl].
    - left. split; [reflexivity|]. assert (s * (x + y) = 0) by lra. apply Rmult_integral in H as [H|H]; lra.
    - right. assert (l * (x - y) = 0) by lra. apply Rmult_integral in H as [H|H]; [contradiction|].
      assert (x = y) by lra. subst y. split; [|reflexivity]. assert (x <> 0) by (intros ->; lra).
      apply (Rmult_eq_reg_r x); [lra|assumption]. }
  assert (HF : forall x, x * x + (x * x + 0) = 1 -> x ^ 2 = / 2) by (intros x Hx; replace (/ 2) with (1 / 2) by field; rewrite <- Hx; field).
  destruct (K l1 a b A1 A2 O1) as [[-> EA]|[-> EA]], (K l2 p q B1 B2 O2) as [[-> EB]|[-> EB]].
  - exfalso. rewrite EA, EB in *. assert (b * q = 0) by lra. apply Rmult_integral in H as [H|H]; rewrite H in *; lra.
  - exists v2, v1. cbn [sort_desc fold_right insert_desc fst]. destruct (Rle_dec (2 * s) 0); [lra|]. fold p q.
    split; [reflexivity|]. split; [exact EB|]. apply HF. rewrite <- EB in O2. exact O2.
  - exists v1, v2. cbn [sort_desc fold_right insert_desc fst]. destruct (Rle_dec 0 (2 * s)); [|lra]. fold a b.
    split; [reflexivity|]. split; [exact EA|]. apply HF. rewrite <- EA in O1. exact O1.
  - exfalso. rewrite EA, EB in *. assert (b * q = 0) by lra. apply Rmult_integral in H as [H|H]; rewrite H in *; lra.
Qed.

Section Self.
Variables (c : Z) (eig : nat -> (nat -> nat -> R) -> list (R * (nat -> R))) (h : R) (w : Z) (b : base).
Hypothesis (HC : (0 < c)%Z) (Hh : 0 < h) (HW : workers_ok w) (HV : valid_base b).

(** the mutual information of a variable with itself is its entropy minus (ln 2)/2: the joint data lie on a line, onto
    which they are projected, and which is longer by the factor sqrt 2 *)
Theorem C88_mi_self : forall xs, varied xs -> / 10 ^ 10 < 2 * variance xs ->
  let C := covar (joint (length xs) [map (fun x => [x]) xs; map (fun x => [x]) xs]) in
  eigen_of 2 C (eig 2 C) -> orthonormal 2 (eig 2 C) ->
  kernel_mi (genv c eig) (gauss_args h w b) (Some 0%Z) false [F1 xs; F1 xs] = Ok ((GH h xs - ln 2 / 2) / unit_of b).
Proof using HC Hh HW HV.
  intros xs V TH C Eg O. set (n := length xs) in *. pose proof (varied_length xs V) as Hn. fold n in Hn.
  set (P := map (fun x : R => [x])) in *. set (J := joint n [P xs; P xs]) in *.
  pose proof (sample_var_pos xs V) as SV.
  destruct (self_eigen C (sample_var xs) (eig 2 C) SV (fun i j => self_covar n xs i j eq_refl) Eg O) as (u & z & ES & EU & EQ).
  assert (T1 : table n 1 (P xs)) by (apply (pts_table n xs eq_refl)).
  assert (T : tabs n [1; 1]%nat [P xs; P xs]) by (repeat (apply Forall2_cons; [assumption|]); apply Forall2_nil).
  pose proof (joint_table n _ _ T) as TJ. fold J in TJ. change (total_dim [1; 1]%nat) with 2%nat in TJ.
  assert (NTH : forall t, (t < n)%nat -> nth t J [] = [nth t xs 0; nth t xs 0]).
  { intros t Ht. unfold J, joint. rewrite (nth_map_lt _ (seq 0 n) 0%nat) by (rewrite seq_length; exact Ht). rewrite seq_nth by exact Ht. cbn [Nat.add map concat].
    unfold P. rewrite !(nth_map_lt (fun x => [x]) xs 0) by exact Ht. reflexivity. }
  assert (Eu : 2 * u 0%nat <> 0) by (intros X; assert (u 0%nat = 0) by lra; rewrite H in EQ; lra).
  assert (AU : Rabs (2 * u 0%nat) = sqrt 2).
  { symmetry. apply sqrt_lem_1; [lra|apply Rabs_pos|]. rewrite <- Rabs_mult, Rabs_pos_eq by (replace (2 * u 0%nat * (2 * u 0%nat)) with (4 * u 0%nat ^ 2) by ring; lra).
    replace (2 * u 0%nat * (2 * u 0%nat)) with (4 * u 0%nat ^ 2) by ring. rewrite EQ. lra. }
  assert (S2 : 0 < sqrt 2) by (apply sqrt_lt_R0; lra).
  assert (V1 : varied (column (P xs) 0)) by (unfold P; rewrite column_pts; exact V).
  assert (Rd1 : ready eig 1 (P xs)) by (split; [left; auto|intros; lia]).
  pose proof (regular_Piv n 1 (P xs) Hn T1 (proj1 Rd1)) as Pv1.
  assert (NP : P xs <> []) by (intros X; destruct T1 as [L _]; rewrite X in L; cbn in L; lia).
  set (pr := fun p : pt => [sumf (fun i => nth i p 0 * u i) (seq 0 2)]).
  assert (PRJ : map pr J = map (affine 1 (fun _ => 2 * u 0%nat) (fun _ => 0)) (P xs)).
  { rewrite <- (map_nth_seq pr J []), <- (map_nth_seq (affine 1 (fun _ => 2 * u 0%nat) (fun _ => 0)) (P xs) []), (proj1 TJ), (proj1 T1).
    apply map_ext_in. intros t Ht. apply in_seq in Ht. rewrite NTH by lia. unfold P. rewrite (nth_map_lt (fun x => [x]) xs 0) by (fold n; lia).
    unfold pr, affine. cbn [seq sumf map nth]. rewrite <- EU. f_equal. ring. }
  assert (PV' : PD 1 (covar (map pr J))).
  { intros v (i & Hi & Nv). assert (i = 0%nat) by lia. subst i. unfold form. cbn [seq sumf].
    rewrite PRJ, covar_affine by (assumption || lia). destruct Pv1 as [Q _]. assert (0 < (v 0%nat * (2 * u 0%nat)) * (v 0%nat * (2 * u 0%nat))).
    { apply Rsqr_pos_lt. apply Rmult_integral_contrapositive_currified; assumption. }
    nra. }
  assert (KDE : exists f, mv_gauss eig J h = Ok f /\ forall t, (t < n)%nat -> f (nth t J []) = gdensity h xs (nth t xs 0) / sqrt 2).
  { unfold mv_gauss. rewrite (proj1 TJ). destruct (Nat.leb_spec n 1); [lia|]. rewrite (table_width n 2 J ltac:(lia) TJ), np_cov_eq. fold C. rewrite ES.
    cbn [filter fst]. assert (T0 : eigen_threshold < 2 * sample_var xs) by (exact TH). destruct (Rlt_dec eigen_threshold (2 * sample_var xs)) as [_|X]; [|contradiction].
    destruct (Rlt_dec eigen_threshold 0) as [X|_]; [pose proof threshold_pos; lra|]. cbn [length Nat.ltb Nat.leb firstn map snd].
    change (fun p : pt => [sumf (fun i => nth i p 0 * u i) (seq 0 2)]) with pr.
    destruct (gaussian_kde_ok 1 (map pr J) h) as (f & E & Hf); [lia|rewrite map_length, (proj1 TJ); exact Hn|exact Hh|exact PV'|].
    rewrite E. cbn [bind]. eexists. split; [reflexivity|]. intros t Ht. cbv beta. rewrite Hf, PRJ, NTH by exact Ht.
    replace [Sum 2 (fun i : nat => nth i [nth t xs 0; nth t xs 0] 0 * u i)] with (affine 1 (fun _ => 2 * u 0%nat) (fun _ => 0) [nth t xs 0]).
    - rewrite mvdensity_affine by (assumption || (intros; exact Eu)). cbn [prodf]. rewrite Rmult_1_r, AU. unfold P. rewrite mvdensity_1 by assumption. reflexivity.
    - unfold pr, affine. cbn [seq sumf map nth]. rewrite <- EU. f_equal. ring. }
  destruct KDE as (f & EF & HF).
  assert (KJ : kdens (genv c eig) (gauss_args h w b) J = Ok (D1 (map (fun t => gdensity h xs (nth t xs 0) / sqrt 2) (seq 0 n)))).
  { unfold kdens, kde. cbn [gauss_args k_bw k_kern]. destruct (Rle_dec h 0); [lra|]. cbn [bind]. unfold gaussian_kernel_densities.
    rewrite (table_width n 2 J ltac:(lia) TJ). cbn [mvg genv]. rewrite EF.
    assert (W : (0 < (if Z.eqb (n_workers (genv c eig) (gauss_args h w b)) (-1) then cpus (genv c eig) else n_workers (genv c eig) (gauss_args h w b)))%Z).
    { destruct (Z.eqb_spec (n_workers (genv c eig) (gauss_args h w b)) (-1)); [exact HC|]. destruct (gauss_workers (genv c eig) h w b HW HC); [assumption|contradiction]. }
    pose proof (proj1 (C53_parallel_is_sequential f (length J) J _ W ltac:(rewrite (proj1 TJ); exact Hn))) as Q. rewrite Q. do 2 f_equal.
    rewrite <- (map_nth_seq f J []), (proj1 TJ). apply map_ext_in. intros t Ht. apply in_seq in Ht. apply HF. lia. }
  assert (KX : kdens (genv c eig) (gauss_args h w b) (P xs) = Ok (D1 (map (fun t => gdensity h xs (nth t xs 0)) (seq 0 n)))).
  { rewrite (kdens_mv c eig h w b n 1) by assumption. do 2 f_equal. apply map_ext_in. intros t Ht. apply in_seq in Ht. unfold P.
    rewrite (nth_map_lt (fun x => [x]) xs 0) by (fold n; lia). apply mvdensity_1; assumption. }
  assert (GP : forall t, 0 < gdensity h xs (nth t xs 0)) by (intros; apply gdensity_pos; assumption).
  unfold kernel_mi, kernel_mi_local. unfold fmi_init. cbn [length Nat.ltb Nat.leb Z.eqb negb andb flen hd forallb]. rewrite Nat.eqb_refl. cbn [andb negb Z.ltb Z.compare bind map rows2d].
  fold P. change (fun x : R => [x]) with (fun x : R => [x]). fold (P xs).
  rewrite (mi_form_gen (genv c eig) (gauss_args h w b) n [P xs; P xs] J (fun t => gdensity h xs (nth t xs 0) / sqrt 2) (fun _ t => gdensity h xs (nth t xs 0)));
    [|exact HV|exact Hn|apply (cstack_ok n); [discriminate|eapply tabs_tables; exact T]|exact KJ|intros v [<-|[<-|[]]]; exact KX|intros; apply Rdiv_lt_0_compat; [apply GP|exact S2]|intros; apply GP].
  cbn [bind]. rewrite (mi_mean_gen n [P xs; P xs] (fun t => gdensity h xs (nth t xs 0) / sqrt 2) (fun _ t => gdensity h xs (nth t xs 0))) by lia.
  cbn [gauss_args k_base]. do 2 f_equal. unfold sumR. cbn [map sumf].
  assert (LG : LH n (fun t => gdensity h xs (nth t xs 0)) = GH h xs) by (unfold LH, GH; f_equal; apply (map_nth_seq (fun q => - ln (gdensity h xs q)))).
  assert (LJ : LH n (fun t => gdensity h xs (nth t xs 0) / sqrt 2) = GH h xs + ln 2 / 2).
  { rewrite <- LG. unfold LH. rewrite (map_ext _ (fun t => - ln (gdensity h xs (nth t xs 0)) + ln 2 / 2)).
    - rewrite !mean_map, sumf_plus, sumf_const, seq_length. field. apply not_0_INR. lia.
    - intros t. unfold Rdiv at 1. rewrite ln_mult, ln_Rinv; [|exact S2|apply GP|apply Rinv_0_lt_compat, S2].
      replace (ln (sqrt 2)) with (ln 2 / 2); [lra|]. assert (ln 2 = ln (sqrt 2) + ln (sqrt 2)) by (rewrite <- ln_mult, sqrt_sqrt by lra; reflexivity). lra. }
  rewrite LG, LJ. lra.
Qed.
End Self.

(** the hypotheses can be met: an eigenvalue routine for matrices with four equal entries *)
Example C88_self_example : let C := covar (joint 3 [map (fun x => [x]) [0; 1; 3]; map (fun x => [x]) [0; 1; 3]]) in
  let pairs := [(2 * variance [0; 1; 3], fun _ : nat => / sqrt 2); (0, fun i => match i with O => / sqrt 2 | _ => - / sqrt 2 end)] in
  varied [0; 1; 3] /\ / 10 ^ 10 < 2 * variance [0; 1; 3] /\ eigen_of 2 C pairs /\ orthonormal 2 pairs.
Proof.
  intros C pairs. assert (S2 : 0 < sqrt 2) by (apply sqrt_lt_R0; lra). pose proof (sqrt_sqrt 2 ltac:(lra)) as SQ. set (r := sqrt 2) in *. clearbody r.
  assert (I2 : / r * / r = / 2) by (rewrite <- SQ; field; lra). assert (IP : 0 < / r) by (apply Rinv_0_lt_compat, S2). set (k := / r) in *. clearbody k.
  assert (VA : variance [0; 1; 3] = 7 / 3) by (unfold variance, mean, sumR; cbn [sumf length INR]; field).
  assert (HC2 : forall i j, (i < 2)%nat -> (j < 2)%nat -> C i j = 7 / 3) by (intros i j Hi Hj; rewrite <- VA; apply (self_covar 3 [0; 1; 3] i j eq_refl Hi Hj)).
  split; [exists 0, 1; cbn; repeat split; auto; lra|]. split.
  - rewrite VA. assert (Q : / 10 ^ 10 <= / 1) by (apply Rinv_le_contravar; [lra|]; replace (10 ^ 10) with (IZR (10 ^ 10)) by (rewrite pow_IZR; reflexivity); apply IZR_le; lia). rewrite Rinv_1 in Q. lra.
  - split.
    + split; [reflexivity|]. unfold pairs. rewrite VA. apply Forall_cons; [|apply Forall_cons; [|apply Forall_nil]]; (split; [exists 0%nat; cbn; split; [lia|lra]|]).
      * intros i Hi. unfold inner. cbn [seq sumf snd fst]. rewrite !HC2 by lia. field.
      * intros i Hi. unfold inner. cbn [seq sumf snd fst]. rewrite !HC2 by lia. ring.
    + intros i j Hi Hj. cbn [length pairs] in Hi, Hj. unfold inner. destruct i as [|[|i]], j as [|[|j]]; try lia; cbn [pairs nth snd seq sumf Nat.eqb]; lra.
Qed.

Lemma diag_ready d data v : (2 <= d)%nat -> 1 < v * 10 ^ 10 ->
  (forall i j, (i < d)%nat -> (j < d)%nat -> covar data i j = if Nat.eqb i j then v else 0) -> ready diag_eig d data.
Proof.
  intros Hd Hv E. assert (T : / 10 ^ 10 < v).
  { assert (0 < 10 ^ 10) by (apply pow_lt; lra). apply (Rmult_lt_reg_r (10 ^ 10)); [assumption|]. rewrite Rinv_l by lra. exact Hv. }
  assert (SG : forall i (f : nat -> R), (i < d)%nat -> Sum d (fun j => (if Nat.eqb i j then v else 0) * f j) = v * f i).
  { intros i f. generalize d as m. clear. induction m as [|m IH]; intros Hi; [lia|]. rewrite seq_S, sumf_app. cbn [sumf Nat.add].
    destruct (Nat.eq_dec i m) as [->|N].
    - rewrite Nat.eqb_refl, (sumf_ext _ (fun _ => 0)); [rewrite sumf_zero; lra|]. intros j Hj. apply in_seq in Hj. destruct (Nat.eqb_spec m j); [lia|ring].
    - rewrite IH by lia. destruct (Nat.eqb_spec i m); [lia|ring]. }
  split; [right; split; [exact Hd|]|].
  - intros u Hu. rewrite <- form_variance. replace (form d (covar data) u) with (v * inner d u u).
    + apply Rmult_lt_compat_r; [apply inner_pos, Hu|exact T].
    + unfold form, inner. rewrite <- sumf_scal. apply Sum_ext. intros i Hi. rewrite (Sum_ext d _ (fun j => (if Nat.eqb i j then v else 0) * (u i * u j))).
      * rewrite (SG i (fun j => u i * u j) Hi). reflexivity.
      * intros j Hj. rewrite E by assumption. ring.
  - intros _. unfold diag_eig. split; [rewrite map_length, seq_length; reflexivity|]. apply Forall_forall. intros lv Hlv. apply in_map_iff in Hlv as (i & <- & Hi). apply in_seq in Hi.
    cbn [fst snd]. split; [exists i; rewrite Nat.eqb_refl; split; [lia|lra]|]. intros j Hj. unfold inner.
    rewrite (Sum_ext d _ (fun k => (if Nat.eqb j k then v else 0) * (if Nat.eqb i k then 1 else 0))) by (intros k Hk; rewrite E by assumption; reflexivity).
    rewrite (SG j (fun k => if Nat.eqb i k then 1 else 0) Hj), E, Nat.eqb_refl by lia. reflexivity.
Qed.

(** the hypotheses of C88_mi, C88_mi_units, C88_cmi, C88_te: binary series in which all combinations are equally frequent *)
Definition te_x : list R := [0; 0; 0; 0; 1; 1; 1; 1; 0].
Definition te_y : list R := [0; 0; 1; 1; 0; 0; 1; 1; 0].
Example C88_example : let ts := base_times 9 1 1 in let P := map (fun x => [x]) in
  let X := past_pts (P te_x) 1 1 ts in let Z := past_pts (P te_y) 1 1 ts in let Y := present_pts (P te_y) ts in
  nrows 9 1 1 = 8%nat /\ table 9 1 (P te_x) /\ table 9 1 (P te_y) /\
  ready diag_eig 3 (joint 8 [X; Z; Y]) /\ ready diag_eig 1 Z /\ ready diag_eig 2 (joint 8 [X; Z]) /\ ready diag_eig 2 (joint 8 [Z; Y]).
Proof.
  cbv zeta.
  assert (ET : base_times 9 1 1 = seq 1 8) by reflexivity. rewrite ET. split; [reflexivity|].
  assert (EX : past_pts (map (fun x => [x]) te_x) 1 1 (seq 1 8) = map (fun x => [x]) [0; 0; 0; 0; 1; 1; 1; 1]) by reflexivity.
  assert (EZ : past_pts (map (fun x => [x]) te_y) 1 1 (seq 1 8) = map (fun x => [x]) [0; 0; 1; 1; 0; 0; 1; 1]) by reflexivity.
  assert (EY : present_pts (map (fun x => [x]) te_y) (seq 1 8) = map (fun x => [x]) [0; 1; 1; 0; 0; 1; 1; 0]) by reflexivity.
  rewrite EX, EZ, EY. split; [split; [reflexivity|repeat constructor]|]. split; [split; [reflexivity|repeat constructor]|].
  assert (HT : 1 < 2 / 7 * 10 ^ 10) by (replace (10 ^ 10) with (IZR (10 ^ 10)) by (rewrite pow_IZR; reflexivity); assert (1000 <= IZR (10 ^ 10)) by (apply IZR_le; lia); lra).
  split; [|split; [|split]].
  - apply (diag_ready 3 _ (2 / 7)); [lia|exact HT|]. intros i j Hi Hj. unfold covar, column, mean, sumR, joint. cbn [map seq concat nth app sumf length INR].
    destruct i as [|[|[|i]]], j as [|[|[|j]]]; try lia; cbn [nth Nat.eqb]; field.
  - split; [left; split; [reflexivity|]|intros; lia]. exists 0, 1. cbn. split; [auto|split; [auto 10|lra]].
  - apply (diag_ready 2 _ (2 / 7)); [lia|exact HT|]. intros i j Hi Hj. unfold covar, column, mean, sumR, joint. cbn [map seq concat nth app sumf length INR].
    destruct i as [|[|i]], j as [|[|j]]; try lia; cbn [nth Nat.eqb]; field.
  - apply (diag_ready 2 _ (2 / 7)); [lia|exact HT|]. intros i j Hi Hj. unfold covar, column, mean, sumR, joint. cbn [map seq concat nth app sumf length INR].
    destruct i as [|[|i]], j as [|[|j]]; try lia; cbn [nth Nat.eqb]; field.
Qed.
