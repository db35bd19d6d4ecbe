(** C60 (time offset), C66: parameters of the kernel estimators *)
From Coq Require Import Reals List ZArith Arith Bool Lia Lra Permutation.
From Verif Require Import Res RSum Spec SpecBase SpecKern SpecGauss MBase PBase MTE MPct MNorm MCont MKern PKern PKern2 PKern3 PropsKern PropsKern2 PropsKern5.
Import ListNotations.
Local Open Scope R_scope.

(** a positive offset pairs x(t) with y(t + o), a negative one x(t + |o|) with y(t) *)
Theorem C60_offset : forall E a nrm (xs ys : list R) o, length xs = length ys -> (0 < o <= length xs)%nat ->
  kernel_mi E a (Some (Z.of_nat o)) nrm [F1 xs; F1 ys]
    = kernel_mi E a (Some 0%Z) nrm [F1 (firstn (length xs - o) xs); F1 (skipn o ys)] /\
  kernel_mi E a (Some (- Z.of_nat o)%Z) nrm [F1 xs; F1 ys]
    = kernel_mi E a (Some 0%Z) nrm [F1 (skipn o xs); F1 (firstn (length ys - o) ys)].
Proof.
  intros E a nrm xs ys o L Ho. unfold kernel_mi, kernel_mi_local, fmi_init. cbn [length Nat.ltb Nat.leb andb forallb flen hd nth].
  rewrite !firstn_length, !skipn_length.
  assert (T1 : Nat.eqb (length ys) (length xs) = true) by (apply Nat.eqb_eq; auto).
  assert (T2 : Nat.eqb (length ys - o) (Nat.min (length xs - o) (length xs)) = true) by (apply Nat.eqb_eq; lia).
  assert (T3 : Nat.eqb (Nat.min (length ys - o) (length ys)) (length xs - o) = true) by (apply Nat.eqb_eq; lia).
  rewrite T1, T2, T3, !Nat.eqb_refl. cbn [andb negb].
  destruct (Z.ltb_spec 0 (Z.of_nat o)); [|lia]. destruct (Z.ltb_spec 0 (- Z.of_nat o)); [lia|].
  destruct (Z.ltb_spec (- Z.of_nat o) 0); [|lia]. cbn [Z.ltb Z.compare].
  rewrite Z.opp_involutive, Nat2Z.id. cbn [fdrop_last fskip]. split; reflexivity.
Qed.

(** ** C66: a bandwidth that is not a positive number, or an unknown kernel name, is rejected with ValueError by every
    kernel measure of valid data *)
Definition bad_params (a : kargs) : Prop :=
  k_bw a = BwOther \/ (exists h, k_bw a = BwNum h /\ h <= 0) \/ k_kern a = KOther.

Lemma kde_bad E a data q w : bad_params a -> (forall l, q = Some l -> width data = width l) -> kde E data (k_bw a) q (k_kern a) w = Raise ValueError.
Proof.
  intros [-> |[(h & -> & Hh)| ->]] Hq; unfold kde; [reflexivity| |].
  - destruct (Rle_dec h 0); [reflexivity|contradiction].
  - destruct (k_bw a) as [h|]; [|reflexivity]. destruct (Rle_dec h 0); [reflexivity|].
    destruct q as [l|]; [rewrite (Hq l eq_refl), Nat.eqb_refl|]; reflexivity.
Qed.

Theorem C66_parameters_rejected : forall E a nrm n d (x y z : farr), bad_params a ->
  (1 <= n)%nat -> table n d (rows2d x) -> table n d (rows2d y) -> table n d (rows2d z) ->
  kernel_entropy E a (FArr x) = Raise ValueError /\
  kernel_entropy E a (FTuple [x; y]) = Raise ValueError /\
  kernel_cross_entropy E a x y = Raise ValueError /\
  kernel_kld E a x y = Raise ValueError /\
  (nrm = false -> kernel_mi E a (Some 0%Z) nrm [x; y] = Raise ValueError) /\
  (nrm = false -> kernel_cmi E a None nrm [x; y] z = Raise ValueError).
Proof.
  intros E a nrm n d x y z B Hn Tx Ty Tz.
  assert (W : forall v, table n d v -> width v = d).
  { intros v [L F]. unfold width. destruct v; [cbn in L; lia|]. inversion F. cbn. assumption. }
  assert (K : forall data, kdens E a data = Raise ValueError) by (intros; apply kde_bad; [exact B|discriminate]).
  assert (X : kernel_cross_entropy E a x y = Raise ValueError).
  { unfold kernel_cross_entropy. rewrite kde_bad; [reflexivity|exact B|]. intros l [= <-].
    rewrite (W _ Tx), (W _ Ty). reflexivity. }
  assert (FL : flen x = n /\ flen y = n /\ flen z = n) by (rewrite !flen_rows; split; [apply Tx|split; [apply Ty|apply Tz]]).
  destruct FL as (Fx & Fy & Fz).
  assert (CS : forall vs, vs <> [] -> Forall (fun v => length v = n) vs -> cstack vs = Ok (map (@concat R) (rows_of [] n vs))).
  { intros [|v vs] Hv F; [congruence|]. unfold cstack. assert (Hv0 : length v = n) by (inversion F; assumption). replace (forallb _ _) with true; [rewrite Hv0; reflexivity|].
    symmetry. apply forallb_forall. intros c Hc. rewrite Forall_forall in F. apply Nat.eqb_eq. rewrite (F c Hc). symmetry. exact Hv0. }
  assert (Lx : length (rows2d x) = n) by apply Tx. assert (Ly : length (rows2d y) = n) by apply Ty. assert (Lz : length (rows2d z) = n) by apply Tz.
  split; [|split; [|split; [|split; [|split]]]].
  - unfold kernel_entropy, kernel_entropy_local. cbn [make_rows bind]. rewrite K. reflexivity.
  - unfold kernel_entropy, kernel_entropy_local. cbn [make_rows map existsb]. rewrite Fx, Fy, Nat.eqb_refl. cbn [negb orb].
    rewrite CS by (try discriminate; repeat constructor; assumption). cbn [bind]. rewrite K. reflexivity.
  - exact X.
  - unfold kernel_kld. rewrite X. reflexivity.
  - intros ->. unfold kernel_mi, kernel_mi_local, fmi_init. cbn [length Nat.ltb Nat.leb andb forallb hd]. rewrite Fx, Fy, Nat.eqb_refl.
    cbn [andb negb Z.ltb Z.compare bind map]. unfold kernel_mi_form.
    rewrite CS by (try discriminate; repeat constructor; assumption). cbn [bind]. rewrite K. reflexivity.
  - intros ->. unfold kernel_cmi, kernel_cmi_local, fcmi_init. cbn [bind]. rewrite Fx, Fy, Fz, Nat.eqb_refl. cbn [negb orb bind fst snd map].
    unfold kernel_cmi_form. rewrite CS by (try discriminate; repeat constructor; assumption). cbn [bind]. rewrite K. reflexivity.
Qed.

(** an invalid number of workers is rejected by the box kernel only: the Gaussian kernel accepts any number for fewer
    than 20000 samples *)
Theorem C66_workers_box : forall E h w b a, 0 < h -> (w < -1)%Z \/ w = 0%Z ->
  kernel_entropy E (box_args h w b) (FArr a) = Raise ValueError.
Proof.
  intros E h w b a Hh Hw. unfold kernel_entropy, kernel_entropy_local. cbn [make_rows bind]. unfold kdens, kde.
  cbn [box_args k_bw k_kern]. destruct (Rle_dec h 0); [lra|]. cbn [bind]. unfold n_workers. cbn [box_args k_workers].
  destruct (Z.eqb_spec w (-1)); [lia|]. cbn [bind].
  destruct (Z.leb_spec w 0); [|lia]. destruct (Z.eqb_spec w (-1)); [lia|]. reflexivity.
Qed.
Theorem C66_workers_gaussian_refuted : forall E h w b xs, 0 < h -> valid_base b -> varied xs ->
  (Z.of_nat (length xs) < 20000)%Z -> w <> (-1)%Z ->
  kernel_entropy E (gauss_args h w b) (FArr (F1 xs)) = kernel_entropy E (gauss_args h 1 b) (FArr (F1 xs)) /\
  exists v, kernel_entropy E (gauss_args h w b) (FArr (F1 xs)) = Ok v.
Proof.
  intros E h w b xs Hh HV V L Hw.
  assert (G : kernel_entropy E (gauss_args h w b) (FArr (F1 xs)) = kernel_entropy E (gauss_args h 1 b) (FArr (F1 xs))).
  { unfold kernel_entropy, kernel_entropy_local. cbn [make_rows bind rows2d]. unfold kdens, kde. cbn [gauss_args k_bw k_kern k_base].
    destruct (Rle_dec h 0); [lra|]. cbn [bind]. unfold gaussian_kernel_densities, parallel_kde_evaluate.
    rewrite map_length. destruct (Z.ltb_spec (Z.of_nat (length xs)) 20000); [|lia]. rewrite !orb_true_r. reflexivity. }
  split; [exact G|]. rewrite G.
  assert (Y : kernel_entropy E (gauss_args h 1 b) (FArr (F1 xs)) = kernel_entropy env1 (gauss_args h 1 b) (FArr (F1 xs))).
  { unfold kernel_entropy, kernel_entropy_local. cbn [make_rows bind rows2d]. unfold kdens, kde. cbn [gauss_args k_bw k_kern k_base].
    destruct (Rle_dec h 0); [lra|]. cbn [bind]. unfold gaussian_kernel_densities, parallel_kde_evaluate.
    rewrite map_length. destruct (Z.ltb_spec (Z.of_nat (length xs)) 20000); [|lia]. rewrite !orb_true_r.
    pose proof (varied_length xs V). destruct xs as [|x xs]; [cbn in *; lia|]. reflexivity. }
  rewrite Y. eexists. apply (C63_gaussian_entropy env1 h 1%Z b Hh); [reflexivity|left; lia|exact HV|exact V].
Qed.

Example C66_example : bad_params (mkKargs (BwNum 0) KBox 1 BE) /\ bad_params (mkKargs (BwNum 1) KOther 1 BE) /\
  ~ bad_params (mkKargs (BwNum 1) KBox 1 BE).
Proof.
  split; [right; left; exists 0; split; [reflexivity|lra]|]. split; [right; right; reflexivity|].
  intros [X|[(h & X & Y)|X]]; [discriminate| |discriminate]. injection X as <-. lra.
Qed.

(** the hypotheses of C60 and C61 (variables), C64 and C65 (data sets of different size) can be met *)
Example C60_example : Forall2 (fun d a => table 3 d (rows2d a)) [1; 2]%nat [F1 [0; 1; 5]; F2 [[0; 1]; [2; 3]; [4; 4]]].
Proof. repeat (apply Forall2_cons; [split; [reflexivity|repeat constructor]|]). apply Forall2_nil. Qed.
Example C65_example : Forall2 (fun n v => (2 <= n)%nat /\ table n 1 v) [2; 3]%nat [[[0]; [3]]; [[1]; [1]; [2]]].
Proof. repeat (apply Forall2_cons; [split; [lia|split; [reflexivity|repeat constructor]]|]). apply Forall2_nil. Qed.
