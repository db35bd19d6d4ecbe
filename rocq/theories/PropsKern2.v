(** C60-C62: kernel mutual information, conditional mutual information and transfer entropy. *)
From Coq Require Import Reals Lra Lia List ZArith Arith Bool Permutation.
From Verif Require Import Res RSum Spec SpecTE SpecTEc SpecBase MBase PBase MTE PTE2 MPct MNorm MCont SpecKern MKern PKern PKern2 PKern3 PKern4 PKern5 PTEc PropsKern.
Import ListNotations.
Local Open Scope R_scope.

Lemma unit_pos b : valid_base b -> big_base b -> 0 < unit_of b.
Proof. destruct b as [|r]; cbn; intros; [lra|rewrite <- ln_1; apply ln_increasing; lra]. Qed.
Lemma unit_ne b : valid_base b -> unit_of b <> 0.
Proof.
  destruct b as [|r]; cbn; intros V; [lra|]. intros E. apply (proj2 V). apply ln_inv; [apply V|lra|]. rewrite ln_1. exact E.
Qed.

Lemma KHs_width h n ds vars : (0 < n)%nat -> tabs n ds vars ->
  KHs h n ds vars = sumR (map (fun v => KH h n (width v) [v]) vars) /\
  total_dim ds = fold_right Nat.add 0%nat (map width vars).
Proof.
  intros Hn T. induction T as [|d v ds vars Hv T [IH1 IH2]]; [split; reflexivity|].
  assert (W : width v = d).
  { destruct Hv as [L F]. unfold width. destruct v as [|p v]; [cbn in L; lia|]. inversion F; subst. reflexivity. }
  rewrite KHs_cons, IH1. cbn [map total_dim fold_right]. unfold total_dim in IH2. rewrite IH2, W.
  split; reflexivity.
Qed.

Lemma Forall2_swap {A B} (P : A -> B -> Prop) l l' : Forall2 P l l' -> Forall2 (fun y x => P x y) l' l.
Proof. induction 1; constructor; auto. Qed.

Section MI.
Variables (E : kenv) (h : R) (w : Z) (b : base) (n : nat).
Hypothesis (Hh : 0 < h) (HC : (0 < cpus E)%Z) (HW : workers_ok w) (HV : valid_base b) (Hn : (2 <= n)%nat).

(** ** C60: mutual information is the sum of the entropies minus the joint entropy *)
Theorem C60_mi_is_entropy_combination : forall ds vars, (2 <= length vars)%nat ->
  Forall2 (fun d a => table n d (rows2d a)) ds vars ->
  exists Hs H, Forall2 (fun a Ha => kernel_entropy E (box_args h w b) (FArr a) = Ok Ha) vars Hs /\
    kernel_entropy E (box_args h w b) (FTuple vars) = Ok H /\
    kernel_mi E (box_args h w b) (Some 0%Z) false vars = Ok (sumR Hs - H).
Proof using Hh HC HW HV Hn.
  intros ds vars Hv F. pose proof (tabs_cols n ds vars F) as T.
  exists (map (fun da => KH h n (fst da) [rows2d (snd da)] / unit_of b) (combine ds vars)).
  exists (KH h n (total_dim ds) (map rows2d vars) / unit_of b). split; [|split].
  - clear Hv T. induction F as [|d a ds vars Ta F IH]; cbn [combine map]; constructor; [|exact IH].
    apply (C59_kernel_entropy E h w b Hh HC HW HV a n d Hn Ta).
  - apply (C59_kernel_joint_entropy E h w b Hh HC HW HV vars n ds Hn); [destruct vars; cbn in Hv; [lia|discriminate]|exact F].
  - rewrite (kernel_mi_ok E h w b n ds vars Hh HC HW HV ltac:(lia) Hv T). f_equal.
    assert (S : KHs h n ds (map rows2d vars) / unit_of b
      = sumR (map (fun da => KH h n (fst da) [rows2d (snd da)] / unit_of b) (combine ds vars))).
    { clear Hv T. induction F as [|d a ds vars Ta F IH]; [unfold KHs, sumR; cbn; unfold Rdiv; ring|].
      cbn [map]. rewrite KHs_cons. unfold sumR in *. cbn [combine map sumf fst snd]. rewrite <- IH. unfold Rdiv. ring. }
    rewrite <- S. unfold Rdiv. ring.
Qed.

(** the order of the variables does not matter *)
Theorem C60_mi_symmetric : forall ds vars vars', (2 <= length vars)%nat ->
  Forall2 (fun d a => table n d (rows2d a)) ds vars -> Permutation vars vars' ->
  exists v, kernel_mi E (box_args h w b) (Some 0%Z) false vars = Ok v /\
            kernel_mi E (box_args h w b) (Some 0%Z) false vars' = Ok v.
Proof using Hh HC HW HV Hn.
  intros ds vars vars' Hv F P. pose proof (tabs_cols n ds vars F) as T.
  assert (F' : exists ds', Forall2 (fun d a => table n d (rows2d a)) ds' vars').
  { apply Forall2_swap in F. destruct (Permutation_Forall2 P F) as (ds' & _ & F'). exists ds'.
    apply Forall2_swap in F'. exact F'. }
  destruct F' as (ds' & F'). pose proof (tabs_cols n ds' vars' F') as T'.
  pose proof (Permutation_length P) as LP.
  eexists. split; [apply (kernel_mi_ok E h w b n ds vars Hh HC HW HV ltac:(lia) Hv T)|].
  rewrite (kernel_mi_ok E h w b n ds' vars' Hh HC HW HV ltac:(lia) ltac:(lia) T'). do 2 f_equal.
  destruct (KHs_width h n ds _ ltac:(lia) T) as [-> ->]. destruct (KHs_width h n ds' _ ltac:(lia) T') as [-> ->].
  assert (PM : Permutation (map rows2d vars) (map rows2d vars')) by (apply Permutation_map; exact P).
  assert (PW : fold_right Nat.add 0%nat (map width (map rows2d vars)) = fold_right Nat.add 0%nat (map width (map rows2d vars'))).
  { clear -PM. induction PM; cbn; lia. }
  rewrite PW, (KH_perm_vars h n _ _ _ PM). f_equal. unfold sumR. symmetry. apply sumf_perm'. apply Permutation_map. exact PM.
Qed.

(** between - ln N and (m - 1) ln N for m variables and N samples *)
Theorem C60_mi_bounds : forall ds vars, (2 <= length vars)%nat -> big_base b ->
  Forall2 (fun d a => table n d (rows2d a)) ds vars ->
  exists v, kernel_mi E (box_args h w b) (Some 0%Z) false vars = Ok v /\
    - ln (INR n) / unit_of b <= v <= (INR (length vars) - 1) * ln (INR n) / unit_of b.
Proof using Hh HC HW HV Hn.
  intros ds vars Hv B F. pose proof (tabs_cols n ds vars F) as T.
  eexists. split; [apply (kernel_mi_ok E h w b n ds vars Hh HC HW HV ltac:(lia) Hv T)|].
  pose proof (unit_pos b HV B) as U.
  destruct (KMI_bounds h n ds (map rows2d vars) Hh ltac:(lia)) as [B1 B2].
  { rewrite map_length. eapply Forall2_len. exact F. }
  { destruct vars; cbn in *; [lia|discriminate]. }
  rewrite map_length in B2. unfold Rdiv. split; apply Rmult_le_compat_r; try assumption; left; apply Rinv_0_lt_compat; exact U.
Qed.

(** re-ordering the samples of all variables alike, moving each variable by a vector, and multiplying all data and
    the bandwidth by one factor change nothing *)
Theorem C60_mi_invariances : forall (ds : list nat) (vars : list (list pt)) sigma (cs : list pt) a, (2 <= length vars)%nat ->
  Forall2 (fun d v => table n d v) ds vars -> Permutation sigma (seq 0 n) ->
  Forall2 (fun d c => length c = d) ds cs -> 0 < a ->
  exists v, kernel_mi E (box_args h w b) (Some 0%Z) false (map F2 vars) = Ok v /\
    kernel_mi E (box_args h w b) (Some 0%Z) false (map F2 (map (reorder sigma) vars)) = Ok v /\
    kernel_mi E (box_args h w b) (Some 0%Z) false (map F2 (map (fun vc => translate (snd vc) (fst vc)) (combine vars cs))) = Ok v /\
    kernel_mi E (box_args (a * h) w b) (Some 0%Z) false (map F2 (map (rescale a) vars)) = Ok v.
Proof using Hh HC HW HV Hn.
  intros ds vars sigma cs a Hv F P Fc Ha.
  assert (RW : forall l : list (list pt), map rows2d (map F2 l) = l) by (intros l; rewrite map_map; apply map_id).
  assert (LD : length ds = length vars) by (eapply Forall2_len; exact F).
  assert (T1 : tabs n ds (map (reorder sigma) vars)).
  { clear -F P. induction F; cbn; constructor; [apply table_reorder; auto|exact IHF]. }
  assert (T2 : tabs n ds (map (fun vc => translate (snd vc) (fst vc)) (combine vars cs))).
  { clear -F Fc. revert cs Fc. induction F as [|d v ds vars Hv F IH]; intros cs Fc; inversion Fc; subst; cbn; constructor; [|apply IH; assumption].
    apply (table_map n (length y) (length y)); [exact Hv|]. intros p Hp. apply vadd_length. exact Hp. }
  assert (T3 : tabs n ds (map (rescale a) vars)).
  { clear -F. induction F; cbn; constructor; [|exact IHF]. apply (table_map n x x); [assumption|]. intros p Hp.
    rewrite map_length. exact Hp. }
  assert (G : forall h' vs, 0 < h' -> tabs n ds vs ->
     kernel_mi E (box_args h' w b) (Some 0%Z) false (map F2 vs) = Ok ((KHs h' n ds vs - KH h' n (total_dim ds) vs) / unit_of b)).
  { intros h' vs Hh' T.
    rewrite (kernel_mi_ok E h' w b n ds (map F2 vs)); auto; [rewrite RW; reflexivity|lia| |rewrite RW; exact T].
    rewrite map_length. apply Forall2_len in T. lia. }
  exists ((KHs h n ds vars - KH h n (total_dim ds) vars) / unit_of b).
  rewrite !G by (auto; nra). split; [reflexivity|].
  assert (K1 : KHs h n ds (map (reorder sigma) vars) = KHs h n ds vars).
  { clear -F P. unfold KHs. induction F as [|d v ds vars Hv F IH]; [reflexivity|]. unfold sumR in *. cbn [map combine sumf fst snd].
    rewrite IH. f_equal. apply (KH_reorder h n d sigma [v] P). }
  assert (K2 : KHs h n ds (map (fun vc => translate (snd vc) (fst vc)) (combine vars cs)) = KHs h n ds vars).
  { clear -F Fc. unfold KHs. revert cs Fc. induction F as [|d v ds vars Hv F IH]; intros cs Fc; inversion Fc; subst; [reflexivity|].
    unfold sumR in *. cbn [map combine sumf fst snd]. rewrite IH by assumption. f_equal.
    apply (KH_translate h n (length y) [v] [y]). constructor; [|constructor]. split; apply Hv. }
  assert (K3 : KHs (a * h) n ds (map (rescale a) vars) = KHs h n ds vars + INR (total_dim ds) * ln a).
  { clear -F Ha Hh Hn. unfold KHs. induction F as [|d v ds vars Hv F IH]; [unfold sumR; cbn; ring|].
    unfold sumR in *. cbn [map combine sumf fst snd total_dim fold_right]. rewrite IH, plus_INR.
    change [rescale a v] with (map (rescale a) [v]).
    rewrite (KH_rescale h n d a [v] Ha Hh ltac:(lia) ltac:(repeat constructor; apply Hv)). unfold total_dim. ring. }
  rewrite K1, K2, K3, KH_reorder, KH_translate, KH_rescale; auto.
  - split; [reflexivity|]. split; [reflexivity|]. f_equal. unfold Rdiv. ring.
  - lia.
  - clear -F. induction F as [|d v ds vars Hv F IH]; constructor; [apply Hv|exact IH].
  - clear -F Fc. revert cs Fc. induction F as [|d v ds vars Hv F IH]; intros cs Fc; inversion Fc; subst; constructor; [split; apply Hv|apply IH; assumption].
Qed.
End MI.

(** three points on a line, two variables: the result is ln (3/4) / 3, below zero *)
Definition c60_x : farr := F1 [0; 1; 2].
Definition c60_y : farr := F1 [0; 2; 1].
Ltac near_num := unfold near; cbn [combine forallb fst snd andb];
  repeat (match goal with |- context [Rle_dec ?a ?b] =>
     let Hx := fresh in destruct (Rle_dec a b) as [Hx|Hx];
       [ | exfalso; apply Hx; unfold Rabs; destruct (Rcase_abs _); lra] end); reflexivity.
Ltac far_num := unfold near; cbn [combine forallb fst snd andb];
  repeat (match goal with |- context [Rle_dec ?a ?b] =>
     let Hx := fresh in destruct (Rle_dec a b) as [Hx|Hx];
       [ exfalso; revert Hx; unfold Rabs; destruct (Rcase_abs _); lra | ] end); reflexivity.
Lemma near1 h x y : near h [x] [y] = if Rle_dec (Rabs (x - y)) (h / 2) then true else false.
Proof. unfold near. cbn. apply andb_true_r. Qed.
Lemma near1_yes h x y : - (h / 2) <= x - y <= h / 2 -> near h [x] [y] = true.
Proof. intros H. rewrite near1. destruct (Rle_dec _ _) as [_|N]; [reflexivity|]. exfalso. apply N. apply Rabs_le. exact H. Qed.
Lemma near1_no h x y : x - y < - (h / 2) \/ h / 2 < x - y -> near h [x] [y] = false.
Proof.
  intros H. rewrite near1. destruct (Rle_dec _ _) as [Y|_]; [|reflexivity]. exfalso.
  unfold Rabs in Y. destruct (Rcase_abs _); lra.
Qed.
Ltac near_solve := first [ rewrite near1_yes by lra | rewrite near1_no by lra ].
Ltac nnear_calc := unfold nnear; cbn [seq filter forallb map nth rows2d pts];
  repeat (near_solve; cbn [andb]); try reflexivity.

Theorem C60_can_be_negative : forall E w, (0 < cpus E)%Z -> workers_ok w ->
  exists v, kernel_mi E (box_args 2 w BE) (Some 0%Z) false [c60_x; c60_y] = Ok v /\ v < 0.
Proof.
  intros E w HC HW.
  assert (F : Forall2 (fun d a => table 3 d (rows2d a)) [1; 1]%nat [c60_x; c60_y]).
  { repeat constructor. }
  pose proof (tabs_cols _ _ _ F) as T.
  eexists. split; [apply (kernel_mi_ok E 2 w BE 3 [1; 1]%nat [c60_x; c60_y]); auto; try lra; try lia; try exact Logic.I; cbn; lia|].
  rewrite <- KH_combination by lia. cbn [seq map mean total_dim fold_right combine fst snd c60_x c60_y].
  unfold kdensity.
  set (X := rows2d c60_x). set (Y := rows2d c60_y).
  assert (A0 : nnear 2 3 [X; Y] 0 = 1%nat) by (unfold X, Y, c60_x, c60_y; nnear_calc).
  assert (A1 : nnear 2 3 [X; Y] 1 = 2%nat) by (unfold X, Y, c60_x, c60_y; nnear_calc).
  assert (A2 : nnear 2 3 [X; Y] 2 = 2%nat) by (unfold X, Y, c60_x, c60_y; nnear_calc).
  assert (X0 : nnear 2 3 [X] 0 = 2%nat) by (unfold X, Y, c60_x, c60_y; nnear_calc).
  assert (X1 : nnear 2 3 [X] 1 = 3%nat) by (unfold X, Y, c60_x, c60_y; nnear_calc).
  assert (X2 : nnear 2 3 [X] 2 = 2%nat) by (unfold X, Y, c60_x, c60_y; nnear_calc).
  assert (Y0 : nnear 2 3 [Y] 0 = 2%nat) by (unfold X, Y, c60_x, c60_y; nnear_calc).
  assert (Y1 : nnear 2 3 [Y] 1 = 2%nat) by (unfold X, Y, c60_x, c60_y; nnear_calc).
  assert (Y2 : nnear 2 3 [Y] 2 = 3%nat) by (unfold X, Y, c60_x, c60_y; nnear_calc).
  rewrite A0, A1, A2, X0, X1, X2, Y0, Y1, Y2. unfold mean, sumR. cbn [sumf length unit_of].
  replace (INR 1) with 1 by reflexivity. replace (INR 2) with 2 by (cbn; lra). replace (INR 3) with 3 by (cbn; lra).
  cbn [pow Nat.add].
  assert (L : forall c k, 0 < c -> 0 < k -> ln (c / 3 / k) = ln c - ln 3 - ln k).
  { intros c k Hc Hk. unfold Rdiv. rewrite !ln_mult, !ln_Rinv; try lra; try (apply Rinv_0_lt_compat; lra). }
  rewrite !L by lra. replace (2 * 1) with 2 by ring. replace (2 * (2 * 1)) with 4 by ring.
  assert (L4 : ln 4 = 2 * ln 2) by (replace 4 with (2 * 2) by ring; rewrite ln_mult by lra; ring).
  replace (2 * 2) with 4 by ring. rewrite ?L4, ln_1.
  assert (ln 3 < 2 * ln 2) by (rewrite <- L4; apply ln_increasing; lra). lra.
Qed.
