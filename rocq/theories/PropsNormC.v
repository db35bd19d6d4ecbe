(** C93: with [normalize=True] the (conditional) mutual information of numeric data does not depend on the unit and the
    origin of any variable. *)
From Coq Require Import Reals List ZArith Arith Bool Lia Lra Classical.
From Verif Require Import Res RSum Spec MBase MNorm MTE MCont MKern MKnn MFam PropsNorm.
Import ListNotations.
Local Open Scope R_scope.

(** [v'] is [v] in another unit and with another origin (1-D arrays; [same]: anything may also stay as it is) *)
Inductive rescaled : farr -> farr -> Prop :=
| same v : rescaled v v
| unit_origin xs a c : 0 < a -> rescaled (F1 xs) (F1 (map (fun x => a * x + c) xs)).

Lemma varied_or_constant l : varied l \/ (forall x y, In x l -> In y l -> x = y).
Proof.
  destruct (classic (varied l)) as [V|V]; [left; exact V|right]. intros x y Ix Iy.
  destruct (Rtotal_order x y) as [L|[E|L]]; [|exact E|]; destruct V; [exists x, y|exists y, x]; auto.
Qed.
(** no condition on the data: a constant array fails in both units *)
Lemma normalize_rescaled l a c : 0 < a -> normalize_0_1 (map (fun x => a * x + c) l) = normalize_0_1 l.
Proof.
  intros A. destruct (varied_or_constant l) as [V|K]; [apply C51_affine_invariant; assumption|].
  destruct l as [|x r]; [reflexivity|]. rewrite (C51_constant_refuted (x :: r)) by (discriminate || exact K).
  apply C51_constant_refuted; [discriminate|]. intros u v Iu Iv. apply in_map_iff in Iu. apply in_map_iff in Iv.
  destruct Iu as (u' & <- & Iu), Iv as (v' & <- & Iv). rewrite (K u' v' Iu Iv). reflexivity.
Qed.

Lemma rescaled_len v v' : rescaled v v' -> flen v' = flen v.
Proof. intros [w|xs a c A]; [reflexivity|apply map_length]. Qed.
Lemma rescaled_dim v v' : rescaled v v' -> (match v' with F2 _ => true | F1 _ => false end) = (match v with F2 _ => true | F1 _ => false end).
Proof. intros [w|xs a c A]; reflexivity. Qed.
Lemma rescaled_norm1 v v' : rescaled v v' -> norm1 v' = norm1 v.
Proof. intros [w|xs a c A]; [reflexivity|]. cbn [norm1]. rewrite normalize_rescaled by exact A. reflexivity. Qed.
Lemma rescaled_norm_any v v' : rescaled v v' -> norm_any v' = norm_any v.
Proof. intros [w|xs a c A]; [reflexivity|]. cbn [norm_any]. rewrite normalize_rescaled by exact A. reflexivity. Qed.
Lemma rescaled_skip k v v' : rescaled v v' -> rescaled (fskip k v) (fskip k v').
Proof. intros [w|xs a c A]; [constructor|]. cbn [fskip]. rewrite skipn_map. constructor. exact A. Qed.
Lemma rescaled_drop k v v' : rescaled v v' -> rescaled (fdrop_last k v) (fdrop_last k v').
Proof. intros [w|xs a c A]; [constructor|]. cbn [fdrop_last]. rewrite firstn_map, map_length. constructor. exact A. Qed.

Lemma resc_len vs vs' (F : Forall2 rescaled vs vs') : length vs' = length vs.
Proof. induction F; cbn; congruence. Qed.
Lemma resc_nth vs vs' (F : Forall2 rescaled vs vs') i : rescaled (nth i vs (F1 [])) (nth i vs' (F1 [])).
Proof. revert i. induction F; intros [|i]; cbn; try constructor; auto. Qed.
Lemma resc_hd vs vs' (F : Forall2 rescaled vs vs') : flen (hd (F1 []) vs') = flen (hd (F1 []) vs).
Proof. destruct F as [|v v' l l' R0 F']; [reflexivity|]. apply rescaled_len. exact R0. Qed.
Lemma resc_forallb vs vs' (F : Forall2 rescaled vs vs') n : forallb (fun a => Nat.eqb (flen a) n) vs' = forallb (fun a => Nat.eqb (flen a) n) vs.
Proof. induction F as [|v v' l l' R0 F' IH]; [reflexivity|]. cbn [forallb]. rewrite (rescaled_len _ _ R0), IH. reflexivity. Qed.
Lemma resc_existsb vs vs' (F : Forall2 rescaled vs vs') : existsb (fun a => match a with F2 _ => true | F1 _ => false end) vs' = existsb (fun a => match a with F2 _ => true | F1 _ => false end) vs.
Proof. induction F as [|v v' l l' R0 F' IH]; [reflexivity|]. cbn [existsb]. rewrite (rescaled_dim _ _ R0), IH. reflexivity. Qed.
Lemma resc_norm1 vs vs' (F : Forall2 rescaled vs vs') : mapM norm1 vs' = mapM norm1 vs.
Proof. induction F as [|v v' l l' R0 F' IH]; [reflexivity|]. cbn [mapM]. rewrite (rescaled_norm1 _ _ R0), IH. reflexivity. Qed.
Lemma resc_norm_any vs vs' (F : Forall2 rescaled vs vs') : mapM norm_any vs' = mapM norm_any vs.
Proof. induction F as [|v v' l l' R0 F' IH]; [reflexivity|]. cbn [mapM]. rewrite (rescaled_norm_any _ _ R0), IH. reflexivity. Qed.

Theorem fmi_init_rescaled off vs vs' : Forall2 rescaled vs vs' -> fmi_init off true vs' = fmi_init off true vs.
Proof.
  intros F. unfold fmi_init. rewrite (resc_len _ _ F), (resc_hd _ _ F), (resc_forallb _ _ F).
  destruct (Nat.ltb (length vs) 2); [reflexivity|]. destruct (_ && _); [reflexivity|]. destruct (negb _); [reflexivity|].
  destruct off as [o|]; [|reflexivity].
  match goal with |- context [mapM norm1 ?a] => set (ws' := a) end.
  match goal with |- _ = ?r => match r with context [mapM norm1 ?a] => set (ws := a) end end.
  assert (W : Forall2 rescaled ws ws').
  { subst ws ws'. destruct (0 <? o)%Z; [|destruct (o <? 0)%Z; [|exact F]];
      repeat constructor; (apply rescaled_skip || apply rescaled_drop); apply resc_nth; exact F. }
  cbv zeta. fold ws ws'. rewrite (resc_existsb _ _ W), (resc_norm1 _ _ W). reflexivity.
Qed.
Theorem fcmi_init_rescaled vs vs' z z' : Forall2 rescaled vs vs' -> rescaled z z' -> fcmi_init true vs' z' = fcmi_init true vs z.
Proof.
  intros F Z. unfold fcmi_init. destruct F as [|x x' r r' X F]; [reflexivity|]. destruct F as [|y y' r r' Y F]; [reflexivity|].
  rewrite (rescaled_len _ _ X), (rescaled_len _ _ Y), (rescaled_len _ _ Z).
  assert (G : Forall2 rescaled [x; y; z] [x'; y'; z']) by (repeat constructor; assumption). rewrite (resc_existsb _ _ G).
  assert (G2 : Forall2 rescaled (x :: y :: r) (x' :: y' :: r')) by (repeat constructor; assumption).
  rewrite (resc_norm_any _ _ G2), (rescaled_norm_any _ _ Z). reflexivity.
Qed.

(** mutual information of any number of variables: values, local values and errors *)
Theorem C93_mi_kernel E a off vs vs' : Forall2 rescaled vs vs' ->
  kernel_mi E a off true vs' = kernel_mi E a off true vs /\ kernel_mi_local E a off true vs' = kernel_mi_local E a off true vs.
Proof. intros F. unfold kernel_mi, kernel_mi_local. rewrite (fmi_init_rescaled _ _ _ F). split; reflexivity. Qed.
(** KSG, Renyi and Tsallis: also with noise, which is added after the normalisation *)
Theorem C93_mi_ksg E a off vs vs' : Forall2 rescaled vs vs' ->
  ksg_mi E a off true vs' = ksg_mi E a off true vs /\ ksg_mi_local E a off true vs' = ksg_mi_local E a off true vs.
Proof. intros F. unfold ksg_mi, ksg_mi_local. rewrite (fmi_init_rescaled _ _ _ F). split; reflexivity. Qed.
Theorem C93_mi_renyi_tsallis f E a noise off vs vs' : Forall2 rescaled vs vs' ->
  fam_mi f E a noise off true vs' = fam_mi f E a noise off true vs.
Proof. intros F. unfold fam_mi. rewrite (fmi_init_rescaled _ _ _ F). reflexivity. Qed.
(** conditional mutual information: the variables and the condition *)
Theorem C93_cmi_kernel E a off vs vs' z z' : Forall2 rescaled vs vs' -> rescaled z z' ->
  kernel_cmi E a off true vs' z' = kernel_cmi E a off true vs z /\ kernel_cmi_local E a off true vs' z' = kernel_cmi_local E a off true vs z.
Proof. intros F Z. unfold kernel_cmi, kernel_cmi_local. rewrite (fcmi_init_rescaled _ _ _ _ F Z). split; reflexivity. Qed.
Theorem C93_cmi_ksg E a off vs vs' z z' : Forall2 rescaled vs vs' -> rescaled z z' ->
  ksg_cmi E a off true vs' z' = ksg_cmi E a off true vs z /\ ksg_cmi_local E a off true vs' z' = ksg_cmi_local E a off true vs z.
Proof. intros F Z. unfold ksg_cmi, ksg_cmi_local. rewrite (fcmi_init_rescaled _ _ _ _ F Z). split; reflexivity. Qed.
Theorem C93_cmi_renyi_tsallis f E a noise off vs vs' z z' : Forall2 rescaled vs vs' -> rescaled z z' ->
  fam_cmi f E a noise off true vs' z' = fam_cmi f E a noise off true vs z.
Proof. intros F Z. unfold fam_cmi. rewrite (fcmi_init_rescaled _ _ _ _ F Z). reflexivity. Qed.

(** a two-dimensional first or second variable is rejected when normalisation is asked for *)
Theorem C93_two_dimensional_rejected E N k n o vs rs : In (F2 rs) vs ->
  kernel_mi E k (Some o) true vs = Raise ValueError /\ ksg_mi N n (Some o) true vs = Raise ValueError.
Proof.
  intros Hi. assert (G : fmi_init (Some o) true vs = Raise ValueError).
  { unfold fmi_init. destruct (Nat.ltb_spec (length vs) 2) as [L|L]; [reflexivity|].
    destruct (Nat.ltb_spec 2 (length vs)) as [L2|L2].
    - destruct (Z.eqb_spec o 0) as [->|NZ]; cbn [andb negb]; [|reflexivity]. destruct (negb _); [reflexivity|]. cbv zeta. cbn [Z.ltb Z.compare].
      assert (X : existsb (fun a => match a with F2 _ => true | F1 _ => false end) vs = true) by (apply existsb_exists; exists (F2 rs); auto).
      rewrite X. reflexivity.
    - cbn [andb]. destruct vs as [|x [|y [|? ?]]]; cbn [length] in L, L2; try lia. destruct (negb _); [reflexivity|]. cbv zeta. cbn [nth].
      destruct Hi as [-> | [-> | []]]; destruct (0 <? o)%Z; try (destruct (o <? 0)%Z); cbn [fskip fdrop_last existsb orb]; try reflexivity;
        rewrite ?orb_true_r; reflexivity. }
  unfold kernel_mi, kernel_mi_local, ksg_mi, ksg_mi_local. rewrite G. split; reflexivity.
Qed.
(** and a constant one gives no number *)
Theorem C93_constant_no_number E N k n xs ys : xs <> [] -> length ys = length xs -> (forall x y, In x xs -> In y xs -> x = y) ->
  kernel_mi E k (Some 0%Z) true [F1 xs; F1 ys] = NonFinite /\ ksg_mi N n (Some 0%Z) true [F1 xs; F1 ys] = NonFinite.
Proof.
  intros NE L K. assert (G : fmi_init (Some 0%Z) true [F1 xs; F1 ys] = NonFinite).
  { unfold fmi_init. cbn [length Nat.ltb Nat.leb andb hd flen forallb]. rewrite L, Nat.eqb_refl. cbn [andb negb].
    cbn [Z.ltb Z.compare existsb orb mapM norm1]. rewrite (C51_constant_refuted xs NE K). reflexivity. }
  unfold kernel_mi, kernel_mi_local, ksg_mi, ksg_mi_local. rewrite G. split; reflexivity.
Qed.

(** temperatures in Celsius and in Fahrenheit, lengths in metres and in millimetres *)
Example C93_example : Forall2 rescaled [F1 [20; 25; 21]; F1 [1; 3; 2]] [F1 [68; 77; 69.8]; F1 [1000; 3000; 2000]] /\
  fmi_init (Some 0%Z) true [F1 [20; 25; 21]; F1 [1; 3; 2]] = Ok [[[0]; [1]; [1 / 5]]; [[0]; [1]; [1 / 2]]].
Proof.
  split.
  - constructor; [|constructor; [|constructor]].
    + replace [68; 77; 69.8] with (map (fun x => 1.8 * x + 32) [20; 25; 21]) by (cbn [map]; repeat f_equal; lra). constructor. lra.
    + replace [1000; 3000; 2000] with (map (fun x => 1000 * x + 0) [1; 3; 2]) by (cbn [map]; repeat f_equal; lra). constructor. lra.
  - unfold fmi_init. cbn [length Nat.ltb Nat.leb andb hd flen forallb Nat.eqb negb Z.ltb Z.compare existsb orb mapM norm1].
    assert (A : varied [20; 25; 21]) by (exists 20, 25; cbn; intuition lra).
    assert (B : varied [1; 3; 2]) by (exists 1, 3; cbn; intuition lra).
    rewrite (normalize_ok _ A), (normalize_ok _ B). cbn [rmap bind map rows2d minR maxR fold_left].
    assert (M1 : Rmin (Rmin 20 25) 21 = 20) by (rewrite (Rmin_left 20 25), Rmin_left; lra).
    assert (M2 : Rmax (Rmax 20 25) 21 = 25) by (rewrite (Rmax_right 20 25), Rmax_left; lra).
    assert (M3 : Rmin (Rmin 1 3) 2 = 1) by (rewrite (Rmin_left 1 3), Rmin_left; lra).
    assert (M4 : Rmax (Rmax 1 3) 2 = 3) by (rewrite (Rmax_right 1 3), Rmax_left; lra).
    rewrite M1, M2, M3, M4. repeat f_equal; field.
Qed.
