(** C93: what is refused and what gives no number with normalize=True, for all four numeric approaches, for mutual information and
    conditional mutual information of any number of variables. *)
From Coq Require Import Reals Lra Lia List ZArith Arith Bool.
From Verif Require Import Res RSum Spec MBase MData MNorm MTE MCont MKern MKnn MFam PropsNorm PWrap PropsNormC.
Import ListNotations.
Local Open Scope R_scope.

Lemma mi_2d o vs rs : In (F2 rs) vs -> fmi_init (Some o) true vs = Raise ValueError.
Proof.
  intros Hi. unfold fmi_init. destruct (Nat.ltb_spec (length vs) 2) as [L|L]; [reflexivity|].
  destruct (Nat.ltb_spec 2 (length vs)) as [L2|L2].
  - destruct (Z.eqb_spec o 0) as [->|NZ]; cbn [andb negb]; [|reflexivity]. destruct (negb _); [reflexivity|]. cbv zeta. cbn [Z.ltb Z.compare].
    assert (X : existsb (fun a => match a with F2 _ => true | F1 _ => false end) vs = true) by (apply existsb_exists; exists (F2 rs); auto).
    rewrite X. reflexivity.
  - cbn [andb]. destruct vs as [|x [|y [|? ?]]]; cbn [length] in L, L2; try lia. destruct (negb _); [reflexivity|]. cbv zeta. cbn [nth].
    destruct Hi as [-> | [-> | []]]; destruct (0 <? o)%Z; try (destruct (o <? 0)%Z); cbn [fskip fdrop_last existsb orb]; try reflexivity;
      rewrite ?orb_true_r; reflexivity.
Qed.

Theorem C93_mi_two_dimensional f E N k n a noise o vs rs : In (F2 rs) vs ->
  kernel_mi E k (Some o) true vs = Raise ValueError /\ kernel_mi_local E k (Some o) true vs = Raise ValueError /\
  ksg_mi N n (Some o) true vs = Raise ValueError /\ ksg_mi_local N n (Some o) true vs = Raise ValueError /\
  fam_mi f N a noise (Some o) true vs = Raise ValueError.
Proof.
  intros Hi. pose proof (mi_2d o vs rs Hi) as G. unfold kernel_mi, kernel_mi_local, ksg_mi, ksg_mi_local, fam_mi. rewrite G.
  split; [|split; [|split; [|split]]]; reflexivity.
Qed.

(** conditional mutual information: the first two variables and the condition are looked at *)
Theorem C93_cmi_two_dimensional f E N k n a noise x y vars cond rs : In (F2 rs) [x; y; cond] ->
  kernel_cmi E k (Some 0%Z) true (x :: y :: vars) cond = Raise ValueError /\
  kernel_cmi_local E k (Some 0%Z) true (x :: y :: vars) cond = Raise ValueError /\
  ksg_cmi N n (Some 0%Z) true (x :: y :: vars) cond = Raise ValueError /\
  ksg_cmi_local N n (Some 0%Z) true (x :: y :: vars) cond = Raise ValueError /\
  fam_cmi f N a noise (Some 0%Z) true (x :: y :: vars) cond = Raise ValueError.
Proof.
  intros Hi. assert (G : fcmi_init true (x :: y :: vars) cond = Raise ValueError).
  { unfold fcmi_init. destruct (_ || _); [reflexivity|].
    assert (X : existsb (fun a => match a with F2 _ => true | F1 _ => false end) [x; y; cond] = true) by (apply existsb_exists; exists (F2 rs); auto).
    rewrite X. reflexivity. }
  unfold kernel_cmi, kernel_cmi_local, ksg_cmi, ksg_cmi_local, fam_cmi. cbn [bind]. rewrite G.
  split; [|split; [|split; [|split]]]; reflexivity.
Qed.
(** a two-dimensional third variable is not looked at: its columns are normalised *)
Theorem C93_cmi_third_variable :
  fcmi_init true [F1 [0; 1]; F1 [0; 1]; F2 [[0; 5]; [1; 7]]] (F1 [0; 1]) = Ok ([[[0]; [1]]; [[0]; [1]]; [[0; 0]; [1; 1]]], [[0]; [1]]).
Proof.
  assert (V1 : varied [0; 1]) by (exists 0, 1; cbn; intuition lra).
  assert (V2 : varied [5; 7]) by (exists 5, 7; cbn; intuition lra).
  unfold fcmi_init. cbn [flen length Nat.eqb negb orb existsb mapM norm_any MCont.width hd seq map nth normalize_0_1_cols].
  unfold normalize_0_1_cols. cbn [mapM]. rewrite (normalize_ok _ V1), (normalize_ok _ V2). cbn [rmap bind map minR maxR fold_left].
  rewrite (Rmin_left 0 1), (Rmax_right 0 1), (Rmin_left 5 7), (Rmax_right 5 7) by lra.
  unfold rows_of. cbn [seq length map nth rows2d]. repeat f_equal; field.
Qed.

(** ** constant variables *)
Definition constant (xs : list R) : Prop := forall x y, In x xs -> In y xs -> x = y.

Lemma norm_no_raise xs : xs <> [] -> forall e, normalize_0_1 xs <> Raise e.
Proof.
  intros NE e. destruct (varied_or_constant xs) as [V|C].
  - rewrite (normalize_ok _ V). discriminate.
  - rewrite (C51_constant_refuted xs NE C). discriminate.
Qed.
Lemma norm_all (cols : list (list R)) c : (forall d, In d cols -> d <> []) -> In c cols -> constant c ->
  mapM norm1 (map F1 cols) = NonFinite /\ mapM norm_any (map F1 cols) = NonFinite.
Proof.
  intros NE Hc C. split.
  - apply (mapM_nonfinite norm1 _ (F1 c)).
    + intros y Hy e. apply in_map_iff in Hy. destruct Hy as (d & <- & Hd). cbn [norm1]. pose proof (norm_no_raise d (NE d Hd)) as Q.
      destruct (normalize_0_1 d); cbn [rmap]; [discriminate|intros Z; injection Z as ->; exact (Q _ eq_refl)|discriminate].
    + apply in_map, Hc.
    + cbn [norm1]. rewrite (C51_constant_refuted c (NE c Hc) C). reflexivity.
  - apply (mapM_nonfinite norm_any _ (F1 c)).
    + intros y Hy e. apply in_map_iff in Hy. destruct Hy as (d & <- & Hd). cbn [norm_any]. pose proof (norm_no_raise d (NE d Hd)) as Q.
      destruct (normalize_0_1 d); cbn [rmap]; [discriminate|intros Z; injection Z as ->; exact (Q _ eq_refl)|discriminate].
    + apply in_map, Hc.
    + cbn [norm_any]. rewrite (C51_constant_refuted c (NE c Hc) C). reflexivity.
Qed.
Lemma f1_flat cols : existsb (fun a => match a with F2 _ => true | F1 _ => false end) (map F1 cols) = false.
Proof. induction cols as [|c l IH]; [reflexivity|exact IH]. Qed.

(** any constant variable among any number of them *)
Theorem C93_mi_constant f E N k n a noise cols c r : (2 <= length cols)%nat -> (0 < r)%nat -> (forall d, In d cols -> length d = r) ->
  In c cols -> constant c ->
  kernel_mi E k (Some 0%Z) true (map F1 cols) = NonFinite /\ ksg_mi N n (Some 0%Z) true (map F1 cols) = NonFinite /\
  fam_mi f N a noise (Some 0%Z) true (map F1 cols) = NonFinite.
Proof.
  intros Hk Hr HL Hc C. assert (G : fmi_init (Some 0%Z) true (map F1 cols) = NonFinite).
  { assert (NE : forall d, In d cols -> d <> []) by (intros d Hd ->; specialize (HL [] Hd); simpl in HL; lia).
    unfold fmi_init. rewrite map_length. destruct (Nat.ltb_spec (length cols) 2) as [L|L]; [lia|]. cbn [Z.eqb negb]. rewrite andb_false_r.
    assert (X : forallb (fun v => Nat.eqb (flen v) (flen (hd (F1 []) (map F1 cols)))) (map F1 cols) = true).
    { apply forallb_forall. intros v Hv. apply in_map_iff in Hv. destruct Hv as (d & <- & Hd). apply Nat.eqb_eq. cbn [flen]. rewrite (HL d Hd).
      destruct cols as [|d0 l]; [destruct Hd|]. cbn [map hd flen]. symmetry. apply HL. left. reflexivity. }
    rewrite X. cbn [negb]. cbv zeta. cbn [Z.ltb Z.compare]. rewrite f1_flat, (proj1 (norm_all cols c NE Hc C)). reflexivity. }
  unfold kernel_mi, kernel_mi_local, ksg_mi, ksg_mi_local, fam_mi. rewrite G. split; [|split]; reflexivity.
Qed.
Print Assumptions C93_mi_constant.

Theorem C93_cmi_constant f E N k n a noise cols z c r : (2 <= length cols)%nat -> (0 < r)%nat -> (forall d, In d (z :: cols) -> length d = r) ->
  In c (z :: cols) -> constant c ->
  kernel_cmi E k (Some 0%Z) true (map F1 cols) (F1 z) = NonFinite /\ ksg_cmi N n (Some 0%Z) true (map F1 cols) (F1 z) = NonFinite /\
  fam_cmi f N a noise (Some 0%Z) true (map F1 cols) (F1 z) = NonFinite.
Proof.
  intros Hk Hr HL Hc C. assert (G : fcmi_init true (map F1 cols) (F1 z) = NonFinite).
  { assert (NE : forall d, In d (z :: cols) -> d <> []) by (intros d Hd ->; specialize (HL [] Hd); simpl in HL; lia).
    assert (NC : forall d, In d cols -> d <> []) by (intros d Hd; apply NE; right; exact Hd).
    unfold fcmi_init. destruct cols as [|x [|y l]] eqn:EC; try (simpl in Hk; lia). cbn [map flen]. rewrite <- EC in *.
    assert (Lx : length x = r) by (apply HL; rewrite EC; simpl; auto). assert (Ly : length y = r) by (apply HL; rewrite EC; simpl; auto).
    assert (Lz : length z = r) by (apply HL; left; reflexivity).
    rewrite Lx, Ly, Lz, Nat.eqb_refl. cbn [negb orb existsb].
    change (F1 x :: F1 y :: map F1 l) with (map F1 (x :: y :: l)). rewrite <- EC.
    destruct Hc as [<-|Hc].
    - assert (Q : forall e, mapM norm_any (map F1 cols) <> Raise e).
      { clear -NC. induction cols as [|d m IH]; intros e; [discriminate|]. cbn [map mapM norm_any].
        pose proof (norm_no_raise d (NC d ltac:(left; reflexivity))) as Q. destruct (normalize_0_1 d); cbn [rmap bind].
        - specialize (IH (fun d Hd => NC d (or_intror Hd))). destruct (mapM norm_any (map F1 m)); cbn [bind]; [discriminate|intros Z; injection Z as ->; exact (IH _ eq_refl)|discriminate].
        - intros Z. injection Z as ->. exact (Q _ eq_refl).
        - discriminate. }
      cbn [norm_any]. rewrite (C51_constant_refuted z (NE z ltac:(left; reflexivity)) C).
      destruct (mapM norm_any (map F1 cols)); cbn [bind rmap]; [reflexivity|exfalso; eapply Q; reflexivity|reflexivity].
    - rewrite (proj2 (norm_all cols c NC Hc C)). reflexivity. }
  unfold kernel_cmi, kernel_cmi_local, ksg_cmi, ksg_cmi_local, fam_cmi. cbn [bind]. rewrite G. split; [|split]; reflexivity.
Qed.
Print Assumptions C93_cmi_constant.

Example C93_refusals_example : constant [3; 3; 3] /\ In [3; 3; 3] [[1; 2; 4]; [3; 3; 3]] /\ (forall d, In d [[1; 2; 4]; [3; 3; 3]] -> length d = 3%nat) /\
  In (F2 [[1]]) [F1 [0]; F2 [[1]]; F1 [2]].
Proof.
  split; [intros x y Hx Hy; simpl in Hx, Hy; intuition congruence|]. split; [simpl; auto|]. split; [|simpl; auto].
  intros d [<-|[<-|[]]]; reflexivity.
Qed.
