(** Proofs: pivots, permuting and rescaling coordinates. *)
From Coq Require Import Reals Lra Lia List ZArith Arith Bool Permutation FunctionalExtensionality.
From Verif Require Import Res RSum Spec SpecBase SpecMvg MBase MTE MPct MNorm MCont MKern MGauss PMvg.
Import ListNotations.
Local Open Scope R_scope.

Fixpoint Piv (d : nat) (C : mat) : Prop := match d with O => True | S d' => 0 < C 0%nat 0%nat /\ Piv d' (schur C) end.

Lemma PD_Piv d : forall C, Sym C -> PD d C -> Piv d C.
Proof.
  induction d as [|d IH]; intros C Sy P; cbn; [exact Logic.I|].
  split; [apply (PD_head d C P)|]. apply IH; [apply schur_sym, Sy|apply PD_schur; assumption].
Qed.
Lemma Piv_det d : forall C, Piv d C -> 0 < gdet d C.
Proof. induction d as [|d IH]; intros C P; cbn in *; [lra|]. apply Rmult_lt_0_compat; [apply P|apply IH, P]. Qed.
Lemma Piv_quad d : forall C z, Piv d C -> 0 <= gquad d C z.
Proof.
  induction d as [|d IH]; intros C z P; cbn in *; [lra|]. destruct P as [P0 P].
  apply Rplus_le_le_0_compat; [|apply IH, P]. apply Rmult_le_pos; [apply (pow2_ge_0 (z 0%nat))|left; apply Rinv_0_lt_compat, P0].
Qed.

(** only the first d rows and columns matter *)
Lemma schur_ext d (C C' : mat) : (forall i j, (i < S d)%nat -> (j < S d)%nat -> C i j = C' i j) ->
  forall i j, (i < d)%nat -> (j < d)%nat -> schur C i j = schur C' i j.
Proof. intros E i j Hi Hj. unfold schur. rewrite !E by lia. reflexivity. Qed.
Lemma gdet_ext d : forall C C', (forall i j, (i < d)%nat -> (j < d)%nat -> C i j = C' i j) -> gdet d C = gdet d C'.
Proof.
  induction d as [|d IH]; intros C C' E; cbn; [reflexivity|]. rewrite E by lia. f_equal. apply IH. apply schur_ext. exact E.
Qed.
Lemma gquad_ext d : forall C C' z z', (forall i j, (i < d)%nat -> (j < d)%nat -> C i j = C' i j) ->
  (forall i, (i < d)%nat -> z i = z' i) -> gquad d C z = gquad d C' z'.
Proof.
  induction d as [|d IH]; intros C C' z z' E F; cbn [gquad]; [reflexivity|]. rewrite E, F by lia. f_equal.
  apply IH; [apply schur_ext; exact E|]. intros i Hi. rewrite !E, !F by lia. reflexivity.
Qed.
Lemma Piv_ext d : forall C C', (forall i j, (i < d)%nat -> (j < d)%nat -> C i j = C' i j) -> Piv d C -> Piv d C'.
Proof.
  induction d as [|d IH]; intros C C' E P; cbn in *; [exact Logic.I|]. rewrite <- E by lia. split; [apply P|].
  apply (IH (schur C)); [apply schur_ext; exact E|apply P].
Qed.

(** ** permuting coordinates; coordinates are named by the elements of a list *)
Section Sel.
Context {T : Type} (t0 : T).
Definition selC (C : T -> T -> R) (l : list T) : mat := fun i j => C (nth i l t0) (nth j l t0).
Definition selz (z : T -> R) (l : list T) : vec := fun i => z (nth i l t0).
Definition elimC (C : T -> T -> R) (x : T) : T -> T -> R := fun a b => C a b - C a x * C x b / C x x.
Definition elimz (C : T -> T -> R) (x : T) (z : T -> R) : T -> R := fun a => z a - C a x * z x / C x x.

Lemma sel_schur C x l : schur (selC C (x :: l)) = selC (elimC C x) l.
Proof. reflexivity. Qed.
Lemma gdet_cons C x l : gdet (length (x :: l)) (selC C (x :: l)) = C x x * gdet (length l) (selC (elimC C x) l).
Proof. reflexivity. Qed.
Lemma gquad_cons C z x l : gquad (length (x :: l)) (selC C (x :: l)) (selz z (x :: l))
  = z x ^ 2 / C x x + gquad (length l) (selC (elimC C x) l) (selz (elimz C x z) l).
Proof. reflexivity. Qed.
Lemma Piv_cons C x l : Piv (length (x :: l)) (selC C (x :: l)) <-> 0 < C x x /\ Piv (length l) (selC (elimC C x) l).
Proof. reflexivity. Qed.

Definition symT (C : T -> T -> R) : Prop := forall a b, C a b = C b a.
Lemma elim_sym C x : symT C -> symT (elimC C x).
Proof. intros Sy a b. unfold elimC. rewrite (Sy a b), (Sy a x), (Sy x b). unfold Rdiv. ring. Qed.

Lemma elim_twice C x y : symT C -> 0 < C x x -> 0 < elimC C x y y ->
  0 < C y y /\ 0 < elimC C y x x /\ C x x * elimC C x y y = C y y * elimC C y x x /\
  elimC (elimC C x) y = elimC (elimC C y) x /\
  (forall z, elimz (elimC C x) y (elimz C x z) = elimz (elimC C y) x (elimz C y z)) /\
  (forall z : T -> R, z x ^ 2 / C x x + elimz C x z y ^ 2 / elimC C x y y = z y ^ 2 / C y y + elimz C y z x ^ 2 / elimC C y x x).
Proof.
  intros Sy A B. unfold elimC in B. rewrite (Sy y x) in B.
  assert (D : C x x * C y y - C x y * C x y > 0).
  { apply (Rmult_lt_compat_l (C x x) _ _ A) in B. rewrite Rmult_0_r in B.
    replace (C x x * (C y y - C x y * C x y / C x x)) with (C x x * C y y - C x y * C x y) in B by (field; lra). lra. }
  assert (A' : 0 < C y y). { pose proof (Rle_0_sqr (C x y)) as Q. unfold Rsqr in Q. nra. }
  assert (E1 : elimC C x y y = (C x x * C y y - C x y * C x y) / C x x) by (unfold elimC; rewrite (Sy y x); field; lra).
  assert (E2 : elimC C y x x = (C x x * C y y - C x y * C x y) / C y y) by (unfold elimC; rewrite (Sy y x); field; lra).
  split; [exact A'|]. split; [rewrite E2; apply Rdiv_lt_0_compat; lra|].
  split; [rewrite E1, E2; field; lra|].
  assert (N : C x x * C y y - C x y * C x y <> 0) by lra.
  split; [|split].
  - extensionality a. extensionality b.
    change (elimC C x a b - elimC C x a y * elimC C x y b / elimC C x y y = elimC C y a b - elimC C y a x * elimC C y x b / elimC C y x x).
    rewrite E1, E2. unfold elimC. rewrite (Sy y x). field. lra.
  - intros z. extensionality a.
    change (elimz C x z a - elimC C x a y * elimz C x z y / elimC C x y y = elimz C y z a - elimC C y a x * elimz C y z x / elimC C y x x).
    rewrite E1, E2. unfold elimC, elimz. rewrite (Sy y x). field. lra.
  - intros z. rewrite E1, E2. unfold elimz. rewrite (Sy y x). field. lra.
Qed.

Lemma sel_perm l l' : Permutation l l' -> forall C z, symT C -> Piv (length l) (selC C l) ->
  Piv (length l') (selC C l') /\ gdet (length l) (selC C l) = gdet (length l') (selC C l') /\
  gquad (length l) (selC C l) (selz z l) = gquad (length l') (selC C l') (selz z l').
Proof.
  induction 1 as [|x l l' P IH|x y l|l l' l'' P1 IH1 P2 IH2]; intros C z Sy Pv.
  - auto.
  - destruct (proj1 (Piv_cons C x l) Pv) as [A Pv']. clear Pv. rename Pv' into Pv. destruct (IH (elimC C x) (elimz C x z) (elim_sym C x Sy) Pv) as (Q1 & Q2 & Q3).
    rewrite Piv_cons, !gdet_cons, !gquad_cons, Q2, Q3. auto.
  - destruct (proj1 (Piv_cons C y (x :: l)) Pv) as [A Pv']. clear Pv. destruct (proj1 (Piv_cons (elimC C y) x l) Pv') as [B Pv]. clear Pv'.
    destruct (elim_twice C y x Sy A B) as (A' & B' & E1 & E2 & E3 & E4).
    rewrite !Piv_cons, !gdet_cons, !gquad_cons. rewrite <- E2, <- E3. split; [|split].
    + split; [exact A'|]. split; [exact B'|exact Pv].
    + rewrite <- !Rmult_assoc, E1. reflexivity.
    + rewrite <- !Rplus_assoc, E4. reflexivity.
  - destruct (IH1 C z Sy Pv) as (Q1 & Q2 & Q3). destruct (IH2 C z Sy Q1) as (R1 & R2 & R3).
    split; [exact R1|]. split; [congruence|congruence].
Qed.
End Sel.

(** ** rescaling coordinates *)
Fixpoint prodf (d : nat) (a : vec) : R := match d with O => 1 | S d' => a 0%nat * prodf d' (fun i => a (S i)) end.
Lemma rescale_coords d : forall (C : mat) (a z : vec), Piv d C -> (forall i, (i < d)%nat -> a i <> 0) ->
  Piv d (fun i j => a i * C i j * a j) /\ gdet d (fun i j => a i * C i j * a j) = prodf d a ^ 2 * gdet d C /\
  gquad d (fun i j => a i * C i j * a j) (fun i => a i * z i) = gquad d C z.
Proof.
  induction d as [|d IH]; intros C a z P N; cbn [Piv gdet gquad prodf]; [split; [exact Logic.I|split; [ring|reflexivity]]|].
  destruct P as [P0 P]. pose proof (N 0%nat ltac:(lia)) as N0.
  assert (A2 : 0 < a 0%nat * C 0%nat 0%nat * a 0%nat). { pose proof (Rsqr_pos_lt _ N0) as Q. unfold Rsqr in Q. nra. }
  assert (E : schur (fun i j => a i * C i j * a j) = (fun i j => a (S i) * schur C i j * a (S j))).
  { extensionality i. extensionality j. unfold schur. field. lra. }
  destruct (IH (schur C) (fun i => a (S i)) (fun i => z (S i) - C (S i) 0%nat * z 0%nat / C 0%nat 0%nat) P) as (Q1 & Q2 & Q3);
    [intros; apply N; lia|].
  rewrite E. split; [split; [exact A2|exact Q1]|]. split; [rewrite Q2; ring|].
  replace (fun i : nat => a (S i) * z (S i) - a (S i) * C (S i) 0%nat * a 0%nat * (a 0%nat * z 0%nat) / (a 0%nat * C 0%nat 0%nat * a 0%nat))
    with (fun i : nat => a (S i) * (z (S i) - C (S i) 0%nat * z 0%nat / C 0%nat 0%nat)) by (extensionality i; field; lra).
  rewrite Q3. f_equal. field. lra.
Qed.

(** the elimination value is z . y for the solution y of C y = z *)
Lemma gquad_solution d : forall (C : mat) (z y : vec), Sym C -> Piv d C ->
  (forall i, (i < d)%nat -> inner d (C i) y = z i) -> gquad d C z = inner d z y.
Proof.
  induction d as [|d IH]; intros C z y Sy P E; [reflexivity|]. cbn [gquad Piv] in *. destruct P as [P0 P].
  set (b := Sum d (fun j => C 0%nat (S j) * y (S j))).
  assert (E0 : C 0%nat 0%nat * y 0%nat + b = z 0%nat) by (rewrite <- (E 0%nat ltac:(lia)); unfold inner; rewrite Sum_S; reflexivity).
  rewrite (IH (schur C) _ (fun i => y (S i)) (schur_sym C Sy) P).
  - unfold inner. rewrite Sum_S.
    rewrite (Sum_ext d _ (fun i => z (S i) * y (S i) - (C 0%nat (S i) * y (S i)) * (z 0%nat / C 0%nat 0%nat))).
    + rewrite sumf_minus, sumf_scal_r. fold b. replace b with (z 0%nat - C 0%nat 0%nat * y 0%nat) by lra. field. lra.
    + intros i _. rewrite (Sy (S i) 0%nat). field. lra.
  - intros i Hi. pose proof (E (S i) ltac:(lia)) as Ei. unfold inner in *. rewrite Sum_S in Ei.
    rewrite (Sum_ext d _ (fun j => C (S i) (S j) * y (S j) - (C (S i) 0%nat / C 0%nat 0%nat) * (C 0%nat (S j) * y (S j)))).
    + rewrite sumf_minus, sumf_scal. fold b. replace b with (z 0%nat - C 0%nat 0%nat * y 0%nat) by lra. rewrite <- Ei. field. lra.
    + intros j _. unfold schur. field. lra.
Qed.
