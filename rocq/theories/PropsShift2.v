(** C98: a shift given as an argument is a shift by hand, for every approach, both directions and any size of the shift. *)
From Coq Require Import Reals Lra Lia List ZArith Arith Bool.
From Verif Require Import Res RSum Spec SpecBase MBase MData MMI MTE MGeneric MNsb MComb MCont MKern MKnn MFam MOrd PropsTE PropsShift.
Import ListNotations.
Local Open Scope R_scope.

(** an array without its last / first [k] samples ([a[:-k]] for [k > 0], [a[k:]]) *)
Definition without_last (k : nat) (a : arr) : arr :=
  match a with A1 xs => A1 (firstn (length xs - k) xs) | A2 rs => A2 (firstn (length rs - k) rs) end.
Definition without_first (k : nat) (a : arr) : arr := match a with A1 xs => A1 (skipn k xs) | A2 rs => A2 (skipn k rs) end.
Definition fwithout_last (k : nat) (a : farr) : farr :=
  match a with F1 xs => F1 (firstn (length xs - k) xs) | F2 rs => F2 (firstn (length rs - k) rs) end.
Definition fwithout_first (k : nat) (a : farr) : farr := match a with F1 xs => F1 (skipn k xs) | F2 rs => F2 (skipn k rs) end.

Lemma upto_last k a : py_upto_or (- Z.of_nat k) a = without_last k a.
Proof.
  unfold py_upto_or, py_upto. destruct (Z.eqb_spec (- Z.of_nat k) 0) as [E|E].
  - assert (k = 0)%nat by lia. subst k. destruct a; cbn [without_last]; rewrite Nat.sub_0_r, firstn_all; reflexivity.
  - destruct (Z.ltb_spec (- Z.of_nat k) 0); [|lia]. destruct a as [xs|rs]; cbn [without_last arr_len]; do 2 f_equal; lia.
Qed.
Lemma from_first k a : py_from (Z.of_nat k) a = without_first k a.
Proof.
  unfold py_from. destruct (Z.ltb_spec (Z.of_nat k) 0); [lia|]. destruct a as [xs|rs]; cbn [without_first]; do 2 f_equal; lia.
Qed.
Lemma fupto_last {A} k (l : list A) : fupto_or (- Z.of_nat k) l = firstn (length l - k) l.
Proof.
  unfold fupto_or, fupto. destruct (Z.eqb_spec (- Z.of_nat k) 0) as [E|E].
  - assert (k = 0)%nat by lia. subst k. rewrite Nat.sub_0_r, firstn_all. reflexivity.
  - destruct (Z.ltb_spec (- Z.of_nat k) 0); [|lia]. f_equal. lia.
Qed.
Lemma ffrom_first {A} k (l : list A) : ffrom (Z.of_nat k) l = skipn k l.
Proof. unfold ffrom. destruct (Z.ltb_spec (Z.of_nat k) 0); [lia|]. f_equal. lia. Qed.
Lemma without_lens k a a' : arr_len a = arr_len a' -> arr_len (without_last k a) = arr_len (without_first k a').
Proof. intros L. destruct a, a'; cbn [arr_len without_last without_first] in *; rewrite firstn_length, skipn_length; lia. Qed.
Lemma frows_last k a : rows2d (fwithout_last k a) = firstn (length (rows2d a) - k) (rows2d a).
Proof. destruct a; cbn [fwithout_last rows2d]; [rewrite map_length, firstn_map; reflexivity|reflexivity]. Qed.
Lemma frows_first k a : rows2d (fwithout_first k a) = skipn k (rows2d a).
Proof. destruct a; cbn [fwithout_first rows2d]; [rewrite skipn_map; reflexivity|reflexivity]. Qed.

(** the constructor: a source shifted by [p] steps of [s] samples into the past (then: future) *)
Lemma te_init_forward x y p s : arr_len x = arr_len y ->
  te_init x y (Some (NInt (Z.of_nat p))) None (NInt (Z.of_nat s)) = Ok (without_last (p * s) x, without_first (p * s) y).
Proof.
  intros L. unfold te_init. cbn [none_or_0 negb bind]. rewrite L, Nat.eqb_refl. cbn [negb].
  destruct (Z.eqb_spec (Z.of_nat p) 0) as [P|P].
  - assert (p = 0%nat) by lia. subst p. cbn [Nat.mul]. destruct x, y; cbn [without_last without_first skipn]; rewrite ?Nat.sub_0_r, ?firstn_all; reflexivity.
  - destruct (Z.ltb_spec 0 (Z.of_nat p)); [|lia]. rewrite Z.mul_opp_l, <- Nat2Z.inj_mul, upto_last, from_first. reflexivity.
Qed.
Lemma te_init_backward x y p s : arr_len x = arr_len y ->
  te_init x y (Some (NInt (- Z.of_nat p))) None (NInt (Z.of_nat s)) = Ok (without_first (p * s) x, without_last (p * s) y).
Proof.
  intros L. unfold te_init. cbn [none_or_0 negb bind]. rewrite L, Nat.eqb_refl. cbn [negb].
  destruct (Z.eqb_spec (- Z.of_nat p) 0) as [P|P].
  - assert (p = 0%nat) by lia. subst p. cbn [Nat.mul]. destruct x, y; cbn [without_last without_first skipn]; rewrite ?Nat.sub_0_r, ?firstn_all; reflexivity.
  - destruct (Z.ltb_spec 0 (- Z.of_nat p)); [lia|]. rewrite Z.opp_involutive, Z.mul_opp_l, <- Nat2Z.inj_mul, upto_last, from_first. reflexivity.
Qed.
Lemma te_init_none x y s : arr_len x = arr_len y -> te_init x y (Some (NInt 0)) None s = Ok (x, y).
Proof. intros L. unfold te_init. cbn [none_or_0 negb bind]. rewrite L, Nat.eqb_refl. reflexivity. Qed.
Lemma fte_init_forward X Y p s : length X = length Y ->
  fte_init X Y (Some (NInt (Z.of_nat p))) None (NInt (Z.of_nat s)) = Ok (firstn (length X - p * s) X, skipn (p * s) Y).
Proof.
  intros L. unfold fte_init. cbn [none_or_0 negb bind]. rewrite L, Nat.eqb_refl. cbn [negb].
  destruct (Z.eqb_spec (Z.of_nat p) 0) as [P|P].
  - assert (p = 0%nat) by lia. subst p. cbn [Nat.mul skipn]. rewrite Nat.sub_0_r, <- L, firstn_all. reflexivity.
  - destruct (Z.ltb_spec 0 (Z.of_nat p)); [|lia]. rewrite Z.mul_opp_l, <- Nat2Z.inj_mul, fupto_last, ffrom_first, L. reflexivity.
Qed.
Lemma fte_init_backward X Y p s : length X = length Y ->
  fte_init X Y (Some (NInt (- Z.of_nat p))) None (NInt (Z.of_nat s)) = Ok (skipn (p * s) X, firstn (length Y - p * s) Y).
Proof.
  intros L. unfold fte_init. cbn [none_or_0 negb bind]. rewrite L, Nat.eqb_refl. cbn [negb].
  destruct (Z.eqb_spec (- Z.of_nat p) 0) as [P|P].
  - assert (p = 0%nat) by lia. subst p. cbn [Nat.mul skipn]. rewrite Nat.sub_0_r, firstn_all. reflexivity.
  - destruct (Z.ltb_spec 0 (- Z.of_nat p)); [lia|]. rewrite Z.opp_involutive, Z.mul_opp_l, <- Nat2Z.inj_mul, fupto_last, ffrom_first. reflexivity.
Qed.
Lemma fte_init_none X Y s : length X = length Y -> fte_init X Y (Some (NInt 0)) None s = Ok (X, Y).
Proof. intros L. unfold fte_init. cbn [none_or_0 negb bind]. rewrite L, Nat.eqb_refl. reflexivity. Qed.

Theorem C98_te_shift_symbols : forall b c E Kg und x y t rnd p s, arr_len x = arr_len y -> a_step t = NInt (Z.of_nat s) ->
  symbol_te b c E Kg und x y (with_prop t (Some (NInt (Z.of_nat p))) None) rnd =
  symbol_te b c E Kg und (without_last (p * s) x) (without_first (p * s) y) (with_prop t (Some (NInt 0)) None) rnd /\
  symbol_te b c E Kg und x y (with_prop t (Some (NInt (- Z.of_nat p))) None) rnd =
  symbol_te b c E Kg und (without_first (p * s) x) (without_last (p * s) y) (with_prop t (Some (NInt 0)) None) rnd.
Proof.
  intros b c E Kg und x y t rnd p s L S. pose proof (without_lens (p * s) x y L) as L1. pose proof (without_lens (p * s) y x (eq_sym L)) as L2.
  unfold symbol_te, te_gen, te_gen_local, ansb_te, nsb_te, MGeneric.gen_te. cbn [with_prop a_prop a_offset a_step a_src a_dest a_cond]. rewrite S.
  rewrite !(te_init_forward x y p s L), !(te_init_backward x y p s L), !(te_init_none _ _ _ L1), !(te_init_none _ _ _ (eq_sym L2)).
  split; reflexivity.
Qed.
Print Assumptions C98_te_shift_symbols.

Theorem C98_te_shift_numeric_any : forall E N k a e noise x y t rnd p s, flen x = flen y -> a_step t = NInt (Z.of_nat s) ->
  numeric_te E N k a e noise x y (with_prop t (Some (NInt (Z.of_nat p))) None) rnd =
  numeric_te E N k a e noise (fwithout_last (p * s) x) (fwithout_first (p * s) y) (with_prop t (Some (NInt 0)) None) rnd /\
  numeric_te E N k a e noise x y (with_prop t (Some (NInt (- Z.of_nat p))) None) rnd =
  numeric_te E N k a e noise (fwithout_first (p * s) x) (fwithout_last (p * s) y) (with_prop t (Some (NInt 0)) None) rnd.
Proof.
  intros E N k a e noise x y t rnd p s L S.
  assert (LR : length (rows2d x) = length (rows2d y)) by (destruct x, y; cbn [rows2d flen] in *; rewrite ?map_length; exact L).
  unfold numeric_te, kernel_te, kernel_te_local, ksg_te, ksg_te_local, fam_te. cbn [with_prop a_prop a_offset a_step a_src a_dest a_cond].
  rewrite S, !frows_last, !frows_first.
  rewrite !(fte_init_forward _ _ p s LR), !(fte_init_backward _ _ p s LR).
  rewrite !(fte_init_none (firstn (length (rows2d x) - p * s) (rows2d x)) (skipn (p * s) (rows2d y))) by (rewrite firstn_length, skipn_length; lia).
  rewrite !(fte_init_none (skipn (p * s) (rows2d x)) (firstn (length (rows2d y) - p * s) (rows2d y))) by (rewrite firstn_length, skipn_length; lia).
  split; reflexivity.
Qed.
Print Assumptions C98_te_shift_numeric_any.

Example C98_shift_example : without_last 2 (A1 [1; 2; 3; 4; 5])%Z = A1 [1; 2; 3]%Z /\ without_first 2 (A1 [1; 2; 3; 4; 5])%Z = A1 [3; 4; 5]%Z /\
  without_last 9 (A1 [1; 2]%Z) = A1 [] /\ a_step te_default = NInt (Z.of_nat 1).
Proof. repeat split. Qed.
