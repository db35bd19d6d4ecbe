(** Specification: every s-th element of a series (Python's [x[::s]]). *)
From Coq Require Import Reals List ZArith Arith Lia.
From Verif Require Import MBase MTE MCont.
Import ListNotations.
Local Open Scope nat_scope.

(** skip [k] elements, take one, skip [s - 1], take one, ... *)
Fixpoint thin {A} (k s : nat) (l : list A) : list A :=
  match l with
  | [] => []
  | x :: r => match k with O => x :: thin (s - 1) s r | S k' => thin k' s r end
  end.
Definition every {A} (s : nat) (l : list A) : list A := thin 0 s l.

(** element [i] of [x[::s]] is element [i * s] of [x] *)
Lemma thin_nth {A} s (l : list A) : 1 <= s -> forall k i, nth_error (thin k s l) i = nth_error l (k + i * s).
Proof.
  intros Hs. induction l as [|x l IH]; intros k i; cbn [thin].
  - destruct i, (k + _); reflexivity.
  - destruct k as [|k].
    + destruct i as [|i]; [reflexivity|]. cbn [nth_error]. rewrite IH.
      replace (0 + S i * s) with (S (s - 1 + i * s)) by lia. reflexivity.
    + rewrite IH. reflexivity.
Qed.
Lemma every_nth {A} s (l : list A) i : 1 <= s -> nth_error (every s l) i = nth_error l (i * s).
Proof. intros Hs. unfold every. rewrite thin_nth by exact Hs. reflexivity. Qed.

Example every_example : every 3 [10; 11; 12; 13; 14; 15; 16] = [10; 13; 16] /\ every 1 [1; 2; 3] = [1; 2; 3].
Proof. split; reflexivity. Qed.

(** the same for the arrays a user passes (rows of a 2-D array), and the same call with another step size *)
Definition sub_arr (s : nat) (a : arr) : arr := match a with A1 xs => A1 (every s xs) | A2 rs => A2 (every s rs) end.
Definition sub_farr (s : nat) (a : farr) : farr := match a with F1 xs => F1 (every s xs) | F2 rs => F2 (every s rs) end.
Definition with_step (a : te_args) (n : nat) : te_args :=
  mkTE (a_src a) (a_dest a) (a_cond a) (NInt (Z.of_nat n)) (a_prop a) (a_offset a).
