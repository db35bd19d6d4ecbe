(** Specification vocabulary for invariances: renaming the symbols of a variable, reordering the samples. *)
From Coq Require Import List ZArith Arith.
From Verif Require Import MBase MData.
Import ListNotations.

(** [f] keeps the values occurring in [xs] apart *)
Definition inj_on {A B} (f : A -> B) (xs : list A) : Prop := forall x y, In x xs -> In y xs -> f x = f y -> x = y.

(** [a'] is [a] with every symbol (number, or row of a 2-D array) renamed, different symbols staying different;
    the new symbols may have another width, for instance codes of the rows *)
Definition relabelled (a a' : arr) : Prop :=
  exists f : list Z -> list Z, inj_on f (arr_rows a) /\ arr_rows a' = map f (arr_rows a).

(** the samples number [sg] of an array, in that order *)
Definition pick (sg : list nat) (a : arr) : arr :=
  match a with
  | A1 xs => A1 (map (fun j => nth j xs 0%Z) sg)
  | A2 rs => A2 (map (fun j => nth j rs []) sg)
  end.

(** all rows of a table have the same width (always so for a numpy array) *)
Definition table (a : arr) : Prop := exists w, forall r, In r (arr_rows a) -> length r = w.
