(** Specification vocabulary: a data set written down several times. *)
From Coq Require Import List ZArith Arith.
From Verif Require Import MBase MData.
Import ListNotations.

Definition rep {A} (m : nat) (xs : list A) : list A := concat (repeat xs m).

(** the array containing the samples of [a] [m] times, one copy after the other *)
Definition copies (m : nat) (a : arr) : arr :=
  match a with A1 xs => A1 (rep m xs) | A2 rs => A2 (rep m rs) end.

(** the same for one array or a tuple of arrays (every array is copied) *)
Definition input_copies (m : nat) (i : einput) : einput :=
  match i with EArr a => EArr (copies m a) | ETuple cols => ETuple (map (copies m) cols) end.
