(** Specification: collections of records with one left out (C122). *)
From Coq Require Import List Arith.
Import ListNotations.
(** all records but the one at position [i] *)
Definition without {A} (i : nat) (cols : list A) : list A := firstn i cols ++ skipn (S i) cols.
