(** Specification: the same measurements in another unit and from another origin. *)
From Coq Require Import Reals List.
From Verif Require Import SpecKern.
Import ListNotations.
Local Open Scope R_scope.

(** every sample multiplied by [a] (the common factor of the unit, negative for a reversed axis) and moved by [c] *)
Definition move_pt (a : R) (c x : list R) : list R := vadd c (map (Rmult a) x).
Definition moved (a : R) (c : list R) (v : list (list R)) : list (list R) := map (move_pt a c) v.
