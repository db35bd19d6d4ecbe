(** Independent specification: the gamma function is log-convex on the positive reals, and what it means that a result is
    continuous in its order at 1. *)
From Coq Require Import Reals List Arith.
From Verif Require Import Res SpecBase SpecKern SpecKnn.
Local Open Scope R_scope.

(** the logarithm of [G] is convex on the positive reals (with [is_gamma] this is the characterisation of Bohr and
    Mollerup) *)
Definition log_convex (G : R -> R) : Prop :=
  forall x y t, 0 < x -> 0 < y -> 0 <= t <= 1 ->
    ln (G (t * x + (1 - t) * y)) <= t * ln (G x) + (1 - t) * ln (G y).

(** for orders near, but different from, 1 the result [f q] is a number near [v] *)
Definition tends_at_one (f : R -> res R) (v : R) : Prop :=
  forall eps, 0 < eps -> exists del, 0 < del /\
    forall q, 0 < Rabs (q - 1) < del -> exists w, f q = Ok w /\ Rabs (w - v) < eps.
(** ... and [v] is the result for order 1 *)
Definition continuous_at_one (f : R -> res R) : Prop := exists v, f 1 = Ok v /\ tends_at_one f v.

(** no sample of the joint variable [vars] coincides with [k] or more of the others: its k-th nearest neighbour is at a
    positive distance *)
Definition separated (n k : nat) (vars : list (list (list R))) : Prop :=
  forall t e, (t < n)%nat -> kth_neighbour (Some 2) n vars k t e -> 0 < e.
