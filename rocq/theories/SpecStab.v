(** Specification vocabulary for stability: how many entries of two equally long records differ, and the amount by which
    one changed sample point can move an entropy of [n] sample points, in nats. *)
From Coq Require Import Reals List Arith.
From Verif Require Import RSum Spec.
Import ListNotations.
Local Open Scope R_scope.

Fixpoint changed {A} `{EqDec A} (xs ys : list A) : nat :=
  match xs, ys with
  | x :: xs, y :: ys => ((if eq_dec x y then 0 else 1) + changed xs ys)%nat
  | _, _ => 0%nat
  end.

Definition one_change (n : nat) : R := (1 + ln (INR n)) / INR n.
