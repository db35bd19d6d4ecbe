(** Specification vocabulary: cross-entropy of two samples. *)
From Coq Require Import Reals List Arith.
From Verif Require Import RSum Spec.
Import ListNotations.
Local Open Scope R_scope.

Section Cross.
Context {A : Type} `{EqDec A}.
(** the values that occur in both samples *)
Definition shared (ps qs : list A) : list A := filter (fun v => if in_dec eq_dec v qs then true else false) (distinct ps).
(** the weighted sum of -ln q over the shared values, for two weightings *)
Definition shared_sum (p q : A -> R) (ps qs : list A) : R := - sumf (fun v => p v * ln (q v)) (shared ps qs).
(** cross-entropy of the empirical distributions, restricted to the shared values *)
Definition CrossEnt (ps qs : list A) : R := shared_sum (prob ps) (prob qs) ps qs.
(** the full cross-entropy - sum p ln q over all values of the first sample (only sensible if they all occur in the second) *)
Definition FullCross (ps qs : list A) : R := - sumf (fun v => prob ps v * ln (prob qs v)) (distinct ps).
End Cross.
