(** Specification: relative frequency of an event, total variation. *)
From Coq Require Import Reals List.
From Verif Require Import RSum Spec.
Local Open Scope R_scope.

(** the fraction of the sample points that lie in the event [A] *)
Definition share {T} (A : T -> bool) (xs : list T) : R := INR (length (filter A xs)) / INR (length xs).

(** total variation distance of the empirical distributions: half the sum of the absolute differences *)
Definition TV {T} `{EqDec T} (ps qs : list T) : R :=
  sumf (fun v => Rabs (prob ps v - prob qs v)) (distinct (ps ++ qs)) / 2.
