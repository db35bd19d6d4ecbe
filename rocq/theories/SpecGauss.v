(** Independent specification of one-dimensional Gaussian kernel density estimates. *)
From Coq Require Import Reals List Arith.
From Verif Require Import RSum Spec SpecBase.
Import ListNotations.
Local Open Scope R_scope.

(** the normal density with mean [m] and standard deviation [s] at [q] *)
Definition normal (m s q : R) : R := exp (- ((q - m) / s) ^ 2 / 2) / (s * sqrt (2 * PI)).
(** the sample standard deviation (denominator N - 1) *)
Definition stdev (xs : list R) : R :=
  sqrt (sumf (fun x => (x - mean xs) ^ 2) xs / (INR (length xs) - 1)).
(** the kernel density estimate: the average of the normal densities around the samples, whose standard deviation is
    the bandwidth factor times that of the data *)
Definition gdensity (h : R) (xs : list R) (q : R) : R := mean (map (fun x => normal x (h * stdev xs) q) xs).
(** the entropy estimate: the mean of - ln density over the samples *)
Definition GH (h : R) (xs : list R) : R := mean (map (fun q => - ln (gdensity h xs q)) xs).
(** not all samples are equal *)
Definition varied (xs : list R) : Prop := exists x y, In x xs /\ In y xs /\ x <> y.
