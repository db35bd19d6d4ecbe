(** Specification: error terms of cross-entropy and divergences in double precision. *)
From Coq Require Import Reals List ZArith Permutation.
From Verif Require Import RSum Spec SpecBase MBase MFloat SpecFloat SpecCross.
Local Open Scope R_scope.

(** an iteration order of sets: any order of the elements *)
Definition set_order (ord : list Z -> list Z) : Prop := forall l, NoDup l -> Permutation (ord l) l.

(** absolute error of a sum of [n] terms [p ln q] whose exact value is [h] *)
Definition sum_err (E : fenv) (b : base) (eps : R) (n : nat) (h : R) : R :=
  gam E b eps n * h + (1 + gam E b eps n) * (2 * uro / unit_of b).

(** error factor when sums are nested at most [D] deep and [n] samples are compared *)
Definition gam_n (b : base) (eps : R) (D n : nat) : R := (1 + uro) ^ (D + n + 3) * (1 + base_eps b eps) - 1.

(** Kullback-Leibler divergence: cross-entropy [hc] over [n] symbols, entropy [h] over [m] symbols *)
Definition kld_err (E : fenv) (b : base) (eps : R) (n m : nat) (hc h : R) : R :=
  (1 + 2 * uro) * (sum_err E b eps n hc + sum_err E b eps m h) + uro * Rabs (hc - h).

(** Jensen-Shannon divergence [j] of [n] samples whose entropies have the mean [hbar] *)
Definition jsd_err (b : base) (eps : R) (D n : nat) (j hbar : R) : R :=
  let g := gam_n b eps D n in (1 + 2 * uro) * (g * (j + 2 * hbar) + (1 + g) * (2 * (INR n + 4) * uro / unit_of b)) + uro * j.
