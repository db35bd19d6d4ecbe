(** Specification: divergences of finite distributions given by probability functions. *)
From Coq Require Import Reals List.
From Verif Require Import RSum Spec.
Import ListNotations.
Local Open Scope R_scope.

(** a probability function with support [U] *)
Definition is_pmf {K} (U : list K) (p : K -> R) : Prop :=
  NoDup U /\ (forall v, In v U -> 0 < p v) /\ (forall v, ~ In v U -> p v = 0) /\ sumf p U = 1.

(** Shannon entropy, in nats *)
Definition PEnt {K} (U : list K) (p : K -> R) : R := - sumf (fun v => p v * ln (p v)) U.

(** Kullback-Leibler divergence (for supp p inside supp q) *)
Definition PKL {K} (U : list K) (p q : K -> R) : R := sumf (fun v => p v * ln (p v / q v)) U.

(** equal-weight mixture and Jensen-Shannon divergence of a non-empty list of distributions (support,
    probability function) *)
Definition pmix {K} (ps : list (list K * (K -> R))) (v : K) : R := sumf (fun d => snd d v) ps / INR (length ps).
Definition PJSD {K} `{EqDec K} (ps : list (list K * (K -> R))) : R :=
  PEnt (distinct (concat (map fst ps))) (pmix ps) - sumf (fun d => PEnt (fst d) (snd d)) ps / INR (length ps).

(** a function cut off outside a finite support *)
Definition restrict {K} `{EqDec K} (U : list K) (f : K -> R) (v : K) : R := if in_dec eq_dec v U then f v else 0.
