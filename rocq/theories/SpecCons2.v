(** Specification vocabulary for C117: limits of cross-entropy, Kullback-Leibler and Jensen-Shannon divergence. *)
From Coq Require Import Reals List.
From Verif Require Import RSum Spec SpecCons.
Import ListNotations.
Local Open Scope R_scope.

(** cross-entropy (nats) of the distributions [p] and [q] on the alphabet [U]; [q] is positive on [U] *)
Definition limit_cross {A} (U : list A) (p q : A -> R) : R := - sumf (fun u => p u * ln (q u)) U.

(** Kullback-Leibler divergence (nats) of [p] from [q]; symbols of probability 0 contribute nothing *)
Definition limit_kl {A} (U : list A) (p q : A -> R) : R :=
  sumf (fun u => if Req_EM_T (p u) 0 then 0 else p u * ln (p u / q u)) U.

(** Jensen-Shannon divergence (nats): entropy of the equal-weight mixture minus the average entropy *)
Definition limit_js {A} (U : list A) (ps : list (A -> R)) : R :=
  limit_entropy U (fun u => sumf (fun p => p u) ps / INR (length ps))
  - sumf (limit_entropy U) ps / INR (length ps).
