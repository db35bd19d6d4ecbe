(** Specification: predicting a sequence from a context sequence; logarithmic loss. *)
From Coq Require Import Reals List.
From Verif Require Import RSum Spec.
Local Open Scope R_scope.

(** [q c x] is the probability a predictor gives to symbol [x] in context [c]: nonnegative, in every context that occurs at
    most 1 altogether, and positive for what really happens *)
Definition predictor {C A} `{EqDec A} (cs : list C) (xs : list A) (q : C -> A -> R) : Prop :=
  (forall c x, 0 <= q c x) /\ (forall c, In c cs -> sumf (q c) (distinct xs) <= 1) /\
  (forall c x, In (c, x) (combine cs xs) -> 0 < q c x).

(** average logarithmic loss, in nats *)
Definition log_loss {C A} (cs : list C) (xs : list A) (q : C -> A -> R) : R :=
  sumf (fun p => - ln (q (fst p) (snd p))) (combine cs xs) / INR (length xs).

(** the smallest loss any predictor can reach, and that one does *)
Definition best_loss {C A} `{EqDec A} (cs : list C) (xs : list A) (l : R) : Prop :=
  (exists q, predictor cs xs q /\ log_loss cs xs q = l) /\ (forall q, predictor cs xs q -> l <= log_loss cs xs q).

(** entropy in nats of a coin with bias [e]; 0 ln 0 = 0 *)
Definition coin (e : R) : R := - (e * ln e) - (1 - e) * ln (1 - e).
