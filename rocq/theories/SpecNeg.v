(** Specification vocabulary of C09: what a negative base does to a call that works in nats. *)
From Coq Require Import Reals List.
From Verif Require Import Res.
Import ListNotations.
Local Open Scope R_scope.

(** [neg] is the outcome with a negative base, [nats] that of the same call with base "e":
    if the latter is a number, the former is a ValueError *)
Definition refused {A} (neg nats : res A) : Prop := forall v, nats = Ok v -> neg = Raise ValueError.
(** the same, except that a result that is 0 without any logarithm being taken is still 0 *)
Definition refused_or_zero (neg nats : res R) : Prop :=
  forall v, nats = Ok v -> neg = Raise ValueError \/ (neg = Ok 0 /\ v = 0).
Definition refused_or_zeros (neg nats : res (list R)) : Prop :=
  forall ls, nats = Ok ls -> neg = Raise ValueError \/ (exists n, neg = Ok (repeat 0 n) /\ ls = repeat 0 n).
