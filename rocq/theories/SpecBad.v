(** Specification vocabulary of C09: bases that cannot be used, and calls that do not return a wrong number. *)
From Coq Require Import Reals List.
From Verif Require Import Res SpecBase MBase MGeneric.
Import ListNotations.
Local Open Scope R_scope.

(** a number that is negative, zero or one is not the base of any logarithm *)
Definition unusable (b : base) : Prop := exists r, b = BNum r /\ (r <= 0 \/ r = 1).
Definition negative_or_one (b : base) : Prop := exists r, b = BNum r /\ (r < 0 \/ r = 1).
(** the call raises, is not finite, or returns 0: there is no number that could be taken for a result *)
Definition no_wrong_number (r : res R) : Prop := forall v, r = Ok v -> v = 0.
Definition no_wrong_local (r : res (list R)) : Prop := forall ls, r = Ok ls -> forall v, In v ls -> v = 0.
Definition no_wrong_value (r : res value) : Prop :=
  (forall v, r = Ok (VNum v) -> v = 0) /\ (forall ls, r = Ok (VArr ls) -> forall v, In v ls -> v = 0).
