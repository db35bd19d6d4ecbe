(** Specification vocabulary of C08: what "only the unit changes" means. *)
From Coq Require Import Reals List.
From Verif Require Import Res RSum Spec SpecBase MBase MGeneric.
Import ListNotations.
Local Open Scope R_scope.

(** [r] is the outcome of a call with base [b], [r'] the outcome of the same call with base "e": both are numbers
    and the first times ln b is the second, or both are not finite, or both raise the same exception *)
Definition only_unit (b : base) (r r' : res R) : Prop :=
  match r, r' with
  | Ok v, Ok w => v * unit_of b = w
  | NonFinite, NonFinite => True
  | Raise e, Raise e' => e = e'
  | _, _ => False
  end.
(** the same for an array of local values: the same length, every entry rescaled *)
Definition only_unit_local (b : base) (r r' : res (list R)) : Prop :=
  match r, r' with
  | Ok ls, Ok ms => map (fun v => v * unit_of b) ls = ms
  | NonFinite, NonFinite => True
  | Raise e, Raise e' => e = e'
  | _, _ => False
  end.
(** the same for estimators that return a number for some approaches and local values for others *)
Definition only_unit_value (b : base) (r r' : res value) : Prop :=
  match r, r' with
  | Ok (VNum v), Ok (VNum w) => v * unit_of b = w
  | Ok (VArr ls), Ok (VArr ms) => map (fun v => v * unit_of b) ls = ms
  | NonFinite, NonFinite => True
  | Raise e, Raise e' => e = e'
  | _, _ => False
  end.
