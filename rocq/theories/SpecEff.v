(** Specification vocabulary: effective transfer entropy and the draws a history of calls makes. *)
From Coq Require Import Reals List ZArith Arith.
From Verif Require Import Res RSum Spec MBase MTE MObj SpecObj.
Import ListNotations.

(** the number an [effective_val] call returned *)
Definition effective (a : out answer) : option fl :=
  match a with inr (AEff g v) => Some (fl_sub g v) | _ => None end.

(** surrogates made by one call: one per effective value, [n] per test with [n] surrogates; a call with an unknown
    method makes none *)
Definition draws (c : op) : nat :=
  match c with
  | OpEffective MUnknown | OpTest _ MUnknown => 0
  | OpEffective _ => 1
  | OpTest (NInt n) _ => Z.to_nat n
  | _ => 0
  end.
Definition drawn (h : list op) : nat := fold_right Nat.add 0 (map draws h).

(** the randomised source rows used for the draw number [q]: [rows] row numbers *)
Definition surrogate (pd bd : nat -> nat -> list nat) (rows : nat) (m : method) (q : nat) : rand :=
  match m with MPermute => RPermute (pd q rows) | _ => RResample (bd q rows) end.
