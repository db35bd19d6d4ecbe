(** Specification: arguments in memory.  [valid h x]: an array argument lies in a buffer of the memory [h] (lists are values and
    need nothing); [value_of h x]: the numbers a caller sees in the argument. *)
From Coq Require Import Reals List Arith.
From Verif Require Import Res MCont MHeap.
Import ListNotations.

Definition valid (h : heap) (x : pyarg) : Prop :=
  match x with PArr a => (nd_buf a < length h)%nat | PList _ => True end.
Definition value_of (h : heap) (x : pyarg) : farr :=
  match x with PArr a => contents h a | PList v => v end.
Definition valid_in (h : heap) (i : pyinput) : Prop :=
  match i with PyVar x => valid h x | PyTuple xs => Forall (valid h) xs end.
Definition value_in (h : heap) (i : pyinput) : finput :=
  match i with PyVar x => FArr (value_of h x) | PyTuple xs => FTuple (map (value_of h) xs) end.

(** a call [m] started in the memory [h] leaves every buffer that existed before as it was (it may allocate new ones at the end),
    whatever its outcome *)
Definition preserves {A} (m : prog A) (h : heap) : Prop := exists new, fst (m h) = h ++ new.
(** ... and returns [r] (a value or an exception) *)
Definition gives_value {A} (m : prog A) (h : heap) (r : res A) : Prop := snd (m h) = r.
