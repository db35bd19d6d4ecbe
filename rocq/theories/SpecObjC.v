(** Specification vocabulary: significance tests on numeric data. *)
From Coq Require Import Reals List ZArith Arith Permutation Sorted.
From Verif Require Import Res RSum Spec MBase MTE MObj SpecObj.
Import ListNotations.

(** what an object reports for a result of the functional interface *)
Definition reported (r : res R) : option fl :=
  match r with Ok x => Some (Fin x) | NonFinite => Some NonFin | Raise _ => None end.

(** rows used by a surrogate: the same rows in another order; or as many rows, drawn from the original ones *)
Definition redrawn {A} (m : method) (X X' : list A) : Prop :=
  match m with MPermute => Permutation X X' | _ => length X' = length X /\ incl X' X end.

(** row numbers a method may draw *)
Definition legal_rows (m : method) (rows : nat) (rnd : rand) : Prop :=
  match m, rnd with
  | MPermute, RPermute js => Permutation js (seq 0 rows)
  | MBootstrap, RResample js => length js = rows /\ Forall (fun j => (j < rows)%nat) js
  | _, _ => False
  end.
(** positions of the generator, each beyond the one before, from [lo] on and not beyond [hi] *)
Definition successive (lo hi : nat) (qs : list nat) : Prop :=
  StronglySorted lt qs /\ Forall (fun q => lo <= q <= hi) qs.
