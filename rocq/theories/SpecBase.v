(** Specification vocabulary shared by the property theorems: usable logarithm bases. *)
From Coq Require Import Reals List ZArith.
From Verif Require Import Res RSum Spec MBase.
Import ListNotations.
Local Open Scope R_scope.

(** bases the documentation allows: ["e"], or a positive number different from 1 *)
Definition valid_base (b : base) : Prop :=
  match b with BE => True | BNum r => 0 < r /\ r <> 1 end.

(** natural logarithm of the base: dividing nats by it gives base-[b] units *)
Definition unit_of (b : base) : R := match b with BE => 1 | BNum r => ln r end.

(** bases larger than one (logarithm increasing) *)
Definition big_base (b : base) : Prop := match b with BE => True | BNum r => 1 < r end.

(** arithmetic mean *)
Definition mean (l : list R) : R := sumR l / INR (length l).

(** all 1-D arrays have length [n] *)
Definition all_len {A} (n : nat) (cols : list (list A)) : Prop := Forall (fun c => length c = n) cols.
