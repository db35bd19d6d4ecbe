(** Specification vocabulary for C118: symbols encoded by numbers that are further apart than half a bandwidth. *)
From Coq Require Import Reals List ZArith.
From Verif Require Import Spec MBase MCont.
Import ListNotations.
Local Open Scope R_scope.

(** different symbols are encoded by numbers more than [h / 2] apart *)
Definition spread (h : R) (f : Z -> R) : Prop := forall a b, a <> b -> h / 2 < Rabs (f a - f b).

(** the array with every symbol replaced by its number *)
Definition encode (f : Z -> R) (a : arr) : farr :=
  match a with A1 xs => F1 (map f xs) | A2 rs => F2 (map (map f) rs) end.

(** an array of [n] samples with [d] coordinates each *)
Definition shaped (n d : nat) (a : arr) : Prop := arr_len a = n /\ Forall (fun r => length r = d) (arr_rows a).

(** the share of the samples [ps] whose symbol also occurs among [qs] *)
Definition covered (ps qs : list Z) : R :=
  INR (length (filter (fun v => if in_dec Z.eq_dec v qs then true else false) ps)) / INR (length ps).
