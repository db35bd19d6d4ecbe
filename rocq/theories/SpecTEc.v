(** Specification of the time-delay embedding of numeric (possibly vector-valued) series. *)
From Coq Require Import Reals List Arith.
From Verif Require Import SpecTE.
Import ListNotations.

(** the past of a series at every base time as one vector, oldest value first; the values at the base times *)
Definition past_pts (rows : list (list R)) (s len : nat) (ts : list nat) : list (list R) :=
  map (@concat R) (pasts [] rows s len ts).
Definition present_pts (rows : list (list R)) (ts : list nat) : list (list R) := presents [] rows ts.
