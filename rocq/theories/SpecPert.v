(** Independent specification: small changes of the data.  A variable is a table (list of points, a point a list of
    coordinates). *)
From Coq Require Import Reals List Arith.
From Verif Require Import Res SpecBase SpecKern SpecKnn MCont.
Import ListNotations.
Local Open Scope R_scope.

(** two tables of the same shape, no entry of which differs by more than [del] *)
Definition close (del : R) (v w : list (list R)) : Prop := Forall2 (Forall2 (fun x y => Rabs (x - y) <= del)) v w.
(** the same for several arrays *)
Definition close_data (del : R) (vars vars' : list farr) : Prop := Forall2 (fun x y => close del (rows2d x) (rows2d y)) vars vars'.

(** the result for [vars] is a number, and the results for all data near [vars] are numbers near it *)
Definition continuous_in_data (f : list farr -> res R) (vars : list farr) : Prop :=
  exists h, f vars = Ok h /\ forall eps, 0 < eps -> exists del, 0 < del /\
    forall vars', close_data del vars vars' -> exists h', f vars' = Ok h' /\ Rabs (h' - h) < eps.
(** ... and even the same number *)
Definition locally_constant (f : list farr -> res R) (vars : list farr) : Prop :=
  exists h, f vars = Ok h /\ exists del, 0 < del /\ forall vars', close_data del vars vars' -> f vars' = Ok h.

(** no sample coincides with [k] or more of the others *)
Definition apart (p : option R) (n k : nat) (vars : list (list (list R))) : Prop :=
  forall t e, (t < n)%nat -> kth_neighbour p n vars k t e -> 0 < e.

(** no ties: the k-th neighbour distance [e] of sample [t] is the distance of one other sample only.  With the maximum
    norm only one variable has this distance, and only at this sample; with the other norms no variable alone has it. *)
Definition tie_free (p : option R) (n k : nat) (vars : list (list (list R))) : Prop :=
  forall t e, (t < n)%nat -> kth_neighbour p n vars k t e ->
  match p with
  | None => forall u u' i i', (u < n)%nat -> (u' < n)%nat -> u <> t -> u' <> t -> (i < length vars)%nat -> (i' < length vars)%nat ->
      jdist p [nth i vars []] t u = e -> jdist p [nth i' vars []] t u' = e -> u = u' /\ i = i'
  | Some _ =>
      (forall u u', (u < n)%nat -> (u' < n)%nat -> u <> t -> u' <> t -> jdist p vars t u = e -> jdist p vars t u' = e -> u = u') /\
      (forall u i, (u < n)%nat -> u <> t -> (i < length vars)%nat -> jdist p [nth i vars []] t u <> e)
  end.

(** results as functions of the noise level: as the level tends to 0 they tend to the result without noise ... *)
Definition noise_vanishes (f : R -> res R) : Prop :=
  exists h, f 0 = Ok h /\ forall eps, 0 < eps -> exists del, 0 < del /\
    forall lvl, 0 < lvl < del -> exists h', f lvl = Ok h' /\ Rabs (h' - h) < eps.
(** ... or, for small levels, are the same *)
Definition noise_ignored (f : R -> res R) : Prop :=
  exists h, f 0 = Ok h /\ exists del, 0 < del /\ forall lvl, 0 < lvl < del -> f lvl = Ok h.
