(** Independent specification: data no coordinate of which lies on the edge of a kernel box, and samples apart from reference points. *)
From Coq Require Import Reals List.
From Verif Require Import SpecKnn SpecKnn2.
Import ListNotations.
Local Open Scope R_scope.

(** in no coordinate a point of [v] and a point of [w] are exactly half a bandwidth apart *)
Definition off_edge (h : R) (v w : list (list R)) : Prop :=
  forall x y, In x v -> In y w -> Forall2 (fun a c => Rabs (a - c) <> h / 2) x y.

(** no sample coincides with [k] or more of the reference points *)
Definition ref_apart (p : option R) (k : nat) (samples ref : list (list R)) : Prop :=
  forall x e, In x samples -> kth_point p ref k x e -> 0 < e.
