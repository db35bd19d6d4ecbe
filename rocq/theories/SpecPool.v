(** Specification vocabulary: pooled samples and their labels. *)
From Coq Require Import Reals List ZArith.
From Verif Require Import RSum Spec.
Import ListNotations.
Local Open Scope R_scope.

(** the array that says for every entry of the pooled sample [concat ds] which sample it came from: number [k] for the
    first sample, [k + 1] for the second, ... *)
Fixpoint labels {A} (k : Z) (ds : list (list A)) : list Z :=
  match ds with [] => [] | d :: r => repeat k (length d) ++ labels (k + 1) r end.

(** average of a quantity over the samples, weighted by their lengths *)
Definition weighted {A} (h : list A -> R) (ds : list (list A)) : R :=
  sumf (fun d => INR (length d) * h d) ds / INR (length (concat ds)).

(** no symbol occurs in two of the samples *)
Definition disjoint_alphabets {A} (ds : list (list A)) : Prop :=
  ForallOrdPairs (fun d e => forall v, In v d -> ~ In v e) ds.

(** one sequence decides the other, point by point *)
Definition determines {A B} (xs : list A) (ys : list B) : Prop :=
  forall x y y', In (x, y) (combine xs ys) -> In (x, y') (combine xs ys) -> y = y'.
