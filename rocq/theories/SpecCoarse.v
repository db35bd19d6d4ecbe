(** Specification: merging symbols. *)
From Coq Require Import Reals List.
From Verif Require Import Spec.
Local Open Scope R_scope.

(** [f] distinguishes the symbols of a sample *)
Definition one_to_one {A B} (f : A -> B) (xs : list A) : Prop := forall x y, In x xs -> In y xs -> f x = f y -> x = y.

(** merging by [f] loses nothing about which of the two samples a symbol came from: the ratio of the two frequencies of a
    symbol of [ps] depends on its image only *)
Definition sufficient {A B} `{EqDec A} `{EqDec B} (f : A -> B) (ps qs : list A) : Prop :=
  forall x, In x ps -> prob ps x * prob (map f qs) (f x) = prob qs x * prob (map f ps) (f x).

(** the same for one sample against the equal-weight mixture of several *)
Definition sufficient_mix {A B} `{EqDec A} `{EqDec B} (f : A -> B) (ds : list (list A)) : Prop :=
  forall d x, In d ds -> In x d -> prob d x * mixprob (map (map f) ds) (f x) = mixprob ds x * prob (map f d) (f x).
