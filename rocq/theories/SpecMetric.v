(** Specification: distances between two records, computed from entropies the library returns (C121). *)
From Coq Require Import Reals List ZArith.
From Verif Require Import Res Spec SpecBase MBase MData MEntropy.
Import ListNotations.
Local Open Scope R_scope.

(** [hxy] is what the library returns for the joint entropy of the two records, [hx] and [hy] for the single ones *)
Definition entropies (b : base) (xs ys : list Z) (hx hy hxy : R) : Prop :=
  entropy_discrete b (EArr (A1 xs)) = Ok hx /\ entropy_discrete b (EArr (A1 ys)) = Ok hy /\
  entropy_discrete b (ETuple [A1 xs; A1 ys]) = Ok hxy.
(** variation of information: H(X|Y) + H(Y|X) *)
Definition variation_is (b : base) (xs ys : list Z) (v : R) : Prop :=
  exists hx hy hxy, entropies b xs ys hx hy hxy /\ v = (hxy - hx) + (hxy - hy).
(** Rajski's distance: the variation of information as a fraction of the joint entropy *)
Definition rajski_is (b : base) (xs ys : list Z) (d : R) : Prop :=
  exists hx hy hxy, entropies b xs ys hx hy hxy /\ hxy <> 0 /\ d = ((hxy - hx) + (hxy - hy)) / hxy.
(** the same, each record seen from the other: each value of one fixes the value of the other *)
Definition constant (xs : list Z) : Prop := forall x y, In x xs -> In y xs -> x = y.
