(** Specification: the products of marginal counts that the integer code of the mutual information forms, and what is
    left of them in 64 bits. *)
From Coq Require Import Reals List ZArith Arith.
From Verif Require Import RSum Spec.
Import ListNotations.
Local Open Scope R_scope.

(** product over the variables of "how often does the value of sample [t] occur" *)
Definition cell_product (cols : list (list Z)) (t : nat) : Z :=
  fold_right Z.mul 1%Z (map (fun c => Z.of_nat (count c (nth t c 0%Z))) cols).
(** its remainder in an unsigned 64-bit integer *)
Definition low64 (z : Z) : Z := (z mod 2 ^ 64)%Z.
(** mean logarithm of the factor lost to the wrap-around *)
Definition lost (n : nat) (cols : list (list Z)) : R :=
  sumf (fun t => ln (IZR (cell_product cols t) / IZR (low64 (cell_product cols t)))) (seq 0 n) / INR n.

(** the two products that the integer code of the conditional mutual information forms: over the variables, how often the
    pair (value, condition) of sample [t] occurs; and how often the whole row of sample [t] occurs times how often its
    condition does *)
Definition pair_product (cols : list (list Z)) (zs : list Z) (t : nat) : Z :=
  fold_right Z.mul 1%Z (map (fun c => Z.of_nat (count (combine c zs) (nth t c 0%Z, nth t zs 0%Z))) cols).
Definition joint_product (n : nat) (cols : list (list Z)) (zs : list Z) (t : nat) : Z :=
  (Z.of_nat (count (rows_of 0%Z n (cols ++ [zs])) (map (fun c => nth t c 0%Z) (cols ++ [zs]))) *
   Z.of_nat (count zs (nth t zs 0%Z)))%Z.
Definition lost_cond (n : nat) (cols : list (list Z)) (zs : list Z) : R :=
  sumf (fun t => ln (IZR (pair_product cols zs t) / IZR (low64 (pair_product cols zs t)))
               - ln (IZR (joint_product n cols zs t) / IZR (low64 (joint_product n cols zs t)))) (seq 0 n) / INR n.
