(** Specification of local (pointwise) values: the information of the individual sample, in nats, in the order of the samples.
    [prob xs x] is the share of [x] among the samples [xs]. *)
From Coq Require Import Reals List ZArith.
From Verif Require Import RSum Spec.
Import ListNotations.
Local Open Scope R_scope.

(** how surprising each sample is *)
Definition local_entropy {A} `{EqDec A} (xs : list A) : list R := map (fun x => - ln (prob xs x)) xs.

(** log p(x,y) / (p(x) p(y)) at each pair of samples *)
Definition local_mi {A B} `{EqDec A} `{EqDec B} (xs : list A) (ys : list B) : list R :=
  map (fun '(x, y) => ln (prob (combine xs ys) (x, y) / (prob xs x * prob ys y))) (combine xs ys).

(** log p(x,y|z) / (p(x|z) p(y|z)), written with joint shares, at each triple of samples *)
Definition local_cmi {A B C} `{EqDec A} `{EqDec B} `{EqDec C} (xs : list A) (ys : list B) (zs : list C) : list R :=
  map (fun '(x, y, z) => ln (prob (combine (combine xs ys) zs) (x, y, z) * prob zs z
         / (prob (combine xs zs) (x, z) * prob (combine ys zs) (y, z)))) (combine (combine xs ys) zs).

(** log p(x1,...,xk) / (p(x1) ... p(xk)) at each of the [n] rows *)
Definition local_tc (n : nat) (cols : list (list Z)) : list R :=
  map (fun r => ln (prob (rows_of 0%Z n cols) r / fold_right Rmult 1 (map (fun '(c, x) => prob c x) (combine cols r)))) (rows_of 0%Z n cols).
