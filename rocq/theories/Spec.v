(** Independent specification: empirical counts and the textbook (plug-in) information
    measures of finite samples.  Nothing here refers to the code model.  All quantities are
    in nats (natural logarithm); a base-[b] quantity is the nat quantity divided by [ln b]. *)
From Coq Require Import Reals List ZArith Arith Bool.
From Verif Require Import RSum.
Import ListNotations.
Local Open Scope R_scope.

(** Types with decidable equality. *)
Class EqDec (A : Type) := eq_dec : forall x y : A, {x = y} + {x <> y}.
#[export] Instance eqdec_Z : EqDec Z := Z.eq_dec.
#[export] Instance eqdec_nat : EqDec nat := Nat.eq_dec.
#[export] Instance eqdec_bool : EqDec bool := Bool.bool_dec.
#[export] Instance eqdec_unit : EqDec unit.
Proof. intros [] []. left. reflexivity. Defined.
#[export] Instance eqdec_prod {A B} `{EqDec A} `{EqDec B} : EqDec (A * B).
Proof. intros [a b] [c d]. destruct (eq_dec a c), (eq_dec b d); [left|right..]; congruence. Defined.
#[export] Instance eqdec_list {A} `{EqDec A} : EqDec (list A) := list_eq_dec eq_dec.
#[export] Instance eqdec_option {A} `{EqDec A} : EqDec (option A).
Proof.
  intros [a|] [b|]; [destruct (eq_dec a b)| | |]; [left|right..|left]; congruence.
Defined.

Section Spec.
Context {A : Type} `{EqDec A}.

(** how often [v] occurs in the sample [l] *)
Definition count (l : list A) (v : A) : nat := count_occ eq_dec l v.

(** empirical probability of [v] in the (non-empty) sample [l] *)
Definition prob (l : list A) (v : A) : R := INR (count l v) / INR (length l).

(** the distinct values of a sample *)
Definition distinct (l : list A) : list A := nodup eq_dec l.

(** plug-in Shannon entropy in nats *)
Definition Ent (l : list A) : R := - sumf (fun v => prob l v * ln (prob l v)) (distinct l).

End Spec.

(** Shannon entropy of a probability vector, in nats *)
Definition EntVec (p : list R) : R := - sumf (fun x => x * ln x) p.

(** mutual information of two samples of equal length *)
Definition MI {A B} `{EqDec A} `{EqDec B} (xs : list A) (ys : list B) : R :=
  Ent xs + Ent ys - Ent (combine xs ys).

(** conditional mutual information I(X;Y|Z) *)
Definition CMI {A B C} `{EqDec A} `{EqDec B} `{EqDec C}
    (xs : list A) (ys : list B) (zs : list C) : R :=
  Ent (combine xs zs) + Ent (combine ys zs) - Ent (combine (combine xs ys) zs) - Ent zs.

(** the rows of a table given by its columns: row [t] lists entry [t] of every column.
    [n] is the number of rows, [d] an irrelevant default *)
Definition rows_of {A} (d : A) (n : nat) (cols : list (list A)) : list (list A) :=
  map (fun t => map (fun c => nth t c d) cols) (seq 0 n).

(** total correlation of any number of samples (columns) of length [n] *)
Definition TotalCorr {A} `{EqDec A} (d : A) (n : nat) (cols : list (list A)) : R :=
  sumf Ent cols - Ent (rows_of d n cols).

(** Kullback-Leibler divergence of the empirical distributions of two samples,
    meaningful when every value of [ps] occurs in [qs] *)
Definition KL {A} `{EqDec A} (ps qs : list A) : R :=
  sumf (fun v => prob ps v * ln (prob ps v / prob qs v)) (distinct ps).

(** empirical probability of a value under the equal-weight mixture of several samples *)
Definition mixprob {A} `{EqDec A} (ds : list (list A)) (v : A) : R :=
  sumf (fun d => prob d v) ds / INR (length ds).

(** Jensen-Shannon divergence of several samples (equal weights) *)
Definition JSD {A} `{EqDec A} (ds : list (list A)) : R :=
  - sumf (fun v => mixprob ds v * ln (mixprob ds v)) (distinct (concat ds))
  - sumf Ent ds / INR (length ds).

(** conditional total correlation given [zs]: the average over the [n] sample points of
    ln [ p(x1,...,xk | z) / (p(x1|z) ... p(xk|z)) ], with p(x|z) = p(x,z)/p(z) *)
Definition CondTotalCorr (n : nat) (cols : list (list Z)) (zs : list Z) : R :=
  sumf (fun t =>
    let z := nth t zs 0%Z in
    ln (prob (rows_of 0%Z n (cols ++ [zs])) (map (fun c => nth t c 0%Z) cols ++ [z]) / prob zs z
        / fold_right Rmult 1 (map (fun c => prob (combine c zs) (nth t c 0%Z, z) / prob zs z) cols)))
    (seq 0 n) / INR n.
