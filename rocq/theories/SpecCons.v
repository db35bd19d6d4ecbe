(** Specification vocabulary for C117: records of growing length whose frequencies settle. *)
From Coq Require Import Reals List.
From Verif Require Import RSum Spec.
Import ListNotations.
Local Open Scope R_scope.

(** x ln x, with value 0 at x = 0 *)
Definition plnp (x : R) : R := if Req_EM_T x 0 then 0 else x * ln x.

(** Shannon entropy (nats) of the distribution [p] on the finite alphabet [U] *)
Definition limit_entropy {A} (U : list A) (p : A -> R) : R := - sumf (fun u => plnp (p u)) U.

(** The records [x 0, x 1, ...] use only symbols of the finite alphabet [U] (listed without repetition),
    get longer than any bound, and the relative frequency of every symbol [u] converges to [p u]. *)
Definition settles {A} `{EqDec A} (U : list A) (p : A -> R) (x : nat -> list A) : Prop :=
  NoDup U /\
  (forall m v, In v (x m) -> In v U) /\
  (forall L, exists m0, forall m, (m0 <= m)%nat -> (L <= length (x m))%nat) /\
  (forall u, In u U -> Un_cv (fun m => INR (count (x m) u) / INR (length (x m))) (p u)).

(** image of a distribution under a map: the probability of [b] is that of all symbols mapped to it *)
Definition push {A B} `{EqDec B} (f : A -> B) (U : list A) (p : A -> R) (b : B) : R :=
  sumf (fun u => if eq_dec (f u) b then p u else 0) U.
Definition image {A B} `{EqDec B} (f : A -> B) (U : list A) : list B := nodup eq_dec (map f U).

(** mutual information (nats) of a distribution of pairs, and conditional mutual information of a distribution of
    triples ((x, y), z) *)
Definition limit_mi {A B} `{EqDec A} `{EqDec B} (U : list (A * B)) (p : A * B -> R) : R :=
  limit_entropy (image fst U) (push fst U p) + limit_entropy (image snd U) (push snd U p) - limit_entropy U p.
Definition limit_cmi {A B C} `{EqDec A} `{EqDec B} `{EqDec C} (U : list (A * B * C)) (p : A * B * C -> R) : R :=
  let xz := fun t : A * B * C => (fst (fst t), snd t) in
  let yz := fun t : A * B * C => (snd (fst t), snd t) in
  limit_entropy (image xz U) (push xz U p) + limit_entropy (image yz U) (push yz U p)
  - limit_entropy U p - limit_entropy (image snd U) (push snd U p).

(** the first [n] values of an infinite stream *)
Definition prefix {A} (s : nat -> A) (n : nat) : list A := map s (seq 0 n).
