(** Independent specification: Renyi and Tsallis entropies of several variables from nearest-neighbour distances. *)
From Coq Require Import Reals List ZArith Arith Bool.
From Verif Require Import RSum SpecBase SpecGamma SpecKern SpecKnn SpecKnn2.
Import ListNotations.
Local Open Scope R_scope.

(** entropy of order q of n samples with d coordinates, from the distances [es t] of the samples to their k-th nearest
    other sample; [u] is the unit (ln of the logarithm base).  A Tsallis entropy has no unit unless q = 1. *)
Definition renyi_H (G : R -> R) (u : R) (n d k : nat) (q : R) (es : nat -> R) : R :=
  let ds := map es (seq 0 n) in
  if Req_EM_T q 1 then lps_shannon (n - 1) d k ds / u else ln (lps_integral G (n - 1) d k q ds) / (1 - q) / u.
Definition tsallis_H (G : R -> R) (u : R) (n d k : nat) (q : R) (es : nat -> R) : R :=
  let ds := map es (seq 0 n) in
  if Req_EM_T q 1 then lps_shannon (n - 1) d k ds / u else (1 - lps_integral G (n - 1) d k q ds) / (q - 1).

(** [h] is the entropy of the joint variable [vars], whose k-th nearest neighbour distances are all positive *)
Definition entropy_is (H : nat -> nat -> nat -> R -> (nat -> R) -> R) (n k : nat) (q : R) (vars : list (list (list R))) (h : R) : Prop :=
  exists ds es, Forall2 (fun d v => table n d v) ds vars /\
    (forall t, (t < n)%nat -> kth_neighbour (Some 2) n vars k t (es t) /\ 0 < es t) /\
    h = H n (fold_right Nat.add 0%nat ds) k q es.

(** no two samples of a variable coincide *)
Definition all_distinct (n : nat) (v : list (list R)) : Prop :=
  forall t u, (t < n)%nat -> (u < n)%nat -> t <> u -> 0 < dst (Some 2) (nth t v []) (nth u v []).
