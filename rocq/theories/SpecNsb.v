(** Specification of the NSB (Nemenman, Shafee, Bialek) entropy estimate: special functions at positive reals and the
    integrals over the concentration of the Dirichlet prior. *)
From Coq Require Import Reals List ZArith Arith.
From Coquelicot Require Import Coquelicot.
From Verif Require Import RSum Spec SpecGamma SpecEst.
Import ListNotations.
Local Open Scope R_scope.

(** digamma and trigamma by their series: psi(x) = -gamma + sum_n (1/(n+1) - 1/(x+n)), psi'(x) = sum_n 1/(x+n)^2; log-gamma
    by its recurrence *)
Definition is_digamma (D : R -> R) : Prop :=
  forall x, 0 < x -> infinite_sum (fun n => / INR (S n) - / (x + INR n)) (D x + euler_gamma).
Definition is_trigamma (T : R -> R) : Prop := forall x, 0 < x -> infinite_sum (fun n => / (x + INR n) ^ 2) (T x).
Definition is_loggamma (L : R -> R) : Prop := forall x, 0 < x -> L (x + 1) = L x + ln x.

(** x (x+1) ... (x+n-1) *)
Fixpoint rising (x : R) (n : nat) : R := match n with O => 1 | S n => rising x n * (x + INR n) end.
Definition prodR (l : list R) : R := fold_right Rmult 1 l.

Section SpecNsb.
Context {A : Type} `{EqDec A}.
Implicit Types xs : list A.
Context (D T : R -> R).

(** density of the a-priori expected entropy of K states *)
Definition xi_density (K : nat) (beta : R) : R := INR K * T (1 + INR K * beta) - T (1 + beta).
(** posterior mean of the entropy over the observed values under a Dirichlet prior of concentration beta *)
Definition posterior_entropy xs (beta : R) : R :=
  let S := INR (length xs) + INR (nvals xs) * beta in
  D (S + 1) - bycount (fun n => (INR n + beta) / S * D (INR n + beta + 1)) xs.
(** weight of beta: every value seen n times contributes the n-th power of beta (beta+1) ... (beta+n-1) *)
Definition weight (K : nat) xs (beta : R) : R :=
  prodR (map (fun v => rising beta (count xs v) ^ count xs v) (distinct xs)) / rising (INR K * beta) (length xs).

(** the estimate, in nats *)
Definition is_nsb (K : nat) xs (h : R) : Prop :=
  exists num den,
    is_RInt (fun beta => weight K xs beta * xi_density K beta * posterior_entropy xs beta) 0 (ln (INR K)) num /\
    is_RInt (fun beta => weight K xs beta * xi_density K beta) 0 (ln (INR K)) den /\
    0 < den /\ h = num / den.
End SpecNsb.
