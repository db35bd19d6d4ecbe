(** Specification: accuracy of a floating-point environment. *)
From Coq Require Import Reals List Permutation.
From Verif Require Import RSum Spec MBase SpecBase MFloat.
Local Open Scope R_scope.

(** unit roundoff of double precision *)
Definition uro : R := / 2 ^ 53.

(** the positions added by a summation order, and how deeply they are nested *)
Fixpoint leaves (t : stree) : list nat := match t with Leaf i => i :: nil | Node a c => (leaves a ++ leaves c)%list end.
Fixpoint depth (t : stree) : nat := match t with Leaf _ => 0%nat | Node a c => S (Nat.max (depth a) (depth c)) end.

(** a logarithm with relative error at most [eps] *)
Definition log_within (eps r : R) (g : R -> R) : Prop :=
  forall x, 0 < x -> Rabs (g x - ln x / ln r) <= eps * Rabs (ln x / ln r).

(** the three logarithms are accurate and every sum adds every position once *)
Definition accurate (eps : R) (E : fenv) : Prop :=
  log_within eps (exp 1) (f_log E) /\ log_within eps 2 (f_log2 E) /\ log_within eps 10 (f_log10 E) /\
  forall n, (0 < n)%nat -> Permutation (leaves (f_order E n)) (seq 0 n).

(** relative error of [_log_base]: bases other than e, 2, 10 divide two logarithms *)
Definition base_eps (b : base) (eps : R) : R :=
  match b with
  | BE => eps
  | BNum r => if Req_EM_T r 2 then eps else if Req_EM_T r 10 then eps else (1 + eps) * (1 + uro) / (1 - eps) - 1
  end.

(** bases above one, in the range of doubles *)
Definition float_base (b : base) : Prop := match b with BE => True | BNum r => 1 < r <= 2 ^ 1024 end.

(** relative error bound of a sum of [n] products *)
Definition gam (E : fenv) (b : base) (eps : R) (n : nat) : R :=
  (1 + uro) ^ (depth (f_order E n) + 2) * (1 + base_eps b eps) - 1.

(** accuracy of the mutual-information type sums over [n] table cells with [k] variables, in units of the logarithm of the sample size *)
Definition mi_err (E : fenv) (b : base) (eps : R) (k n : nat) : R :=
  (2 * INR k + 2) * base_eps b eps + (17 * INR k + 32) * uro + (3 * INR k + 2) * ((1 + uro) ^ depth (f_order E n) - 1).
