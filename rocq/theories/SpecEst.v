(** Specification of the bias-corrected entropy estimators, from the literature's formulas,
    in terms of the counts of a finite sample.  All values in nats. *)
From Coq Require Import Reals List ZArith Arith.
From Verif Require Import RSum Spec SpecGamma.
Import ListNotations.
Local Open Scope R_scope.

Section SpecEst.
Context {A : Type} `{EqDec A}.
Implicit Types xs : list A.

(** sum of a function of the counts over the distinct values *)
Definition bycount (f : nat -> R) xs : R := sumf (fun v => f (count xs v)) (distinct xs).

(** number of distinct values; number of values seen exactly [r] times *)
Definition nvals xs : nat := length (distinct xs).
Definition freq (r : nat) xs : nat := length (filter (fun v => Nat.eqb (count xs v) r) (distinct xs)).

(** Zhang (2012) in its closed form: sum_i n_i/N (1/n_i + 1/(n_i+1) + ... + 1/(N-1)) *)
Definition ZhangH xs : R :=
  bycount (fun n => INR n / INR (length xs) * (harm (length xs - 1) - harm (n - 1))) xs.

(** Bonachela et al. (2008): 1/(N+2) sum_i (n_i+1) sum_(j=n_i+2)^(N+2) 1/j *)
Definition BonachelaH xs : R :=
  bycount (fun n => INR (n + 1) * (harm (length xs + 2) - harm (n + 1))) xs / INR (length xs + 2).

(** Chao and Shen (2003): coverage C = 1 - f1/N (f1 capped at N-1), adjusted frequencies C n/N,
    inclusion probabilities 1 - (1 - C n/N)^N *)
Definition cs_coverage xs : R :=
  1 - INR (if Nat.eqb (freq 1 xs) (length xs) then freq 1 xs - 1 else freq 1 xs) / INR (length xs).
Definition ChaoShenH xs : R :=
  - bycount (fun n => let pa := cs_coverage xs * (INR n / INR (length xs)) in
                      pa * ln pa / (1 - (1 - pa) ^ length xs)) xs.

(** Chao, Wang and Jost (2013) *)
Definition cwj_coverage xs : R :=
  let N := INR (length xs) in let f1 := INR (freq 1 xs) in let f2 := INR (freq 2 xs) in
  if Nat.ltb 0 (freq 2 xs) then 2 * f2 / ((N - 1) * f1 + 2 * f2)
  else if Nat.ltb 0 (freq 1 xs) then 2 / ((N - 1) * (f1 - 1) + 2) else 1.
Definition ChaoWangJostH xs : R :=
  let N := length xs in let A := cwj_coverage xs in
  bycount (fun n => INR n / INR N * (psi N - psi n)) xs +
  (if Req_EM_T A 1 then 0
   else INR (freq 1 xs) / INR N / (1 - A) ^ (N - 1) *
        (- ln A - sumf (fun r => / INR r * (1 - A) ^ r) (seq 1 (N - 1)))).

(** ANSB (Nemenman 2011), Delta = N - K coincidences *)
Definition AnsbH xs : R := euler_gamma - ln 2 + 2 * ln (INR (length xs)) - psi (length xs - nvals xs).

(** Grassberger: mean over the samples of ln N - psi(n) - (-1)^n/(n+1) *)
Definition grassberger_local xs (v : A) : R :=
  let n := count xs v in ln (INR (length xs)) - psi n - (-1) ^ n / INR (n + 1).
Definition GrassbergerH xs : R := sumf (grassberger_local xs) xs / INR (length xs).

(** James-Stein shrinkage (Hausser and Strimmer 2009): target 1/K and optimal intensity, clamped to 1 *)
Definition shrink_intensity xs : R :=
  let K := INR (nvals xs) in let N := INR (length xs) in
  let d := sumf (fun v => (prob xs v - / K) * (prob xs v - / K)) (distinct xs) in
  if Nat.eqb (length xs) 1 then 1
  else if Req_EM_T d 0 then 1
  else Rmin 1 (sumf (fun v => prob xs v * (1 - prob xs v) / (N - 1)) (distinct xs) / d).
Definition shrunk xs (v : A) : R :=
  shrink_intensity xs * / INR (nvals xs) + (1 - shrink_intensity xs) * prob xs v.
Definition ShrinkH xs : R := - sumf (fun v => shrunk xs v * ln (shrunk xs v)) (distinct xs).

(** Bayesian posterior mean frequencies under a symmetric Dirichlet prior, over [K] categories *)
Definition posterior (a K : R) xs (v : A) : R := (INR (count xs v) + a) / (INR (length xs) + K * a).
Definition BayesH (a K : R) xs : R :=
  - sumf (fun v => posterior a K xs v * ln (posterior a K xs v)) (distinct xs).

End SpecEst.
