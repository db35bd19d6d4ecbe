(** Model: NSB entropy (infomeasure/estimators/entropy/nsb.py, abbreviated NSB). *)
From Coq Require Import Reals List ZArith Arith Bool.
From Coquelicot Require Import Coquelicot.
From Verif Require Import Res RSum Spec SpecBase SpecNsb MBase MData MEntropy MGeneric MEst.
Import ListNotations.
Local Open Scope R_scope.

(** library functions: scipy's loggamma, digamma, polygamma(1, .), quad, and the root of d log rho found by
    [root_scalar] or [minimize_scalar] for given K and N *)
Record nsb_env : Type := mkNsb {
  lgamma : R -> R; digam : R -> R; trigam : R -> R;
  quad : (R -> R) -> R -> R -> R;
  extremum : Z -> Z -> R }.

Section NSB.
Context (E : nsb_env).
(** [_neg_log_rho] (NSB 176-189) *)
Definition neg_log_rho (beta : R) (K N : Z) (counts : list Z) : R :=
  let kappa := IZR K * beta in
  - (lgamma E kappa - lgamma E (IZR N + kappa)) - sumR (map (fun n => IZR n * (lgamma E (IZR n + beta) - lgamma E beta)) counts).
(** [_find_l0] (NSB 191-194) *)
Definition find_l0 (K N : Z) (counts : list Z) : R := neg_log_rho (extremum E K N / IZR K) K N counts.
(** [_dxi] (NSB 196-199) *)
Definition dxi (beta : R) (K : Z) : R := IZR K * trigam E (1 + IZR K * beta) - trigam E (1 + beta).
(** [_bayes] (NSB 201-220) *)
Definition nsb_bayes (beta : R) (counts : list Z) : R :=
  let total := IZR (sumZ counts) + INR (length counts) * beta in
  digam E (total + 1) - sumR (map (fun n => (IZR n + beta) / total * digam E (IZR n + beta + 1)) counts).

(** [_simple_entropy] (NSB 88-154).  [Kg] is the optional argument K.  Simplified: a given K <= 0 (which the entropy class does
    not reject) is not modelled beyond giving no finite number; the integrals of [quad] are exact. *)
Definition nsb_simple (Kg : option Z) (b : base) (d : ddata) : res R :=
  let N := dd_N d in
  let K := match Kg with Some k => k | None => Z.of_nat (dd_K d) end in
  let counts := dd_counts d in
  let* log_K := np_log (IZR K) in
  if (N - K =? 0)%Z then NonFinite
  else
    let l0 := find_l0 K N counts in
    let num := quad E (fun beta => exp (- neg_log_rho beta K N counts + l0) * dxi beta K * nsb_bayes beta counts) 0 log_K in
    let den := quad E (fun beta => exp (- neg_log_rho beta K N counts + l0) * dxi beta K) 0 log_K in
    if Req_EM_T den 0 then NonFinite else to_base b (num / den).

(** local values and cross-entropy raise TheoreticalInconsistencyError (NSB 222-250) *)
Definition est_nsb (Kg : option Z) : est := mkEst (fun b d => rmap VNum (nsb_simple Kg b d)) inconsistent_local.
Definition entropy_nsb (Kg : option Z) (b : base) (i : einput) : res R := entropy_of (est_nsb Kg) b i.

(** mutual information and transfer entropy with approach "nsb": K must be None or a positive integer
    (mutual_information/nsb.py 62-75, 108-120, 155-166, transfer_entropy/nsb.py 85-114, 153-158, 193-198); the check comes
    after the constructor of the parent class, whose errors are ValueErrors as well where they are raised for the same input *)
Definition nsb_K_ok (Kg : option Z) : bool := match Kg with None => true | Some k => Z.ltb 0 k end.
Definition nsb_mi (Kg : option Z) (b : base) (offset : option Z) (vars : list arr) : res value :=
  let* _ := MMI.mi_init offset vars in
  if nsb_K_ok Kg then gen_mi (est_nsb Kg) b offset vars else Raise ValueError.
End NSB.

(** the assumptions on the library functions: digamma and trigamma are the sums of their series, log-gamma obeys its
    recurrence, and [quad] integrates exactly *)
Definition nsb_lib (E : nsb_env) : Prop :=
  is_digamma (digam E) /\ is_trigamma (trigam E) /\ is_loggamma (lgamma E) /\
  forall f a b v, is_RInt f a b v -> quad E f a b = v.
