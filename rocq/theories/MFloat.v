(** Model: the double-precision evaluation of the discrete entropy and of its local values.
    The other model files compute with exact reals; here every numpy operation is rounded. *)
From Coq Require Import Reals List ZArith Arith Bool.
From Flocq Require Import Core.
From Verif Require Import Res RSum Spec Ord MBase MData MEntropy.
Import ListNotations.
Local Open Scope R_scope.

(** IEEE 754 double precision, round to nearest, ties to even.  The exponent is not bounded above: none of the values
    below comes near the overflow threshold. *)
Definition fl (x : R) : R := round radix2 (FLT_exp (-1074) 53) ZnearestE x.

(** bracketing and order of a floating-point sum: the leaves are positions in the summed array *)
Inductive stree : Type := Leaf (i : nat) | Node (a c : stree).
Fixpoint fsum (f : nat -> R) (t : stree) : R :=
  match t with Leaf i => f i | Node a c => fl (fsum f a + fsum f c) end.

(** numpy's [log], [log2], [log10] on doubles, and the order in which [np.sum] adds an array of a given length (pairwise
    summation with unrolled blocks; left open here) *)
Record fenv : Type := mkFenv {
  f_log : R -> R; f_log2 : R -> R; f_log10 : R -> R;
  f_order : nat -> stree }.

(** numpy logarithm of one element: [-inf]/[nan] for non-positive arguments *)
Definition f_np (g : R -> R) (x : R) : res R := if Rlt_dec 0 x then Ok (g x) else NonFinite.

(** [Estimator._log_base] (infomeasure/estimators/base.py 199-237) *)
Definition f_log_base (E : fenv) (b : base) (x : R) : res R :=
  match b with
  | BE => f_np (f_log E) x
  | BNum r =>
      if Req_EM_T r 2 then f_np (f_log2 E) x
      else if Req_EM_T r 10 then f_np (f_log10 E) x
      else if Req_EM_T r 0 then Ok 0
      else if Rlt_dec r 0 then Raise ValueError
      else let* lx := f_np (f_log E) x in let* lb := f_np (f_log E) r in
           if Req_EM_T lb 0 then NonFinite else Ok (fl (lx / lb))
  end.

(** [np.sum] of an array; the empty sum is 0 *)
Definition f_sum (E : fenv) (l : list R) : R :=
  match l with [] => 0 | _ => fsum (fun i => nth i l 0) (f_order E (length l)) end.

(** [DiscreteData.probabilities] (infomeasure/utils/data.py 103-118): integer counts are converted to doubles and divided *)
Definition f_prob (c N : Z) : R := fl (fl (IZR c) / fl (IZR N)).
Definition f_probabilities (d : ddata) : list R := map (fun c => f_prob c (dd_N d)) (dd_counts d).

(** [-np_sum(p * self._log_base(p))] (discrete.py 76): elementwise rounded products, the sum, exact negation *)
Definition f_plogp (E : fenv) (b : base) (p : list R) : res R :=
  let* ls := mapM (f_log_base E b) p in
  Ok (- f_sum E (map (fun xy => fl (fst xy * snd xy)) (combine p ls))).

(** [DiscreteEntropyEstimator._simple_entropy] (infomeasure/estimators/entropy/discrete.py 66-76) and the API call *)
Definition f_entropy (E : fenv) (b : base) (i : einput) : res R :=
  let* d := make_data i in f_plogp E b (f_probabilities d).

(** [_extract_local_values] (discrete.py 83-93) *)
Definition f_local (E : fenv) (b : base) (i : einput) : res (list R) :=
  let* d := make_data i in
  let* p := lookup_data (combine (dd_uniq d) (f_probabilities d)) d in
  let* ls := mapM (f_log_base E b) p in Ok (map Ropp ls).
