(** Model: discrete entropy estimators as objects, and MI / CMI / TE / CTE computed from
    entropies (infomeasure/estimators/base.py, abbreviated BASE). *)
From Coq Require Import Reals List ZArith Arith Bool.
From Verif Require Import Res RSum Spec SpecBase Ord MBase MData MEntropy MMI MTE.
Import ListNotations.
Local Open Scope R_scope.

(** What [_calculate] may return: a number, or an array of local values. *)
Inductive value : Type := VNum (x : R) | VArr (ls : list R).

(** The global value [Estimator.calculate] stores for it (BASE 79-95): [np_mean] of an array. *)
Definition value_global (v : value) : R := match v with VNum x => x | VArr ls => mean ls end.

(** A discrete entropy estimator class: [_simple_entropy] and [_extract_local_values]
    (BASE 182-197: the default raises NotImplementedError, which [local_vals] turns into
    UnsupportedOperation, BASE 143-149). *)
Record est : Type := mkEst {
  e_calc : base -> ddata -> res value;
  e_extract : base -> ddata -> res (list R) }.

(** [global_val()] and [local_vals()] of a freshly constructed estimator object on already
    converted data (BASE 114-169).  A local array produced by [_calculate] is returned as it is. *)
Definition e_global (e : est) (b : base) (d : ddata) : res R := rmap value_global (e_calc e b d).
Definition e_local (e : est) (b : base) (d : ddata) : res (list R) :=
  let* v := e_calc e b d in
  match v with
  | VArr ls => Ok ls
  | VNum _ => match e_extract e b d with
              | Raise NotImplementedError => Raise UnsupportedOperation
              | r => r
              end
  end.

(** [entropy(x, approach=...)] and its local values for one (joint) variable
    (BASE 1128-1159, 114-169) *)
Definition entropy_of (e : est) (b : base) (i : einput) : res R := let* d := make_data i in e_global e b d.
Definition local_of (e : est) (b : base) (i : einput) : res (list R) := let* d := make_data i in e_local e b d.

(** Element-wise sums of arrays: [np_sum([...], axis=0) - a - b]; arrays of different lengths
    cannot be combined (ValueError).  numpy's broadcasting of arrays of length one is not modelled;
    all arrays here have one value per sample. *)
Definition vcomb (plus minus : list (list R)) : res (list R) :=
  let n := length (hd [] plus) in
  if forallb (fun l => Nat.eqb (length l) n) (plus ++ minus)
  then Ok (map (fun t => sumf (fun l => nth t l 0) plus - sumf (fun l => nth t l 0) minus) (seq 0 n))
  else Raise ValueError.

(** the common shape of [_generic_*_from_entropy]: construct all entropy estimators, combine their
    local values, and if those are not available combine the global values
    (BASE 570-583, 728-743, 924-943, 1079-1098) *)
Definition from_entropies (e : est) (b : base) (plus minus : list einput) : res value :=
  let* dp := mapM make_data plus in
  let* dm := mapM make_data minus in
  match (let* lp := mapM (e_local e b) dp in let* lm := mapM (e_local e b) dm in vcomb lp lm) with
  | Ok ls => Ok (VArr ls)
  | Raise UnsupportedOperation | Raise TheoreticalInconsistencyError =>
      let* gp := mapM (e_global e b) dp in
      let* gm := mapM (e_global e b) dm in
      Ok (VNum (sumR gp - sumR gm))
  | Raise x => Raise x
  | NonFinite => NonFinite
  end.

(** [_generic_mi_from_entropy] without noise (BASE 518-583), after [mi_init] *)
Definition gen_mi (e : est) (b : base) (offset : option Z) (vars : list arr) : res value :=
  let* vs := mi_init offset vars in
  from_entropies e b (map EArr vs) [ETuple vs].

(** [_generic_cmi_from_entropy] without noise (BASE 669-745).  These estimators pass the condition
    on as it is (e.g. mutual_information/chao_shen.py 59-68), so it must be an array. *)
Definition gen_cmi (e : est) (b : base) (vars : list arr) (cond : arr) : res value :=
  let* _ := cmi_init vars (arr_len cond) in
  from_entropies e b (map (fun v => ETuple [v; cond]) vars) [ETuple (vars ++ [cond]); EArr cond].

(** [_generic_te_from_entropy] without noise (BASE 846-943) *)
Definition gen_te (e : est) (b : base) (source dest : arr) (a : te_args) (rnd : rand) : res value :=
  let* sd := te_init source dest (a_prop a) (a_offset a) (a_step a) in
  let* o := te_observations (fst sd) (snd sd) (a_src a) (a_dest a) (a_step a) rnd in
  let '(sh, dh, df) := o in
  let '(joint, past, m1, m2) := te_spaces sh dh df in
  from_entropies e b [EArr (A2 m2); EArr (A2 m1)] [EArr (A2 joint); EArr (A2 past)].

(** [_generic_cte_from_entropy] without noise (BASE 1020-1098); it never passes
    [permute_src]/[resample_src] on (1069-1077) *)
Definition gen_cte (e : est) (b : base) (source dest cond : arr) (a : te_args) : res value :=
  let* _ := cte_init source dest cond (a_prop a) (a_offset a) in
  let* o := cte_observations source dest cond (a_src a) (a_dest a) (a_cond a) (a_step a) RNone in
  let '(sh, dh, df, ch) := o in
  let '(joint, past, m1, m2) := cte_spaces sh dh df ch in
  from_entropies e b [EArr (A2 m2); EArr (A2 m1)] [EArr (A2 joint); EArr (A2 past)].

(** the two estimators modelled in MEntropy, as such objects *)
Definition est_discrete : est :=
  mkEst (fun b d => rmap VNum (discrete_simple b d)) discrete_local.
Definition est_mm : est := mkEst (fun b d => rmap VNum (mm_simple b d)) mm_local.
