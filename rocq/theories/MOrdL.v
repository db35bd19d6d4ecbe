(** Model: local values of the ordinal estimators (estimators/mutual_information/ordinal.py abbreviated MO,
    estimators/transfer_entropy/ordinal.py abbreviated TO).  [local_vals()] computes the global value first (base.py), which also fills
    [self.symbols] for the transfer entropies. *)
From Coq Require Import Reals List ZArith Arith Bool.
From Verif Require Import Res RSum Spec Ord MBase MData MEntropy MMI MTE SpecOrd MOrd.
Import ListNotations.
Local Open Scope R_scope.

Section OrdinalLocal.
Context {T : Type} `{Cmp T}.

(** [OrdinalMIEstimator._extract_local_values] (MO 185-193): the dimension is not looked at *)
Definition mi_ordinal_local (k : kind T) (b : base) (offset : Z) (vars : list (list T)) (d s : Z) : res (list R) :=
  let* vs := ord_mi_init offset vars in
  let* _ := ord_mi_checks (hd [] vs) d s in
  let* syms := mapM (fun v => ord_symbols k v d s) vs in
  let* _ := mi_ordinal k b offset vars d s in
  mi_local b None (map A1 syms).

(** [OrdinalCMIEstimator._extract_local_values] (MO 242-252) *)
Definition cmi_ordinal_local (k : kind T) (b : base) (vars : list (list T)) (cond : list T) (d s : Z) : res (list R) :=
  let* _ := cmi_ordinal k b vars cond d s in
  let* syms := mapM (fun v => ord_symbols k v d s) vars in
  let* z := ord_symbols k cond d s in
  cmi_local b None (map A1 syms) (A1 z).

(** [OrdinalTEEstimator._extract_local_values] (TO 222-240), plain sources (with a permuted or resampled source the histories are
    drawn again, not modelled here) *)
Definition te_ordinal_local (k : kind T) (b : base) (src dst : list T) (d : Z) (l kk s : num) : res (list R) :=
  let* _ := te_ordinal k b src dst d l kk s RNone in
  match s with
  | NInt sz =>
      let* ss := symbolize_int k src d sz in
      let* ds := symbolize_int k dst d sz in
      let* o := te_observations (A1 ss) (A1 ds) l kk s RNone in
      let '(sh, dh, df) := o in te_form_local b None sh dh df
  | NFloat => Raise ValueError
  end.

(** [OrdinalCTEEstimator._extract_local_values] (TO 297-314) *)
Definition cte_ordinal_local (k : kind T) (b : base) (src dst cond : list T) (d : Z) (l kk m s : num) : res (list R) :=
  let* _ := cte_ordinal k b src dst cond d l kk m s in
  match s with
  | NInt sz =>
      let* ss := symbolize_int k src d sz in
      let* ds := symbolize_int k dst d sz in
      let* cs := symbolize_int k cond d sz in
      let* o := cte_observations (A1 ss) (A1 ds) (A1 cs) l kk m s RNone in
      let '(sh, dh, df, ch) := o in cte_form_local b None sh dh df ch
  | NFloat => Raise ValueError
  end.
End OrdinalLocal.
