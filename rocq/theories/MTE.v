(** Model: transfer entropy embedding and the discrete (conditional) transfer entropy
    (infomeasure/estimators/utils/te_slicing.py abbreviated TES,
    infomeasure/estimators/utils/discrete_transfer_entropy.py abbreviated DTE). *)
From Coq Require Import Reals List ZArith Arith Bool.
From Verif Require Import Res RSum Spec Ord MBase MData MMI.
Import ListNotations.
Local Open Scope R_scope.

(** A numeric keyword argument: a Python/numpy integer, or a float with a non-zero value
    (other types are not modelled). *)
Inductive num : Type := NInt (z : Z) | NFloat.

(** [numpy.arange(a, b, s)] for [s > 0] *)
Definition arange (a b s : nat) : list nat :=
  map (fun i => (a + i * s)%nat) (seq 0 ((b - a + (s - 1)) / s)).

(** fancy indexing [x[indices]] of a series along its first axis; indices are non-negative here
    and a too large one raises IndexError *)
Definition gather (rows : list (list Z)) (i : nat) : res (list Z) :=
  match nth_error rows i with Some r => Ok r | None => Raise IndexError end.

(** one embedded row: the values at the given indices, flattened (TES 206, 211, 214-233):
    for a 1-D series [arr_rows] has singleton rows, for a 2-D series whole rows are appended *)
Definition gather_row (a : arr) (idx : list nat) : res (list Z) :=
  rmap (@concat Z) (mapM (gather (arr_rows a)) idx).
Definition gather_rows (a : arr) (idxs : list (list nat)) : res (list (list Z)) :=
  mapM (gather_row a) idxs.

(** history index matrix [base_indices[:, None] - offset_indices[::-1]] (TES 189-190, 209-210,
    393-394) *)
Definition hist_idx (bases : list nat) (len s : nat) : list (list nat) :=
  map (fun b => map (fun o => (b - o)%nat) (rev (arange s ((len + 1) * s) s))) bases.

(** What [permute_src]/[resample_src] do.  The random generator is an oracle: the row order it
    shuffled to, or the row numbers it drew. *)
Inductive rand : Type := RNone | RPermute (sigma : list nat) | RResample (js : list nat) | RBoth.

(** [_src_dest_slices] (TES 169-234); returns (dest_future, dest_history, src_history, bases) *)
Definition src_dest_slices (source dest : arr) (l k s max_delay : nat) (rnd : rand)
  : res (list (list Z) * list (list Z) * list (list Z) * list nat) :=
  match rnd with
  | RBoth => Raise ValueError
  | _ =>
      let bases := arange max_delay (arr_len dest) s in
      let si := hist_idx bases l s in
      let si' := match rnd with
                 | RPermute sg | RResample sg => map (fun j => nth j si []) sg
                 | _ => si
                 end in
      let* sh := gather_rows source si' in
      let* dh := gather_rows dest (hist_idx bases k s) in
      let* df := gather_rows dest (map (fun b => [b]) bases) in
      Ok (df, dh, sh, bases)
  end.

(** positive-integer check (TES 133-139, 342-349) *)
Definition pos_int (x : num) : option nat :=
  match x with NInt z => if Z.ltb 0 z then Some (Z.to_nat z) else None | NFloat => None end.

(** [te_observations(..., construct_joint_spaces=False)] (TES 34-166); the result is
    (src_history, dest_history, dest_future) *)
Definition te_observations (source dest : arr) (l k s : num) (rnd : rand)
  : res (list (list Z) * list (list Z) * list (list Z)) :=
  match pos_int l, pos_int k, pos_int s with
  | Some l, Some k, Some s =>
      let max_delay := (Nat.max k l * s)%nat in
      if Nat.leb (arr_len source) max_delay then Raise ValueError
      else let* r := src_dest_slices source dest l k s max_delay rnd in
           let '(df, dh, sh, _) := r in Ok (sh, dh, df)
  | _, _, _ => Raise ValueError
  end.

(** [cte_observations(..., construct_joint_spaces=False)] (TES 237-410); the result is
    (src_history, dest_history, dest_future, cond_history) *)
Definition cte_observations (source dest cond : arr) (l k m s : num) (rnd : rand)
  : res (list (list Z) * list (list Z) * list (list Z) * list (list Z)) :=
  match pos_int l, pos_int k, pos_int m, pos_int s with
  | Some l, Some k, Some m, Some s =>
      let max_delay := (Nat.max (Nat.max k l) m * s)%nat in
      if Nat.leb (arr_len source) max_delay then Raise ValueError
      else let* r := src_dest_slices source dest l k s max_delay rnd in
           let '(df, dh, sh, bases) := r in
           let* ch := gather_rows cond (hist_idx bases m s) in
           Ok (sh, dh, df, ch)
  | _, _, _, _ => Raise ValueError
  end.

(** [concatenate((a, b, ...), axis=1)] of tables with equally many rows *)
Definition hcat (ts : list (list (list Z))) : list (list Z) :=
  map (@concat Z) (rows_of [] (length (hd [] ts)) ts).

(** [_construct_joint_space_data] for three slices (TES 413-462): joint, dest past,
    marginal 1, marginal 2 *)
Definition te_spaces (sh dh df : list (list Z))
  : list (list Z) * list (list Z) * list (list Z) * list (list Z) :=
  (hcat [sh; dh; df], dh, hcat [sh; dh], hcat [dh; df]).
(** the same for four slices *)
Definition cte_spaces (sh dh df ch : list (list Z))
  : list (list Z) * list (list Z) * list (list Z) * list (list Z) :=
  (hcat [sh; dh; df; ch], hcat [dh; ch], hcat [sh; dh; ch], hcat [dh; df; ch]).

(** [combined_te_form] (DTE 12-80), global and local *)
Definition te_form (b : base) (mm : option base) (sh dh df : list (list Z)) : res R :=
  let* z := reduce_joint_space (RArr (A2 dh)) in cmi_global b mm [A2 df; A2 sh] (A1 z).
Definition te_form_local (b : base) (mm : option base) (sh dh df : list (list Z)) : res (list R) :=
  let* z := reduce_joint_space (RArr (A2 dh)) in cmi_local b mm [A2 df; A2 sh] (A1 z).
Definition cte_form (b : base) (mm : option base) (sh dh df ch : list (list Z)) : res R :=
  let* z := reduce_joint_space (RTuple [A2 dh; A2 ch]) in cmi_global b mm [A2 df; A2 sh] (A1 z).
Definition cte_form_local (b : base) (mm : option base) (sh dh df ch : list (list Z)) : res (list R) :=
  let* z := reduce_joint_space (RTuple [A2 dh; A2 ch]) in cmi_local b mm [A2 df; A2 sh] (A1 z).

(** Python slices [x[:i]] and [x[i:]] with a possibly negative bound *)
Definition py_upto (i : Z) (a : arr) : arr :=
  let n := arr_len a in
  let k := if Z.ltb i 0 then Z.to_nat (Z.of_nat n + i) else Z.to_nat i in
  match a with A1 xs => A1 (firstn k xs) | A2 rs => A2 (firstn k rs) end.
Definition py_from (i : Z) (a : arr) : arr :=
  let n := arr_len a in
  let k := if Z.ltb i 0 then Z.to_nat (Z.of_nat n + i) else Z.to_nat i in
  match a with A1 xs => A1 (skipn k xs) | A2 rs => A2 (skipn k rs) end.

(** [x[: i or None]] *)
Definition py_upto_or (i : Z) (a : arr) : arr := if Z.eqb i 0 then a else py_upto i a.

(** [x in (None, 0)] for an optional numeric argument *)
Definition none_or_0 (x : option num) : bool :=
  match x with None => true | Some (NInt z) => Z.eqb z 0 | Some NFloat => false end.

(** [TransferEntropyEstimator.__init__] (infomeasure/estimators/base.py 794-844): the shifted
    (source, dest).  Python evaluates [-p * s or None] as [((-p) * s) or None]; a float step size
    in a slice raises TypeError. *)
Definition te_init (source dest : arr) (prop_time offset : option num) (s : num) : res (arr * arr) :=
  let* p := if negb (none_or_0 offset)
            then if none_or_0 prop_time then Ok offset else Raise ValueError
            else Ok prop_time in
  if negb (Nat.eqb (arr_len source) (arr_len dest)) then Raise ValueError
  else match p with
       | Some (NInt p) =>
           if Z.eqb p 0 then Ok (source, dest)
           else match s with
                | NFloat => Raise TypeError
                | NInt s =>
                    if Z.ltb 0 p then
                      Ok (py_upto_or (- p * s) source, py_from (p * s) dest)
                    else
                      Ok (py_from (- p * s) source, py_upto_or (p * s) dest)
                end
       | _ => Raise ValueError
       end.

(** keyword arguments of [transfer_entropy] that the discrete estimators use *)
Record te_args : Type := mkTE {
  a_src : num; a_dest : num; a_cond : num; a_step : num;
  a_prop : option num; a_offset : option num }.
Definition te_default : te_args := mkTE (NInt 1) (NInt 1) (NInt 1) (NInt 1) (Some (NInt 0)) None.

(** [transfer_entropy(source, dest, approach="discrete" / "miller_madow")]
    (transfer_entropy/discrete.py 117-170, miller_madow.py 112-170), with the flags
    [permute_src]/[resample_src] as [rnd] *)
Definition te_gen (b : base) (mm : option base) (source dest : arr) (a : te_args) (rnd : rand) : res R :=
  let* sd := te_init source dest (a_prop a) (a_offset a) (a_step a) in
  let* o := te_observations (fst sd) (snd sd) (a_src a) (a_dest a) (a_step a) rnd in
  let '(sh, dh, df) := o in te_form b mm sh dh df.
Definition te_gen_local (b : base) (mm : option base) (source dest : arr) (a : te_args) (rnd : rand) : res (list R) :=
  let* sd := te_init source dest (a_prop a) (a_offset a) (a_step a) in
  let* o := te_observations (fst sd) (snd sd) (a_src a) (a_dest a) (a_step a) rnd in
  let '(sh, dh, df) := o in te_form_local b mm sh dh df.
Definition te_discrete b source dest a := te_gen b None source dest a RNone.
Definition te_discrete_local b source dest a := te_gen_local b None source dest a RNone.
Definition te_mm b source dest a := te_gen b (Some b) source dest a RNone.
Definition te_mm_local b source dest a := te_gen_local b (Some b) source dest a RNone.

(** [ConditionalTransferEntropyEstimator.__init__] (base.py 979-1018); [cond] is not [None] here *)
Definition cte_init (source dest cond : arr) (prop_time offset : option num) : res unit :=
  if negb (Nat.eqb (arr_len source) (arr_len dest)) || negb (Nat.eqb (arr_len source) (arr_len cond))
  then Raise ValueError
  else match prop_time with
       | Some (NInt p) => if negb (Z.eqb p 0) || negb (none_or_0 offset) then Raise ValueError else Ok tt
       | _ => Raise ValueError
       end.

(** [conditional_transfer_entropy(source, dest, cond=..., approach="discrete")]: the condition is
    reduced to one dimension first (transfer_entropy/discrete.py 99-113, 173-226); a condition given
    as a Python list, which is not reduced, is not modelled.  The CTE
    estimators never pass [permute_src]/[resample_src] to [cte_observations] (194-205). *)
Definition cte_gen (b : base) (mm : option base) (source dest cond : arr) (a : te_args) : res R :=
  let* _ := cte_init source dest cond (a_prop a) (a_offset a) in
  let* o := cte_observations source dest cond (a_src a) (a_dest a) (a_cond a) (a_step a) RNone in
  let '(sh, dh, df, ch) := o in cte_form b mm sh dh df ch.
Definition cte_gen_local (b : base) (mm : option base) (source dest cond : arr) (a : te_args) : res (list R) :=
  let* _ := cte_init source dest cond (a_prop a) (a_offset a) in
  let* o := cte_observations source dest cond (a_src a) (a_dest a) (a_cond a) (a_step a) RNone in
  let '(sh, dh, df, ch) := o in cte_form_local b mm sh dh df ch.
Definition cte_discrete (b : base) (source dest : arr) (cond : rinput) (a : te_args) : res R :=
  let* z := reduce_joint_space cond in cte_gen b None source dest (A1 z) a.
Definition cte_discrete_local (b : base) (source dest : arr) (cond : rinput) (a : te_args) : res (list R) :=
  let* z := reduce_joint_space cond in cte_gen_local b None source dest (A1 z) a.
(** Miller-Madow CTE does not reduce the condition (transfer_entropy/miller_madow.py 95-108) *)
Definition cte_mm (b : base) (source dest cond : arr) (a : te_args) : res R :=
  cte_gen b (Some b) source dest cond a.
Definition cte_mm_local (b : base) (source dest cond : arr) (a : te_args) : res (list R) :=
  cte_gen_local b (Some b) source dest cond a.
