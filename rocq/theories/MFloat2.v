(** Model: double-precision evaluation of the discrete mutual information, conditional mutual information and transfer entropies
    (infomeasure/estimators/utils/discrete_interaction_information.py, abbreviated DII; discrete_transfer_entropy.py, DTE).
    The contingency tables and the time-series slices are integer computations and are shared with the exact model. *)
From Coq Require Import Reals List ZArith Arith Bool.
From Flocq Require Import Core.
From Verif Require Import Res RSum Spec Ord MBase MData MMI MTE MFloat.
Import ListNotations.
Local Open Scope R_scope.

(** an int64 / uint64 count converted to double (by division or by a logarithm) *)
Definition f_logz (E : fenv) (b : base) (z : Z) : res R := f_log_base E b (fl (IZR z)).

(** [p_joint * log_a + p_joint * log_outer] for one stored cell (DII 134, 186, 459) *)
Definition f_combine (p la lo : R) : R := fl (fl (p * la) + fl (p * lo)).

(** [_mutual_information_global_nd_int] (DII 81-143), without the Miller-Madow correction *)
Definition f_mi_nd (E : fenv) (b : base) (vars : list arr) : res R :=
  let* c := coo_of vars in
  let axes := seq 0 (ndim c) in
  let margs := map (marginal c) axes in
  if existsb (fun m => Nat.eqb (length m) 1) margs then Ok 0
  else
    let* terms := mapM (fun rv =>
        let outer := uprod (map (fun i => u64 (nth (nth i (fst rv) 0%nat) (nth i margs []) 0%Z)) axes) in
        let* lv := f_logz E b (snd rv) in
        let* ln_ := f_logz E b (coo_sum c) in
        let* lo := f_logz E b outer in
        Ok (f_combine (f_prob (snd rv) (coo_sum c)) (fl (lv - ln_)) (fl (- lo + fl (INR (length margs) * ln_)))))
      (combine (coo_coords c) (coo_vals c)) in
    Ok (f_sum E terms).

(** [_mutual_information_global_2d_int] (DII 146-194); [clip(mi.sum(), 0.0, None)] is exact *)
Definition f_mi_2d (E : fenv) (b : base) (x y : arr) : res R :=
  let* c := coo_of [x; y] in
  let pi := marginal c 0 in
  let pj := marginal c 1 in
  if Nat.eqb (length pi) 1 || Nat.eqb (length pj) 1 then Ok 0
  else
    let* terms := mapM (fun rv =>
        let outer := u64 (u64 (nth (nth 0 (fst rv) 0%nat) pi 0%Z) * u64 (nth (nth 1 (fst rv) 0%nat) pj 0%Z)) in
        let* lv := f_logz E b (snd rv) in
        let* lo := f_logz E b outer in
        let* l1 := f_logz E b (sumZ pi) in
        let* l2 := f_logz E b (sumZ pj) in
        let* ln_ := f_logz E b (coo_sum c) in
        Ok (f_combine (f_prob (snd rv) (coo_sum c)) (fl (lv - ln_)) (fl (fl (- lo + l1) + l2))))
      (combine (coo_coords c) (coo_vals c)) in
    Ok (Rmax (f_sum E terms) 0).

(** Python's [sum] of a generator of doubles: starts at 0, adds from left to right (DII 455-457) *)
Definition f_pysum (l : list R) : R := fold_left (fun acc x => fl (acc + x)) l 0.

(** [_conditional_mutual_information_global_nd_int] (DII 396-471), without the Miller-Madow correction *)
Definition f_cmi (E : fenv) (b : base) (vars : list arr) (cond : arr) : res R :=
  match cond with
  | A2 _ => Raise ValueError
  | A1 _ =>
    let* c := coo_of (vars ++ [cond]) in
    let k := (ndim c - 1)%nat in
    let axes := seq 0 k in
    let margs := map (fun i => marginal2 c i k) axes in
    let count_cond := marginal c k in
    if existsb (fun m => Nat.eqb (size2 m) 1) margs then Ok 0
    else
      let* terms := mapM (fun rv =>
          let r := fst rv in
          let z := nth k r 0%nat in
          let outer := uprod (map (fun i => u64 (nth z (nth (nth i r 0%nat) (nth i margs []) []) 0%Z)) axes) in
          let* lv := f_logz E b (u64 (snd rv * u64 (nth z count_cond 0%Z))) in
          let* ln_ := f_logz E b (coo_sum c) in
          let* lo := f_logz E b outer in
          let* ls := mapM (fun m => f_logz E b (sumZ (map sumZ m))) (removelast margs) in
          Ok (f_combine (f_prob (snd rv) (coo_sum c)) (fl (lv - ln_)) (fl (- lo + f_pysum ls))))
        (combine (coo_coords c) (coo_vals c)) in
      Ok (f_sum E terms)
  end.

(** [im.mutual_information(x, y, ..., approach="discrete")] for one-dimensional variables (DII 60-72 after
    [MutualInformationEstimator.__init__], infomeasure/estimators/base.py; as [mi_discrete]) *)
Definition f_mi_api (E : fenv) (b : base) (offset : option Z) (cols : list (list Z)) : res R :=
  let* vs := mi_init offset (map A1 cols) in
  match vs with
  | [x; y] => f_mi_2d E b x y
  | _ => f_mi_nd E b vs
  end.
(** [im.conditional_mutual_information(x, y, cond=z, approach="discrete")] (as [cmi_discrete]) *)
Definition f_cmi_api (E : fenv) (b : base) (vars : list arr) (cond : rinput) : res R :=
  let* z := reduce_joint_space cond in
  let* _ := cmi_init vars (length z) in
  f_cmi E b vars (A1 z).
(** [im.transfer_entropy(x, y, approach="discrete")] (DTE 12-80; as [te_gen]) *)
Definition f_te_api (E : fenv) (b : base) (source dest : arr) (a : te_args) : res R :=
  let* sd := te_init source dest (a_prop a) (a_offset a) (a_step a) in
  let* o := te_observations (fst sd) (snd sd) (a_src a) (a_dest a) (a_step a) RNone in
  let '(sh, dh, df) := o in
  let* z := reduce_joint_space (RArr (A2 dh)) in f_cmi E b [A2 df; A2 sh] (A1 z).
(** [im.conditional_transfer_entropy(x, y, cond=z, approach="discrete")] (as [cte_discrete]) *)
Definition f_cte_api (E : fenv) (b : base) (source dest : arr) (cond : rinput) (a : te_args) : res R :=
  let* zc := reduce_joint_space cond in
  let* _ := cte_init source dest (A1 zc) (a_prop a) (a_offset a) in
  let* o := cte_observations source dest (A1 zc) (a_src a) (a_dest a) (a_cond a) (a_step a) RNone in
  let '(sh, dh, df, ch) := o in
  let* z := reduce_joint_space (RTuple [A2 dh; A2 ch]) in f_cmi E b [A2 df; A2 sh] (A1 z).
