(** Model: discrete mutual information and conditional mutual information
    (infomeasure/estimators/utils/discrete_interaction_information.py, abbreviated DII). *)
From Coq Require Import Reals List ZArith Arith Bool.
From Verif Require Import Res RSum Spec Ord MBase MData.
Import ListNotations.
Local Open Scope R_scope.

(** [unique(var, return_inverse=True, axis=0)]: number of levels and codes *)
Definition codes (a : arr) : list nat :=
  match a with A1 xs => inverse xs | A2 rs => inverse rs end.
Definition nlevels (a : arr) : nat :=
  match a with A1 xs => length (unique xs) | A2 rs => length (unique rs) end.

(** numpy [uint64] arithmetic wraps modulo 2^64; [prod(..., axis=0)] of uint64 arrays *)
Definition u64 (z : Z) : Z := (z mod 2 ^ 64)%Z.
Definition uprod (l : list Z) : Z := fold_right (fun c acc => u64 (c * acc)) 1%Z l.

(** The sparse contingency table [COO(coords=indices, data=ones(..., uint64), shape, fill_value=0)]
    (DII 88-94, 288-294, 404-412, 518-526): duplicate coordinates are summed, the stored
    coordinates are sorted.  Ragged [indices] are rejected by numpy. *)
Record coo : Type := mkCoo {
  coo_coords : list (list nat);
  coo_vals : list Z;
  coo_shape : list nat }.

Definition coo_rows (vars : list arr) : list (list nat) :=
  rows_of 0%nat (arr_len (hd (A1 []) vars)) (map codes vars).

Definition coo_of (vars : list arr) : res coo :=
  if forallb (fun a => Nat.eqb (arr_len a) (arr_len (hd (A1 []) vars))) vars then
    let rows := coo_rows vars in
    Ok (mkCoo (unique rows) (map (fun r => Z.of_nat (count rows r)) (unique rows)) (map nlevels vars))
  else Raise ValueError.

(** [contingency_coo.sum()] *)
Definition coo_sum (c : coo) : Z := sumZ (coo_vals c).

(** the sum of all stored values whose coordinates satisfy [p] *)
Definition coo_sum_if (c : coo) (p : list nat -> bool) : Z :=
  sumZ (map (fun rv => if p (fst rv) then snd rv else 0%Z) (combine (coo_coords c) (coo_vals c))).

(** [contingency_coo.sum(axis = all axes except i)] as a dense array (DII 101-109, 299-307) *)
Definition marginal (c : coo) (i : nat) : list Z :=
  map (fun a => coo_sum_if c (fun r => Nat.eqb (nth i r 0%nat) a)) (seq 0 (nth i (coo_shape c) 0%nat)).

(** [contingency_coo.sum(axis = all axes except i and the last)] as a dense 2-D array
    (DII 419-427, 531-539) *)
Definition marginal2 (c : coo) (i j : nat) : list (list Z) :=
  map (fun a => map (fun z => coo_sum_if c (fun r => Nat.eqb (nth i r 0%nat) a && Nat.eqb (nth j r 0%nat) z))
                    (seq 0 (nth j (coo_shape c) 0%nat)))
      (seq 0 (nth i (coo_shape c) 0%nat)).

(** number of elements of a dense 2-D array, and numpy's [count_nonzero] *)
Definition size2 (m : list (list Z)) : nat := fold_right (fun r s => (length r + s)%nat) 0%nat m.
Definition count_nonzero2 (m : list (list Z)) : nat :=
  fold_right (fun r s => (length (filter (fun v => negb (Z.eqb v 0)) r) + s)%nat) 0%nat m.

Definition ndim (c : coo) : nat := length (coo_shape c).

(** [millermadow_mi_corr] (DII 571-618) *)
Definition mm_mi_corr (k_i : list nat) (k_joint n : nat) (b : base) (k_cond : option nat) : res R :=
  let num := sumf INR k_i - INR (length k_i) - INR k_joint + 1
             - match k_cond with Some k => INR k - 1 | None => 0 end in
  let* c := np_div num (2 * INR n) in to_base b c.

(** add the optional Miller-Madow correction (DII 137-143, 188-194, 237-246, 461-471) *)
Definition add_corr (mm : option base) (x : R) (corr : base -> res R) : res R :=
  match mm with
  | None => Ok x
  | Some b => let* c := corr b in Ok (x + c)
  end.

(** one term of the sum over the non-zero cells (DII 127-134 and 167-186): joint count [v],
    product [outer] of the marginal counts, total [n], number of variables [k] *)
Definition mi_term (b : base) (n : Z) (k : nat) (v outer : Z) : res R :=
  let* p := np_div (IZR v) (IZR n) in
  let* lv := log_base b (IZR v) in
  let* ln_ := log_base b (IZR n) in
  let* lo := log_base b (IZR outer) in
  Ok (p * (lv - ln_) + p * (- lo + INR k * ln_)).

(** [_mutual_information_global_nd_int] (DII 81-143) *)
Definition mi_global_nd_int (b : base) (mm : option base) (vars : list arr) : res R :=
  let* c := coo_of vars in
  let axes := seq 0 (ndim c) in
  let margs := map (marginal c) axes in
  if existsb (fun m => Nat.eqb (length m) 1) margs then Ok 0
  else
    let* terms := mapM (fun rv =>
        let outer := uprod (map (fun i => u64 (nth (nth i (fst rv) 0%nat) (nth i margs []) 0%Z)) axes) in
        mi_term b (coo_sum c) (length margs) (snd rv) outer)
      (combine (coo_coords c) (coo_vals c)) in
    add_corr mm (sumR terms)
      (fun bb => mm_mi_corr (coo_shape c) (length (coo_vals c)) (arr_len (hd (A1 []) vars)) bb None).

(** [_mutual_information_global_2d_int] (DII 146-194).  [crosstab(x, y, sparse=True).count] is the
    same table with int64 entries; [sp_find] lists its non-zero entries.  The result is clipped
    below at 0. *)
Definition mi_global_2d_int (b : base) (mm : option base) (x y : arr) : res R :=
  let* c := coo_of [x; y] in
  let pi := marginal c 0 in
  let pj := marginal c 1 in
  if Nat.eqb (length pi) 1 || Nat.eqb (length pj) 1 then Ok 0
  else
    let* terms := mapM (fun rv =>
        let outer := u64 (u64 (nth (nth 0 (fst rv) 0%nat) pi 0%Z) * u64 (nth (nth 1 (fst rv) 0%nat) pj 0%Z)) in
        let* p := np_div (IZR (snd rv)) (IZR (coo_sum c)) in
        let* lv := log_base b (IZR (snd rv)) in
        let* lo := log_base b (IZR outer) in
        let* l1 := log_base b (IZR (sumZ pi)) in
        let* l2 := log_base b (IZR (sumZ pj)) in
        let* ln_ := log_base b (IZR (coo_sum c)) in
        Ok (p * (lv - ln_) + p * (- lo + l1 + l2)))
      (combine (coo_coords c) (coo_vals c)) in
    add_corr mm (Rmax (sumR terms) 0)
      (fun bb => mm_mi_corr (coo_shape c) (length (coo_vals c)) (arr_len x) bb None).

(** rows of a variable as tuples; [tuple(val)] of a scalar raises TypeError (DII 209, 214) *)
Definition as_rows (a : arr) : res (list (list Z)) :=
  match a with A2 rs => Ok rs | A1 [] => Ok [] | A1 (_ :: _) => Raise TypeError end.

(** [_mutual_information_global_nd_other] (DII 197-246).  A [Counter] is modelled by the list of
    its distinct keys together with [count]. *)
Definition mi_global_nd_other (b : base) (mm : option base) (vars : list arr) : res R :=
  let* rvars := mapM as_rows vars in
  let n := length (hd [] rvars) in
  let joint := rows_of [] n rvars in
  let* terms := mapM (fun key =>
      let* pj := np_div (INR (count joint key)) (INR (length joint)) in
      let* ms := mapM (fun i => let var := nth i rvars [] in
                                np_div (INR (count var (nth i key []))) (INR (length var)))
                      (seq 0 (length rvars)) in
      let* q := np_div pj (fold_right Rmult 1 ms) in
      let* l := log_base b q in Ok (pj * l)) (distinct joint) in
  if Nat.eqb (length terms) 0 then Ok 0
  else add_corr mm (sumR terms)
         (fun bb => mm_mi_corr (map (fun var => length (distinct var)) rvars) (length (distinct joint)) n bb None).

Definition is_1d (a : arr) : bool := match a with A1 _ => true | A2 _ => false end.

(** [mutual_information_global] (DII 26-78); the check of [miller_madow_correction] (51-58) is
    about ill-typed values only *)
Definition mi_global (b : base) (mm : option base) (vars : list arr) : res R :=
  if forallb is_1d vars then
    match vars with
    | [x; y] => mi_global_2d_int b mm x y
    | _ => mi_global_nd_int b mm vars
    end
  else mi_global_nd_other b mm vars.

(** the stored value at a coordinate ([contingency_coo[indices].data]) *)
Definition coo_cell (c : coo) (r : list nat) : Z :=
  coo_sum_if c (fun s => if list_eq_dec Nat.eq_dec s r then true else false).

(** [mutual_information_local] (DII 249-331) *)
Definition mi_local (b : base) (mm : option base) (vars : list arr) : res (list R) :=
  let* c := coo_of vars in
  let axes := seq 0 (ndim c) in
  let margs := map (marginal c) axes in
  if existsb (fun m => Nat.eqb (length m) 1) margs
  then Ok (repeat 0 (arr_len (hd (A1 []) vars)))
  else
    let* ls := mapM (fun r =>
        let* p := np_div (IZR (coo_cell c r)) (IZR (coo_sum c)) in
        let* qs := mapM (fun i => np_div (IZR (nth (nth i r 0%nat) (nth i margs []) 0%Z)) (IZR (coo_sum c))) axes in
        let* lo := log_base b (fold_right Rmult 1 qs) in
        let* lp := log_base b p in
        Ok (- lo + lp)) (coo_rows vars) in
    match mm with
    | None => Ok ls
    | Some bb =>
        let* k := mm_mi_corr (coo_shape c) (length (coo_vals c)) (arr_len (hd (A1 []) vars)) bb None in
        Ok (map (fun x => x + k) ls)
    end.

(** [conditional_mutual_information_global] for a one-dimensional condition (DII 334-393) and
    [_conditional_mutual_information_global_nd_int] (DII 396-471) *)
Definition cmi_global (b : base) (mm : option base) (vars : list arr) (cond : arr) : res R :=
  match cond with
  | A2 _ => Raise ValueError
  | A1 _ =>
    let* c := coo_of (vars ++ [cond]) in
    let k := (ndim c - 1)%nat in
    let axes := seq 0 k in
    let margs := map (fun i => marginal2 c i k) axes in
    let count_cond := marginal c k in
    if existsb (fun m => Nat.eqb (size2 m) 1) margs then Ok 0
    else
      let* terms := mapM (fun rv =>
          let r := fst rv in
          let z := nth k r 0%nat in
          let outer := uprod (map (fun i => u64 (nth z (nth (nth i r 0%nat) (nth i margs []) []) 0%Z)) axes) in
          let* p := np_div (IZR (snd rv)) (IZR (coo_sum c)) in
          let* lv := log_base b (IZR (u64 (snd rv * u64 (nth z count_cond 0%Z)))) in
          let* ln_ := log_base b (IZR (coo_sum c)) in
          let* lo := log_base b (IZR outer) in
          let* ls := mapM (fun m => log_base b (IZR (sumZ (map sumZ m)))) (removelast margs) in
          Ok (p * (lv - ln_) + p * (- lo + sumR ls)))
        (combine (coo_coords c) (coo_vals c)) in
      add_corr mm (sumR terms)
        (fun bb => mm_mi_corr (map count_nonzero2 margs) (length (coo_vals c))
                     (arr_len (hd (A1 []) vars)) bb (Some (length count_cond)))
  end.

(** [conditional_mutual_information_local] (DII 474-568) *)
Definition cmi_local (b : base) (mm : option base) (vars : list arr) (cond : arr) : res (list R) :=
  let all := vars ++ [cond] in
  let* c := coo_of all in
  let k := (ndim c - 1)%nat in
  let axes := seq 0 k in
  let margs := map (fun i => marginal2 c i k) axes in
  let count_cond := marginal c k in
  if existsb (fun m => Nat.eqb (size2 m) 1) margs
  then Ok (repeat 0 (arr_len (hd (A1 []) vars)))
  else
    let* ls := mapM (fun r =>
        let z := nth k r 0%nat in
        let* p := np_div (IZR (coo_cell c r)) (IZR (coo_sum c)) in
        let* pc := np_div (IZR (nth z count_cond 0%Z)) (IZR (coo_sum c)) in
        let* qs := mapM (fun i => np_div (IZR (nth z (nth (nth i r 0%nat) (nth i margs []) []) 0%Z)) (IZR (coo_sum c))) axes in
        let* l1 := log_base b (p * pc) in
        let* l2 := log_base b (fold_right Rmult 1 qs) in
        Ok (l1 - l2)) (coo_rows all) in
    match mm with
    | None => Ok ls
    | Some bb =>
        let* kk := mm_mi_corr (map count_nonzero2 margs) (length (coo_vals c))
                     (arr_len (hd (A1 []) vars)) bb (Some (length count_cond)) in
        Ok (map (fun x => x + kk) ls)
    end.

(** Python slices used for the offset: [a[: -k or None]], [a[k:]] *)
Definition arr_skip (k : nat) (a : arr) : arr :=
  match a with A1 xs => A1 (skipn k xs) | A2 rs => A2 (skipn k rs) end.
Definition arr_drop_last (k : nat) (a : arr) : arr :=
  match a with
  | A1 xs => A1 (firstn (length xs - k) xs)
  | A2 rs => A2 (firstn (length rs - k) rs)
  end.

(** [MutualInformationEstimator.__init__] with [normalize=False]
    (infomeasure/estimators/base.py 479-516); [None] is Python's [None] offset, for which
    [None > 0] raises TypeError. *)
Definition mi_init (offset : option Z) (vars : list arr) : res (list arr) :=
  if Nat.ltb (length vars) 2 then Raise ValueError
  else if Nat.ltb 2 (length vars) && negb (match offset with None => true | Some o => Z.eqb o 0 end)
  then Raise ValueError
  else if negb (forallb (fun a => Nat.eqb (arr_len a) (arr_len (hd (A1 []) vars))) vars)
  then Raise ValueError
  else match offset with
       | None => Raise TypeError
       | Some o =>
           if Z.ltb 0 o then
             Ok [arr_drop_last (Z.to_nat o) (nth 0 vars (A1 [])); arr_skip (Z.to_nat o) (nth 1 vars (A1 []))]
           else if Z.ltb o 0 then
             Ok [arr_skip (Z.to_nat (- o)) (nth 0 vars (A1 [])); arr_drop_last (Z.to_nat (- o)) (nth 1 vars (A1 []))]
           else Ok vars
       end.

(** [mutual_information(x1, ..., xn, approach="discrete")] / ["miller_madow"], and [local_vals]
    (infomeasure/estimators/mutual_information/discrete.py 92-110, miller_madow.py) *)
Definition mi_discrete (b : base) (offset : option Z) (vars : list arr) : res R :=
  let* vs := mi_init offset vars in mi_global b None vs.
Definition mi_discrete_local (b : base) (offset : option Z) (vars : list arr) : res (list R) :=
  let* vs := mi_init offset vars in mi_local b None vs.
Definition mi_mm (b : base) (offset : option Z) (vars : list arr) : res R :=
  let* vs := mi_init offset vars in mi_global b (Some b) vs.
Definition mi_mm_local (b : base) (offset : option Z) (vars : list arr) : res (list R) :=
  let* vs := mi_init offset vars in mi_local b (Some b) vs.

(** [ConditionalMutualInformationEstimator.__init__] (base.py 647-657): only the first two
    variables and the condition are compared *)
Definition cmi_init (vars : list arr) (condlen : nat) : res unit :=
  match vars with
  | x :: y :: _ => if negb (Nat.eqb (arr_len x) (arr_len y)) || negb (Nat.eqb (arr_len x) condlen)
                   then Raise ValueError else Ok tt
  | _ => Raise IndexError
  end.

(** [conditional_mutual_information(x1, ..., xn, cond=..., approach="discrete")]: the condition is
    reduced to one dimension first (mutual_information/discrete.py 66-76, 127-149) *)
Definition cmi_discrete (b : base) (vars : list arr) (cond : rinput) : res R :=
  let* z := reduce_joint_space cond in
  let* _ := cmi_init vars (length z) in
  cmi_global b None vars (A1 z).
Definition cmi_discrete_local (b : base) (vars : list arr) (cond : rinput) : res (list R) :=
  let* z := reduce_joint_space cond in
  let* _ := cmi_init vars (length z) in
  cmi_local b None vars (A1 z).

(** Miller-Madow CMI does not reduce the condition (mutual_information/miller_madow.py) *)
Definition cmi_mm (b : base) (vars : list arr) (cond : arr) : res R :=
  let* _ := cmi_init vars (arr_len cond) in
  cmi_global b (Some b) vars cond.
Definition cmi_mm_local (b : base) (vars : list arr) (cond : arr) : res (list R) :=
  let* _ := cmi_init vars (arr_len cond) in
  cmi_local b (Some b) vars cond.
