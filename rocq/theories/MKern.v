(** Model: kernel density estimation and the kernel estimators.  Floats are exact reals. *)
From Coq Require Import Reals List ZArith Arith Bool.
From Verif Require Import Res RSum Spec SpecBase MBase MTE MPct MNorm MCont.
Import ListNotations.
Local Open Scope R_scope.

(** what the estimators take from outside this model: [cpus] is [multiprocessing.cpu_count()]; [mvg data h] is
    the density function of [scipy.stats.gaussian_kde] with bandwidth factor [h] for data of two or more
    dimensions, after the eigenvalue projection of infomeasure/estimators/utils/kde.py 133-159 *)
Record kenv : Type := mkKenv { cpus : Z; mvg : list pt -> R -> res (pt -> R) }.

(** the [bandwidth] argument: a number, or an object that is not a [numpy.number] subtype *)
Inductive barg : Type := BwNum (h : R) | BwOther.
(** the [kernel] argument: "gaussian", "box" or anything else *)
Inductive kern : Type := KGauss | KBox | KOther.

(** an array after [squeeze]: one element gives a 0-d array *)
Inductive darr : Type := D0 (x : R) | D1 (l : list R).
Definition squeeze (l : list R) : darr := match l with [x] => D0 x | _ => D1 l end.
Definition flat (d : darr) : list R := match d with D0 x => [x] | D1 l => l end.

(** [numpy.array_split(l, w)]: the first [len mod w] sections have one element more *)
Fixpoint split_sizes {A} (sizes : list nat) (l : list A) : list (list A) :=
  match sizes with
  | [] => []
  | k :: ks => firstn k l :: split_sizes ks (skipn k l)
  end.
Definition array_split {A} (l : list A) (w : Z) : res (list (list A)) :=
  if Z.leb w 0 then Raise ValueError
  else let k := Z.to_nat w in
       Ok (split_sizes (repeat (S (length l / k)) (length l mod k) ++ repeat (length l / k)%nat (k - length l mod k)) l).

(** [numpy.concatenate] of squeezed arrays: 0-d arrays are rejected *)
Definition concat_d (parts : list darr) : res darr :=
  if existsb (fun d => match d with D0 _ => true | D1 _ => false end) parts then Raise ValueError
  else Ok (D1 (concat (map flat parts))).

(** [parallel_kde_evaluate] and [query_chunk] (infomeasure/estimators/utils/kde.py 165-211): [build] constructs
    the density function from the [n] data points, once per chunk *)
Definition parallel_kde_evaluate {A} (build : res (A -> R)) (n : nat) (at_ : list A) (workers : Z) : res darr :=
  if Z.eqb workers 1 || Z.ltb (Z.of_nat n) 20000 then
    let* ev := build in Ok (squeeze (map ev at_))
  else
    let w := Z.min workers (Z.max 1 (Z.of_nat (length at_) / 8000)) in
    let* chunks := array_split at_ w in
    let* parts := mapM (fun c => let* ev := build in Ok (squeeze (map ev c))) chunks in
    concat_d parts.

(** [scipy.stats.gaussian_kde(data, bw_method=h)] for one-dimensional data: normal densities of standard deviation
    h times the sample standard deviation around every point; ValueError for fewer than two points and
    LinAlgError (a ValueError) for zero variance *)
Definition sample_var (xs : list R) : R :=
  sumf (fun x => (x - mean xs) ^ 2) xs / (INR (length xs) - 1).
Definition gauss1 (xs : list R) (h : R) : res (R -> R) :=
  if Nat.leb (length xs) 1 then Raise ValueError
  else let v := sample_var xs * h ^ 2 in
       if Rlt_dec 0 v then
         Ok (fun q => sumf (fun x => exp (- (q - x) ^ 2 / (2 * v))) xs / (INR (length xs) * sqrt (2 * PI * v)))
       else Raise ValueError.

(** [gaussian_kernel_densities] (kde.py 104-162) *)
Definition gaussian_kernel_densities (E : kenv) (data : list pt) (h : R) (at_ : list pt) (workers : Z) : res darr :=
  let build := match width data with
               | 1%nat => let* f := gauss1 (map (fun r => nth 0 r 0) data) h in Ok (fun q : pt => f (nth 0 q 0))
               | _ => mvg E data h
               end in
  parallel_kde_evaluate build (length data) at_ workers.

(** [kde_probability_density_function] (kde.py 23-101).  [tree.query_ball_point] raises ValueError unless
    [workers] is positive or -1 *)
Definition kde (E : kenv) (data : list pt) (bw : barg) (at_ : option (list pt)) (k : kern) (workers : Z) : res darr :=
  match bw with
  | BwOther => Raise ValueError
  | BwNum h =>
      if Rle_dec h 0 then Raise ValueError
      else let* q := match at_ with
                     | None => Ok data
                     | Some a => if Nat.eqb (width data) (width a) then Ok a else Raise ValueError
                     end in
           match k with
           | KGauss => gaussian_kernel_densities E data h q (if Z.eqb workers (-1) then cpus E else workers)
           | KBox =>
               let volume := h ^ width data in
               if Z.leb workers 0 && negb (Z.eqb workers (-1)) then Raise ValueError
               else rmap squeeze
                      (mapM (fun x => np_div (INR (ball_le MInf data x (Some (h / 2)))) (INR (length data) * volume)) q)
           | KOther => Raise ValueError
           end
  end.

(** keyword arguments of the kernel estimators; [WorkersMixin.__init__] (infomeasure/estimators/mixins.py 530-536)
    replaces -1 by the number of processors *)
Record kargs : Type := mkKargs { k_bw : barg; k_kern : kern; k_workers : Z; k_base : base }.
Definition n_workers (E : kenv) (a : kargs) : Z := if Z.eqb (k_workers a) (-1) then cpus E else k_workers a.
Definition kdens (E : kenv) (a : kargs) (data : list pt) : res darr :=
  kde E data (k_bw a) None (k_kern a) (n_workers E a).

(** a negative base is rejected before anything else is computed (infomeasure/estimators/base.py 199-237) *)
Definition base_guard (b : base) : res unit :=
  match b with BNum r => if Rlt_dec r 0 then Raise ValueError else Ok tt | BE => Ok tt end.
(** base 0 makes [_log_base] return the integer 0 instead of an array *)
Definition base_is (b : base) (z : R) : bool :=
  match b with BNum r => if Req_EM_T r z then true else false | BE => false end.

(** ** Entropy *)

(** [-self._log_base(p)] followed by the replacement of nan by 0 (infomeasure/estimators/entropy/kernel.py
    165-168): a zero density and, for base 1, a density of one give nan *)
Definition kent_local (b : base) (p : R) : res R :=
  if Req_EM_T p 0 then Ok 0
  else if base_is b 1 && (if Req_EM_T p 1 then true else false) then Ok 0
  else rmap Ropp (log_base b p).
(** [KernelEntropyEstimator._simple_entropy], [_joint_entropy] (entropy/kernel.py 153-183).  The logarithm of a
    0-d array is a scalar, which does not support item assignment, and neither does the integer 0 *)
Definition kernel_entropy_local (E : kenv) (a : kargs) (i : finput) : res (list R) :=
  let* rows := make_rows i in
  let* d := kdens E a rows in
  let* _ := base_guard (k_base a) in
  if base_is (k_base a) 0 then Raise TypeError
  else match d with
       | D0 _ => Raise TypeError
       | D1 ps => mapM (kent_local (k_base a)) ps
       end.
(** [entropy(data, approach="kernel")]: the mean of the local values (base.py 108-133) *)
Definition kernel_entropy (E : kenv) (a : kargs) (i : finput) : res R :=
  let* ls := kernel_entropy_local E a i in mean_res ls.

(** [KernelEntropyEstimator._cross_entropy] (entropy/kernel.py 185-202): [samples] is the first argument of
    [cross_entropy], [ref] the second; [len] of a 0-d array is a TypeError *)
Definition kernel_cross_entropy (E : kenv) (a : kargs) (samples ref : farr) : res R :=
  let* d := kde E (rows2d ref) (k_bw a) (Some (rows2d samples)) (k_kern a) (n_workers E a) in
  let* _ := base_guard (k_base a) in
  match d with
  | D0 _ => Raise TypeError
  | D1 ps =>
      let* ls := mapM (log_base (k_base a)) (filter (fun p => if Rlt_dec 0 p then true else false) ps) in
      np_div (- sumR ls) (INR (length ps))
  end.

(** ** Mutual information *)

(** [KernelMIEstimator._calculate] (infomeasure/estimators/mutual_information/kernel.py 142-177); [column_stack]
    turns 0-d arrays into one row.  For base 0 the code returns the number 0, here an array of zeros. *)
Definition kernel_mi_form (E : kenv) (a : kargs) (vars : list (list pt)) : res (list R) :=
  let* joint := cstack vars in
  let* pj := kdens E a joint in
  let* ps := mapM (kdens E a) vars in
  let* _ := base_guard (k_base a) in
  mapM (fun row => let* q := np_div (hd 0 row) (fold_right Rmult 1 (tl row)) in log_base (k_base a) q)
       (rows_of 0 (length (flat pj)) (flat pj :: map flat ps)).
Definition kernel_mi_local (E : kenv) (a : kargs) (offset : option Z) (normalize : bool) (vars : list farr) : res (list R) :=
  let* vs := fmi_init offset normalize vars in kernel_mi_form E a vs.
Definition kernel_mi (E : kenv) (a : kargs) (offset : option Z) (normalize : bool) (vars : list farr) : res R :=
  let* ls := kernel_mi_local E a offset normalize vars in mean_res ls.

(** [KernelCMIEstimator._calculate] (mutual_information/kernel.py 210-254): columns [i] and [-1] of the joint array
    stand for variable i and the condition *)
Definition col (j : nat) (r : pt) : R := nth j r 0.
Definition last_col (r : pt) : R := nth (length r - 1) r 0.
Definition kernel_cmi_form (E : kenv) (a : kargs) (vars : list (list pt)) (cond : list pt) : res (list R) :=
  let* joint := cstack (vars ++ [cond]) in
  let* pj := kdens E a joint in
  let* ps := mapM (fun i => kdens E a (map (fun r => [col i r; last_col r]) joint)) (seq 0 (length vars)) in
  let* pz := kdens E a (map (fun r => [last_col r]) joint) in
  let* _ := base_guard (k_base a) in
  mapM (fun row => let* q := np_div (hd 0 row * last row 0) (fold_right Rmult 1 (removelast (tl row))) in
                   log_base (k_base a) q)
       (rows_of 0 (length (flat pj)) (flat pj :: map flat ps ++ [flat pz])).
Definition kernel_cmi_local (E : kenv) (a : kargs) (offset : option Z) (normalize : bool) (vars : list farr) (cond : farr)
  : res (list R) :=
  let* _ := match offset with None | Some 0%Z => Ok tt | _ => Raise ValueError end in
  let* vc := fcmi_init normalize vars cond in kernel_cmi_form E a (fst vc) (snd vc).
Definition kernel_cmi (E : kenv) (a : kargs) (offset : option Z) (normalize : bool) (vars : list farr) (cond : farr) : res R :=
  let* ls := kernel_cmi_local E a offset normalize vars cond in mean_res ls.

(** ** Transfer entropy *)

(** the four densities and the logarithm with inf and nan set to 0 (infomeasure/estimators/transfer_entropy/kernel.py
    181-220, 274-315): [num1] joint, [num2] destination past, [den1], [den2] the two marginals.  As for the
    entropy, a single row or base 0 ends in a TypeError. *)
Definition kte_local (b : base) (n1 n2 d1 d2 : R) : res R :=
  match np_div (n1 * n2) (d1 * d2) with
  | Ok q => match log_base b q with NonFinite => Ok 0 | r => r end
  | _ => Ok 0
  end.
Definition kernel_te_form (E : kenv) (a : kargs) (joint dpast m1 m2 : list pt) : res (list R) :=
  let* pj := kdens E a joint in
  let* pp := kdens E a dpast in
  let* p1 := kdens E a m1 in
  let* p2 := kdens E a m2 in
  let* _ := base_guard (k_base a) in
  if base_is (k_base a) 0 then Raise TypeError
  else match pj, pp, p1, p2 with
       | D1 pj, D1 pp, D1 p1, D1 p2 =>
           mapM (fun row => kte_local (k_base a) (nth 0 row 0) (nth 1 row 0) (nth 2 row 0) (nth 3 row 0))
                (rows_of 0 (length pj) [pj; pp; p2; p1])
       | _, _, _, _ => Raise TypeError
       end.
(** [KernelTEEstimator] (transfer_entropy/kernel.py 53-125, 157-220) *)
Definition kernel_te_local (E : kenv) (k : kargs) (source dest : farr) (a : te_args) (rnd : rand) : res (list R) :=
  let* sd := fte_init (rows2d source) (rows2d dest) (a_prop a) (a_offset a) (a_step a) in
  let* sp := fte_spaces (fst sd) (snd sd) (a_src a) (a_dest a) (a_step a) rnd in
  let '(j, dp, m1, m2) := sp in kernel_te_form E k j dp m1 m2.
Definition kernel_te (E : kenv) (k : kargs) (source dest : farr) (a : te_args) (rnd : rand) : res R :=
  let* ls := kernel_te_local E k source dest a rnd in mean_res ls.
(** [KernelCTEEstimator] (transfer_entropy/kernel.py 250-315) *)
Definition kernel_cte_local (E : kenv) (k : kargs) (source dest cond : farr) (a : te_args) : res (list R) :=
  let* _ := fcte_init (rows2d source) (rows2d dest) (rows2d cond) (a_prop a) (a_offset a) in
  let* sp := fcte_spaces (rows2d source) (rows2d dest) (rows2d cond) (a_src a) (a_dest a) (a_cond a) (a_step a) in
  let '(j, dp, m1, m2) := sp in kernel_te_form E k j dp m1 m2.
Definition kernel_cte (E : kenv) (k : kargs) (source dest cond : farr) (a : te_args) : res R :=
  let* ls := kernel_cte_local E k source dest cond a in mean_res ls.

(** ** Divergences *)
(** [kullback_leiber_divergence(p, q, approach="kernel")] (infomeasure/composite_measures/kld.py 43-49) *)
Definition kernel_kld (E : kenv) (a : kargs) (p q : farr) : res R :=
  let* hqp := kernel_cross_entropy E a p q in
  let* hp := kernel_entropy E a (FArr p) in
  Ok (hqp - hp).

(** [numpy.concatenate(data, axis=0)]: all 1-D, or all 2-D with the same number of columns *)
Definition fconcat (data : list farr) : res farr :=
  match data with
  | [] => Raise ValueError
  | F1 xs :: rest =>
      rmap (fun l => F1 (concat l))
        (mapM (fun a => match a with F1 ys => Ok ys | F2 _ => Raise ValueError end) data)
  | F2 rs :: rest =>
      rmap (fun l => F2 (concat l))
        (mapM (fun a => match a with
                        | F2 qs => if Nat.eqb (width qs) (width rs) then Ok qs else Raise ValueError
                        | F1 _ => Raise ValueError
                        end) data)
  end.
(** [jensen_shannon_divergence( *data, approach="kernel")] (infomeasure/composite_measures/jsd.py 58-62, 99-105):
    the entropy of all samples together minus the mean of the entropies *)
Definition kernel_jsd (E : kenv) (a : kargs) (data : list farr) : res R :=
  let* mix := fconcat data in
  let* hm := kernel_entropy E a (FArr mix) in
  let* hs := mapM (fun v => kernel_entropy E a (FArr v)) data in
  Ok (hm - sumR hs / INR (length data)).
