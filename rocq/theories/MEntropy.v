(** Model: discrete (MLE) and Miller-Madow entropy, cross-entropy, KLD. *)
From Coq Require Import Reals List ZArith Arith Bool.
From Verif Require Import Res RSum Spec Ord MBase MData.
Import ListNotations.
Local Open Scope R_scope.

(** element-wise product followed by [np.sum] *)
Definition dot (p q : list R) : R := sumR (map (fun xy => fst xy * snd xy) (combine p q)).

(** [-np_sum(p * self._log_base(p))], the idiom of discrete.py 76, shrink.py 50, bayes.py 103,
    ordinal.py 223 and jsd.py 97 *)
Definition plogp (b : base) (p : list R) : res R :=
  let* ls := mapM (log_base b) p in Ok (- dot p ls).

(** [DiscreteEntropyEstimator._simple_entropy]
    (infomeasure/estimators/entropy/discrete.py 66-76) *)
Definition discrete_simple (b : base) (d : ddata) : res R := plogp b (probabilities d).

(** look up every data point in a dictionary; a [DiscreteData] built from counts has no data
    and iterating over [None] raises TypeError *)
Definition lookup_data {V} (dict : list (Z * V)) (d : ddata) : res (list V) :=
  match dd_data d with
  | None => Raise TypeError
  | Some xs => mapM (dget_exn dict) xs
  end.

(** [DiscreteEntropyEstimator._extract_local_values] (discrete.py 83-93) *)
Definition discrete_local (b : base) (d : ddata) : res (list R) :=
  let* p := lookup_data (distribution_dict d) d in
  let* ls := mapM (log_base b) p in Ok (map Ropp ls).

(** [MillerMadowEntropyEstimator._mm_factor]
    (infomeasure/estimators/entropy/miller_madow.py 58-65) *)
Definition mm_factor (b : base) (d : ddata) : res R :=
  let* c := np_div (INR (dd_K d) - 1) (2 * IZR (dd_N d)) in to_base b c.

(** [MillerMadowEntropyEstimator._simple_entropy] (miller_madow.py 29-41) *)
Definition mm_simple (b : base) (d : ddata) : res R :=
  let* corr := mm_factor b d in
  let* h := plogp b (probabilities d) in Ok (h + corr).

(** [MillerMadowEntropyEstimator._extract_local_values] (miller_madow.py 43-56) *)
Definition mm_local (b : base) (d : ddata) : res (list R) :=
  let* p := lookup_data (distribution_dict d) d in
  let* corr := mm_factor b d in
  let* ls := mapM (log_base b) p in Ok (map (fun x => - x + corr) ls).

(** [set(uniq_p).intersection(set(uniq_q))]: some list without repetition of the common
    values (the order of a Python set is immaterial for the sum) *)
Definition common (u v : list Z) : list Z :=
  filter (fun x => if in_dec Z.eq_dec x v then true else false) (nodup Z.eq_dec u).

(** the cross-entropy sum shared by discrete.py 109-113, miller_madow.py 81-91,
    bayes.py 177-187 and ordinal.py 279-283 *)
Definition cross_sum (b : base) (up uq : list Z) (dp dq : list (Z * R)) : res R :=
  let* terms := mapM (fun v => let* p := dget_exn dp v in
                               let* q := dget_exn dq v in
                               let* lq := log_base b q in Ok (p * lq)) (common up uq) in
  Ok (- sumR terms).

(** [DiscreteEntropyEstimator._cross_entropy] (discrete.py 95-113) *)
Definition discrete_cross (b : base) (p q : ddata) : res R :=
  match common (dd_uniq p) (dd_uniq q) with
  | [] => Ok 0
  | _ => cross_sum b (dd_uniq p) (dd_uniq q) (distribution_dict p) (distribution_dict q)
  end.

(** [MillerMadowEntropyEstimator._cross_entropy] (miller_madow.py 67-92) *)
Definition mm_cross (b : base) (p q : ddata) : res R :=
  match common (dd_uniq p) (dd_uniq q) with
  | [] => Ok 0
  | _ =>
      let n := IZR (dd_N p + dd_N q) in
      let k := (INR (dd_K p) + INR (dd_K q)) / 2 - 1 in
      let* corr := match b with
                   | BE => np_div k n
                   | BNum r => if Req_EM_T r 0 then Ok 0
                               else let* lb := np_log r in np_div k (n * lb)
                   end in
      let* h := cross_sum b (dd_uniq p) (dd_uniq q) (distribution_dict p) (distribution_dict q) in
      Ok (h + corr)
  end.

(** [entropy(x, approach="discrete", base=b)] for one (possibly joint) variable:
    construct the estimator, then [global_val] (base.py 114-128, 366-388). *)
Definition entropy_discrete (b : base) (i : einput) : res R :=
  let* d := make_data i in discrete_simple b d.
Definition local_discrete (b : base) (i : einput) : res (list R) :=
  let* d := make_data i in discrete_local b d.
Definition entropy_mm (b : base) (i : einput) : res R :=
  let* d := make_data i in mm_simple b d.
Definition local_mm (b : base) (i : einput) : res (list R) :=
  let* d := make_data i in mm_local b d.

(** [cross_entropy(p, q, approach="discrete")] for two 1-D arrays (base.py 382-384) *)
Definition cross_entropy_discrete (b : base) (ps qs : list Z) : res R :=
  let* p := from_data ps in let* q := from_data qs in discrete_cross b p q.


