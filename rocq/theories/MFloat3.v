(** Model: cross-entropy, Kullback-Leibler and Jensen-Shannon divergence with approach "discrete", in double precision. *)
From Coq Require Import Reals List ZArith Arith Bool.
From Verif Require Import Res RSum Spec Ord MBase MData MEntropy MDiv MFloat.
Import ListNotations.
Local Open Scope R_scope.

(** [DiscreteData.distribution_dict] (infomeasure/utils/data.py 120-133) with rounded probabilities *)
Definition f_dict (d : ddata) : list (Z * R) := combine (dd_uniq d) (f_probabilities d).

(** [DiscreteEntropyEstimator._cross_entropy] (infomeasure/estimators/entropy/discrete.py 95-113): [ord] lists the common
    values in the iteration order of the Python set; each product of two doubles is rounded, [np_sum] adds them *)
Definition f_cross (E : fenv) (ord : list Z -> list Z) (b : base) (p q : ddata) : res R :=
  match common (dd_uniq p) (dd_uniq q) with
  | [] => Ok 0
  | u => let* ts := mapM (fun v => let* pv := dget_exn (f_dict p) v in let* qv := dget_exn (f_dict q) v in
                                   let* l := f_log_base E b qv in Ok (fl (pv * l))) (ord u) in
         Ok (- f_sum E ts)
  end.

(** [cross_entropy(p, q, approach="discrete")] for integer arrays (base.py 382-384, 1276-1283) *)
Definition f_cross_api (E : fenv) (ord : list Z -> list Z) (b : base) (p q : arr) : res R :=
  let* dp := make_data (EArr p) in let* dq := make_data (EArr q) in f_cross E ord b dp dq.

(** [kullback_leiber_divergence(p, q, approach="discrete")] (infomeasure/composite_measures/kld.py 43-49) *)
Definition f_kld_api (E : fenv) (ord : list Z -> list Z) (b : base) (p q : arr) : res R :=
  let* h_qp := f_cross_api E ord b p q in
  let* h_p := f_entropy E b (EArr p) in
  Ok (fl (h_qp - h_p)).

(** Python's [sum] of numpy doubles: left to right from the integer 0 *)
Definition py_sum (l : list R) : R := fold_left (fun a x => fl (a + x)) l 0.

(** [jensen_shannon_divergence(x1, ..., xn, approach="discrete")] (infomeasure/composite_measures/jsd.py 75-98): [ord]
    lists the keys of the union in the iteration order of the Python set *)
Definition f_jsd_api (E : fenv) (ord : list Z -> list Z) (b : base) (vars : list arr) : res R :=
  let* dd := mapM (fun a => make_data (EArr a)) vars in
  let* hs := mapM (fun d => f_plogp E b (f_probabilities d)) dd in
  match hs with
  | [] => Raise ZeroDivisionError
  | _ =>
      let marginal := fl (py_sum hs / INR (length vars)) in
      let ds := map f_dict dd in
      let keys := ord (nodup eq_dec (concat (map (map fst) ds))) in
      let mix := map (fun k => fl (py_sum (map (fun d => get0 d k) ds) / INR (length ds))) keys in
      let* m := f_plogp E b mix in
      Ok (fl (m - marginal))
  end.
