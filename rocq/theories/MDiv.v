(** Model: Kullback-Leibler and Jensen-Shannon divergence
    (infomeasure/composite_measures/kld.py and jsd.py), for the approaches whose entropy estimator is
    modelled (discrete, Miller-Madow, Bayes, shrinkage, ordinal). *)
From Coq Require Import Reals List ZArith Arith Bool.
From Verif Require Import Res RSum Spec Ord MBase MData MEntropy MMI MTE MGeneric MEst SpecOrd MOrd.
Import ListNotations.
Local Open Scope R_scope.

(** cross-entropy of two variables given as arrays: each is reduced on its own
    (infomeasure/estimators/base.py 1153-1159, 1276-1283), then [_cross_entropy] is called
    (base.py 382-384) *)
Definition cross_of (cross : base -> ddata -> ddata -> res R) (b : base) (p q : arr) : res R :=
  let* dp := make_data (EArr p) in let* dq := make_data (EArr q) in cross b dp dq.
Definition simple_of (simple : base -> ddata -> res R) (b : base) (p : arr) : res R :=
  let* dp := make_data (EArr p) in simple b dp.

(** [kullback_leiber_divergence(p, q, approach=..)] (kld.py 43-49) *)
Definition kld_of (cross : base -> ddata -> ddata -> res R) (simple : base -> ddata -> res R)
    (b : base) (p q : arr) : res R :=
  let* hqp := cross_of cross b p q in
  let* hp := simple_of simple b p in
  Ok (hqp - hp).
Definition kld_disc (b : base) (p q : arr) : res R := kld_of discrete_cross discrete_simple b p q.
Definition kld_mm (b : base) (p q : arr) : res R := kld_of mm_cross mm_simple b p q.
Definition kld_bayes (a : alpha_arg) (K : option Z) (b : base) (p q : arr) : res R :=
  kld_of (bayes_cross a K) (bayes_simple a K) b p q.

(** the ordinal one *)
Definition kld_ordinal {T} `{Cmp T} (k : kind T) (b : base) (ps qs : list T) (d s : Z) : res R :=
  let* hqp := cross_entropy_ordinal k b ps qs d s in
  let* hp := entropy_ordinal k b ps d s in
  Ok (hqp - hp).

(** [dist.get(key, 0)] of a dictionary *)
Fixpoint get0 {K} `{EqDec K} (d : list (K * R)) (k : K) : R :=
  match d with [] => 0 | (a, v) :: r => if eq_dec a k then v else get0 r k end.

(** [jensen_shannon_divergence] once the estimators are built (jsd.py 85-98): [ds] are their
    dictionaries (keys are distinct), [hs] their global values.  Without data [len(data)] is 0.  The
    order of the set of keys is immaterial for the sum. *)
Definition jsd_of {K} `{EqDec K} (b : base) (ds : list (list (K * R))) (hs : list R) : res R :=
  match hs with
  | [] => Raise ZeroDivisionError
  | _ =>
      let keys := nodup eq_dec (concat (map (map fst) ds)) in
      let mix := map (fun k => sumR (map (fun d => get0 d k) ds) / INR (length ds)) keys in
      let* m := plogp b mix in
      Ok (m - sumR hs / INR (length hs))
  end.

(** [jensen_shannon_divergence(x1, ..., xn, approach="discrete")] (jsd.py 75-98, discrete.py 78-81) *)
Definition jsd_discrete (b : base) (vars : list arr) : res R :=
  let* dd := mapM (fun a => make_data (EArr a)) vars in
  let* hs := mapM (discrete_simple b) dd in
  jsd_of b (map distribution_dict dd) hs.

(** approach "shrink" (shrink.py 106-111) and "bayes" (bayes.py 115-118) *)
Definition jsd_probs (probs : ddata -> res (list R)) (b : base) (vars : list arr) : res R :=
  let* dd := mapM (fun a => make_data (EArr a)) vars in
  let* hs := mapM (fun d => let* p := probs d in plogp b p) dd in
  let* ps := mapM probs dd in
  jsd_of b (map (fun dp => combine (dd_uniq (fst dp)) (snd dp)) (combine dd ps)) hs.
Definition jsd_shrink (b : base) (vars : list arr) : res R := jsd_probs shrink_probs b vars.
Definition jsd_bayes (a : alpha_arg) (K : option Z) (b : base) (vars : list arr) : res R :=
  jsd_probs (bayes_probs a K) b vars.

(** approach "ordinal" for series; with dimension 1 every dictionary is [{0: 1.0}] (EO 208-211),
    here the single pattern [[0]] *)
Definition jsd_ordinal {T} `{Cmp T} (k : kind T) (b : base) (vars : list (list T)) (d s : Z) : res R :=
  let* _ := mapM (fun xs => ord_init xs d s) vars in
  let* rs := mapM (fun xs => ord_simple k b xs d s) vars in
  jsd_of b (map (fun r => match snd r with Some o => fst o | None => [([0%nat], 1)] end) rs) (map fst rs).
