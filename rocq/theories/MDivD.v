(** Model: the two divergences as the API functions that choose the estimator class by the approach name and build
    estimator objects (infomeasure/composite_measures/kld.py 7-49, jsd.py 18-109), on top of the dispatch model
    MDisp.v.  Everything a constructor and its object can do is a parameter ([eenv]); [count_env] below fills it in
    for the estimators on counts. *)
From Coq Require Import Reals List ZArith Arith Bool String.
From Verif Require Import Res RSum Spec Ord MBase MData MEntropy MGeneric MEst MNsb MDiv MCtor MArgs MDisp.
Import ListNotations.
Local Open Scope R_scope.

(** An entropy estimator object: [global_val()], the dictionary [dist_dict] (asked for after [global_val]) and the
    logarithm base of [_log_base].  [K] is the type of the dictionary's keys. *)
Record eobj (K : Type) : Type := mkObj { g_val : res R; d_dict : res (list (K * R)); o_base : base }.
Arguments mkObj {K}. Arguments g_val {K}. Arguments d_dict {K}. Arguments o_base {K}.

(** What the divergences use of the outside world: calling the class at a path with data and keyword arguments,
    [isinstance(var, (list, ndarray))] and [numpy.concatenate(data, axis=0)] *)
Record eenv (D K : Type) : Type := mkEnv {
  build : string -> list D -> kwargs D -> res (eobj K);
  is_array : D -> bool;
  concat_data : list D -> res D }.
Arguments mkEnv {D K}. Arguments build {D K}. Arguments is_array {D K}. Arguments concat_data {D K}.

Section Div.
Context {D K : Type} `{EqDec K}.
Variable E : eenv D K.

(** [kullback_leiber_divergence(data_p, data_q, approach, kwargs...)] (kld.py 43-49); the default of [approach] is the empty
    string *)
Definition kld_api (p q : D) (approach : arg D) (kw : kwargs D) : res R :=
  if is_none approach then Raise ValueError
  else let* c := get_estimator_class (AStr "entropy"%string) approach in
       let* o1 := build E c [p; q] kw in
       let* hqp := g_val o1 in
       let* o2 := build E c [p] kw in
       let* hp := g_val o2 in
       Ok (hqp - hp).

(** The classes named in jsd.py 63-83 and 99, by import path.  No entropy class is a subclass of another one
    (infomeasure/estimators/entropy/*.py), so [issubclass] is equality. *)
Definition jsd_unsupported : list string :=
  ["infomeasure.estimators.entropy.renyi.RenyiEntropyEstimator";
   "infomeasure.estimators.entropy.tsallis.TsallisEntropyEstimator";
   "infomeasure.estimators.entropy.kozachenko_leonenko.KozachenkoLeonenkoEntropyEstimator"]%string.
Definition jsd_dist : list string :=
  ["infomeasure.estimators.entropy.ordinal.OrdinalEntropyEstimator";
   "infomeasure.estimators.entropy.bayes.BayesEntropyEstimator";
   "infomeasure.estimators.entropy.discrete.DiscreteEntropyEstimator";
   "infomeasure.estimators.entropy.shrink.ShrinkEntropyEstimator"]%string.
Definition jsd_kernel : string := "infomeasure.estimators.entropy.kernel.KernelEntropyEstimator"%string.

(** [jensen_shannon_divergence(x1, .., xn, approach, kwargs...)] (jsd.py 58-109).  [sum] of no values divided by
    [len(data)] raises ZeroDivisionError; the kernel branch concatenates before. *)
Definition jsd_api (data : list D) (approach : arg D) (kw : kwargs D) : res R :=
  if is_none approach then Raise ValueError
  else if negb (forallb (is_array E) data) then Raise ValueError
  else
    let* c := get_estimator_class (AStr "entropy"%string) approach in
    if one_of jsd_unsupported c then Raise ValueError
    else if one_of jsd_dist c then
      let* os := mapM (fun x => build E c [x] kw) data in
      let* hs := mapM g_val os in
      match os with
      | [] => Raise ZeroDivisionError
      | o :: _ => let* ds := mapM d_dict os in jsd_of (o_base o) ds hs
      end
    else if String.eqb c jsd_kernel then
      let* x := concat_data E data in
      let* om := build E c [x] kw in
      let* hm := g_val om in
      let* hs := mapM (fun v => let* o := build E c [v] kw in g_val o) data in
      match data with
      | [] => Raise ZeroDivisionError
      | _ => Ok (hm - sumR hs / INR (List.length data))
      end
    else Raise ValueError.

(** [entropy(...)] and [cross_entropy(...)] carried out: the constructor call and [.result()], which is
    [global_val()] (functional.py 325-404, base.py 97-112) *)
Definition run_ctor (c : ctor D) : res R := let* o := build E (c_class c) (c_data c) (c_kw c) in g_val o.
Definition entropy_api (data : list D) (kw : kwargs D) : res R := let* c := call_entropy data kw in run_ctor c.
Definition cross_entropy_api (data : list D) (kw : kwargs D) : res R := let* c := call_cross_entropy data kw in run_ctor c.
End Div.

(** The environment of the count-based estimators.  [base_of], [alpha_of], [k_of] read the keyword arguments; an
    unknown keyword or a missing [alpha] raises there.  Each class has a global value on one data set, a
    cross-entropy and (for three of them) a dictionary. *)
Record cclass : Type := mkCls {
  k_est : est;
  k_cross : base -> ddata -> ddata -> res R;
  k_dict : ddata -> res (list (Z * R)) }.

(** a class without [dist_dict]: AttributeError *)
Definition no_dict (d : ddata) : res (list (Z * R)) := Raise AttributeError.
(** bayes.py 115-118, shrink.py 106-111 *)
Definition probs_dict (probs : ddata -> res (list R)) (d : ddata) : res (list (Z * R)) :=
  let* p := probs d in Ok (combine (dd_uniq d) p).

(** the classes of infomeasure/estimators/entropy by path (functional.py 14-43), with the parameters [a], [Kp] of
    Bayes, NSB and ANSB already evaluated and scipy's special functions [NE] *)
Definition cls_of (NE : nsb_env) (a : alpha_arg) (Kp : option Z) (path : string) : option cclass :=
  let e m c := append "infomeasure.estimators.entropy." (append m (append "." c)) in
  if String.eqb path (e "discrete" "DiscreteEntropyEstimator")%string
  then Some (mkCls est_discrete discrete_cross (fun d => Ok (distribution_dict d)))
  else if String.eqb path (e "miller_madow" "MillerMadowEntropyEstimator")%string then Some (mkCls est_mm mm_cross no_dict)
  else if String.eqb path (e "bayes" "BayesEntropyEstimator")%string
  then Some (mkCls (est_bayes a Kp) (bayes_cross a Kp) (probs_dict (bayes_probs a Kp)))
  else if String.eqb path (e "shrink" "ShrinkEntropyEstimator")%string
  then Some (mkCls est_shrink no_cross (probs_dict shrink_probs))
  else if String.eqb path (e "ansb" "AnsbEntropyEstimator")%string then Some (mkCls (est_ansb Kp) no_cross no_dict)
  else if String.eqb path (e "nsb" "NsbEntropyEstimator")%string then Some (mkCls (est_nsb NE Kp) no_cross no_dict)
  else if String.eqb path (e "bonachela" "BonachelaEntropyEstimator")%string then Some (mkCls est_bonachela no_cross no_dict)
  else if String.eqb path (e "chao_shen" "ChaoShenEntropyEstimator")%string then Some (mkCls est_chao_shen no_cross no_dict)
  else if String.eqb path (e "chao_wang_jost" "ChaoWangJostEntropyEstimator")%string then Some (mkCls est_cwj no_cross no_dict)
  else if String.eqb path (e "grassberger" "GrassbergerEntropyEstimator")%string then Some (mkCls est_grassberger no_cross no_dict)
  else if String.eqb path (e "zhang" "ZhangEntropyEstimator")%string then Some (mkCls est_zhang no_cross no_dict)
  else None.

(** the object of a count-based class on given arguments (base.py 1146-1159, 366-388; see MArgs.v) *)
Definition count_obj (k : cclass) (b : base) (args : list parg) : res (eobj Z) :=
  match args with
  | [] => Raise IndexError
  | PDD d :: _ => Ok (mkObj (e_global (k_est k) b d) (k_dict k d) b)
  | _ =>
      let* ins := h_args args in
      let* ds := mapM make_data ins in
      match ds with
      | [d] => Ok (mkObj (e_global (k_est k) b d) (k_dict k d) b)
      | [p; q] => Ok (mkObj (k_cross k b p q) (k_dict k p) b)
      | _ => Raise RuntimeError
      end
  end.

(** keyword arguments as read by the constructor of the class at a path: the base, [alpha] and [K] *)
Definition kw_reader : Type := string -> kwargs parg -> res (base * (alpha_arg * option Z)).

(** [other] stands for the classes on real data and ordinal patterns; lists and arrays are [PSeq] *)
Definition count_env (NE : nsb_env) (rd : kw_reader) (other : string -> list parg -> kwargs parg -> res (eobj Z))
    (cat : list parg -> res parg) : eenv parg Z :=
  mkEnv (fun path args kw =>
           match cls_of NE AlphaOther None path with
           | None => other path args kw
           | Some _ =>
               let* x := rd path kw in
               match cls_of NE (fst (snd x)) (snd (snd x)) path with
               | Some k => count_obj k (fst x) args
               | None => Raise RuntimeError
               end
           end)
        is_seq cat.
