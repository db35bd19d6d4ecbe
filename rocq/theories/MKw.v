(** Model: how keyword arguments travel through the constructors of the estimator classes
    (infomeasure/estimators: base.py, mixins.py and the [__init__] methods of all classes in entropy,
    mutual_information and transfer_entropy).  Each class has a chain of [__init__] methods, in method resolution order;
    every method binds its keyword parameters, keeps the rest in **kwargs if it has that, and calls the next one.
    What else the methods do (checking and preparing data) is a parameter: a check before and one after the call of
    the next method, which may raise. *)
From Coq Require Import List ZArith Arith Bool String.
From Verif Require Import Res MEst MDisp.
Import ListNotations.
Local Open Scope string_scope. Local Open Scope list_scope.

(** a value: given by the user, or a default or constant of the source, as text *)
Inductive kval (D : Type) : Type := Given (v : arg D) | Src (t : string).
Arguments Given {D}. Arguments Src {D}.
(** what a method passes on under some name: one of its own parameters or a constant *)
Inductive fval : Type := FOwn (p : string) | FConst (t : string).

(** one [__init__] method: its class, the positional parameters (a keyword of that name is a TypeError), the keyword parameters with the
    text of their default ([None]: required), whether it has **kwargs, the names it removes from **kwargs
    ([kwargs.pop]), the keyword arguments of its call of the next method - depending on whether its parameter [cond] is given -
    and whether it returns at once for a DiscreteData argument *)
Record layer : Type := mkLayer {
  l_name : string;
  l_pos : list string;
  l_own : list (string * option string);
  l_var : bool;
  l_pop : list string;
  l_fwd : bool -> list (string * fval);
  l_dd : bool }.

Section Run.
Context {D : Type}.
Notation kval := (kval D).
Definition vkw : Type := list (string * kval).
Fixpoint vget (kw : vkw) (k : string) : option kval :=
  match kw with [] => None | (a, v) :: r => if String.eqb a k then Some v else vget r k end.
Definition vdrop (names : list string) (kw : vkw) : vkw := filter (fun p => negb (one_of names (fst p))) kw.
Definition names {V} (kw : list (string * V)) : list string := map fst kw.

(** binding of the keyword parameters: a missing required one is a TypeError *)
Fixpoint bind_own (own : list (string * option string)) (kw : vkw) : res vkw :=
  match own with
  | [] => Ok []
  | (p, d) :: r =>
      match vget kw p, d with
      | Some v, _ => let* b := bind_own r kw in Ok ((p, v) :: b)
      | None, Some t => let* b := bind_own r kw in Ok ((p, Src t) :: b)
      | None, None => Raise TypeError
      end
  end.
(** the parameter [cond] is there and not None *)
Definition cond_given (b : vkw) : bool :=
  match vget b "cond" with Some (Given v) => negb (is_none v) | Some (Src t) => negb (String.eqb t "None") | None => false end.
(** the value of a forwarded argument ([FOwn] always names a parameter of the method) *)
Definition fwd_val (b : vkw) (f : fval) : kval :=
  match f with FConst t => Src t | FOwn p => match vget b p with Some v => v | None => Src "None" end end.

(** what happens before and after the call of the next method, and whether the data is a DiscreteData object *)
Record checks : Type := mkChecks { before : string -> vkw -> res unit; after : string -> vkw -> res unit; is_dd : bool }.

(** Construction along a chain: the bindings of every method that ran.  The last method calls no other. *)
Fixpoint run (C : checks) (chain : list layer) (kw : vkw) : res (list (string * vkw)) :=
  match chain with
  | [] => Ok []
  | l :: rest =>
      if existsb (fun p => one_of (l_pos l) p) (names kw) then Raise TypeError
      else
        let* b := bind_own (l_own l) kw in
        let extra := vdrop (names (l_own l)) kw in
        if negb (l_var l) && negb (Nat.eqb (List.length extra) 0) then Raise TypeError
        else if l_dd l && is_dd C then Ok [(l_name l, (b ++ extra)%list)]
        else
          let* _ := before C (l_name l) b in
          let extra' := vdrop (l_pop l) extra in
          let fwd := map (fun nf => (fst nf, fwd_val b (snd nf))) (l_fwd l (cond_given b)) in
          if negb (Nat.eqb (List.length rest) 0) && existsb (fun p => one_of (names fwd) p) (names extra') then Raise TypeError
          else
            let* r := run C rest (fwd ++ extra')%list in
            let* _ := after C (l_name l) b in
            Ok ((l_name l, b) :: r)
  end.

(** keyword arguments as the user gives them *)
Definition user (kw : kwargs D) : vkw := map (fun p => (fst p, Given (snd p))) kw.
End Run.
Arguments vkw : clear implicits.
Arguments checks : clear implicits.

(** ** The methods *)
Definition self : list string := ["self"].
Definition same (ns : list string) : list (string * fval) := map (fun n => (n, FOwn n)) ns.
(** a method ( *args, **kwargs) that passes everything on *)
Definition pass_layer (n : string) : layer := mkLayer n self [] true [] (fun _ => []) false.
(** default of [base] in all signatures *)
Definition base_d : string * option string := ("base", Some "Config.get('base')").

(** base.py 67-71 *)
Definition L_estimator : layer := mkLayer "Estimator" self [base_d] false [] (fun _ => []) false.
(** base.py 282-340 *)
Definition L_entropy : layer := mkLayer "EntropyEstimator" self [base_d] false [] (fun _ => same ["base"]) false.
(** base.py 479-516 *)
Definition L_mi : layer :=
  mkLayer "MutualInformationEstimator" self [("offset", Some "0"); ("normalize", Some "False"); base_d] true [] (fun _ => same ["base"]) false.
(** base.py 637-667 *)
Definition L_cmi : layer :=
  mkLayer "ConditionalMutualInformationEstimator" self [("cond", Some "None"); ("normalize", Some "False"); ("offset", Some "None"); base_d]
    true [] (fun _ => same ["base"]) false.
Definition pos_te : list string := ["self"; "source"; "dest"].
(** base.py 794-844 *)
Definition L_te : layer :=
  mkLayer "TransferEntropyEstimator" pos_te
    [("prop_time", Some "0"); ("src_hist_len", Some "1"); ("dest_hist_len", Some "1"); ("step_size", Some "1"); ("offset", Some "None"); base_d]
    true [] (fun _ => same ["base"]) false.
(** base.py 979-1018 *)
Definition L_cte : layer :=
  mkLayer "ConditionalTransferEntropyEstimator" pos_te
    [("cond", Some "None"); ("src_hist_len", Some "1"); ("dest_hist_len", Some "1"); ("cond_hist_len", Some "1"); ("step_size", Some "1");
     ("prop_time", Some "None"); ("offset", Some "None"); base_d]
    true [] (fun _ => same ["base"]) false.
(** base.py 1128-1159 *)
Definition L_discrete_h : layer := mkLayer "DiscreteHEstimator" self [] true [] (fun _ => []) true.
(** mixins.py 32-35, 69-84, 367-368, 500-503, 530-536 *)
Definition L_random : layer := mkLayer "RandomGeneratorMixin" self [("seed", Some "None")] true [] (fun _ => []) false.
Definition L_testing : layer := pass_layer "StatisticalTestingMixin".
Definition L_dmi : layer := pass_layer "DiscreteMIMixin".
Definition L_effective : layer := pass_layer "EffectiveValueMixin".
Definition L_workers : layer := mkLayer "WorkersMixin" self [("workers", Some "1")] true [] (fun _ => []) false.

(** an entropy class with its own [__init__] *)
Definition own_h (n : string) (own : list (string * option string)) (fwd : list string) : layer :=
  mkLayer n self (own ++ [base_d])%list false [] (fun _ => same fwd) false.
Definition rest_h : list layer := [L_entropy; L_estimator].
Definition rest_dh : list layer := [L_discrete_h; L_entropy; L_estimator].

(** The chain of an entropy class, by path (method resolution orders of infomeasure/estimators/entropy/*.py) *)
Definition chain_h (f : string) : option (list layer) :=
  if one_of ["discrete"; "miller_madow"; "bonachela"; "chao_shen"; "chao_wang_jost"; "grassberger"; "shrink"; "zhang"] f then Some rest_dh
  (* ansb.py 67-77 *)
  else if String.eqb f "ansb" then Some (own_h "AnsbEntropyEstimator" [("K", Some "None"); ("undersampled", Some "0.1")] ["base"] :: rest_dh)
  (* bayes.py 66-90 *)
  else if String.eqb f "bayes" then Some (own_h "BayesEntropyEstimator" [("alpha", None); ("K", Some "None")] ["base"] :: rest_dh)
  (* nsb.py 83-86 *)
  else if String.eqb f "nsb" then Some (own_h "NsbEntropyEstimator" [("K", Some "None")] ["base"] :: rest_dh)
  (* kernel.py 126-151 *)
  else if String.eqb f "kernel"
  then Some (own_h "KernelEntropyEstimator" [("bandwidth", None); ("kernel", None); ("workers", Some "1")] ["workers"; "base"] :: L_workers :: rest_h)
  (* kozachenko_leonenko.py 127-170 *)
  else if String.eqb f "kozachenko_leonenko"
  then Some (own_h "KozachenkoLeonenkoEntropyEstimator"
               [("k", Some "4"); ("ksg_id", Some "1"); ("noise_level", Some "1e-10"); ("minkowski_p", Some "inf")] ["base"] :: L_random :: rest_h)
  (* ordinal.py 64-115 *)
  else if String.eqb f "ordinal"
  then Some (own_h "OrdinalEntropyEstimator" [("embedding_dim", None); ("step_size", Some "1"); ("stable", Some "False")] ["base"] :: rest_h)
  (* renyi.py 47-73 *)
  else if String.eqb f "renyi" then Some (own_h "RenyiEntropyEstimator" [("k", Some "4"); ("alpha", Some "None")] ["base"] :: rest_h)
  (* tsallis.py 45-71 *)
  else if String.eqb f "tsallis" then Some (own_h "TsallisEntropyEstimator" [("k", Some "4"); ("q", Some "None")] ["base"] :: rest_h)
  else None.

(** the parts of a mutual-information base class: its own parameters, what it passes on besides [offset] and [base],
    the names it pops from **kwargs and a mixin behind it *)
Record mi_part : Type := mkPart { p_own : list (string * option string); p_fwd : list (string * fval); p_pop : list string; p_mix : list layer }.
Definition no_norm : list (string * fval) := [("normalize", FConst "False")].
Definition mi_part_of (f : string) : option mi_part :=
  (* bonachela.py, chao_shen.py, chao_wang_jost.py, grassberger.py, shrink.py, zhang.py 35-68 *)
  if one_of ["bonachela"; "chao_shen"; "chao_wang_jost"; "grassberger"; "shrink"; "zhang"] f then Some (mkPart [] [] [] [])
  (* ansb.py 37-77 *)
  else if String.eqb f "ansb" then Some (mkPart [("undersampled", Some "0.1")] [] [] [])
  (* bayes.py 39-91 *)
  else if String.eqb f "bayes" then Some (mkPart [("alpha", None); ("K", Some "None")] [] [] [])
  (* nsb.py 36-75 *)
  else if String.eqb f "nsb" then Some (mkPart [("K", Some "None")] [] [] [])
  (* discrete.py 41-76, miller_madow.py 39-69 *)
  else if one_of ["discrete"; "miller_madow"] f then Some (mkPart [] no_norm [] [L_dmi])
  (* kernel.py 47-109 *)
  else if String.eqb f "kernel"
  then Some (mkPart [("bandwidth", Some "None"); ("kernel", Some "None"); ("workers", Some "1"); ("normalize", Some "False")]
               (same ["workers"; "normalize"]) [] [L_workers])
  (* kraskov_stoegbauer_grassberger.py 50-118 *)
  else if String.eqb f "kraskov_stoegbauer_grassberger"
  then Some (mkPart [("k", Some "4"); ("ksg_id", Some "1"); ("noise_level", Some "1e-10"); ("minkowski_p", Some "inf"); ("normalize", Some "False")]
               (same ["normalize"]) [] [])
  (* ordinal.py 64-142 *)
  else if String.eqb f "ordinal"
  then Some (mkPart [("embedding_dim", Some "None"); ("step_size", Some "1"); ("stable", Some "False")] no_norm ["step_size"] [])
  (* renyi.py 44-111, tsallis.py 44-114 *)
  else if String.eqb f "renyi"
  then Some (mkPart [("k", Some "4"); ("alpha", Some "None"); ("noise_level", Some "1e-08"); ("normalize", Some "False")] (same ["normalize"]) ["step_size"] [])
  else if String.eqb f "tsallis"
  then Some (mkPart [("k", Some "4"); ("q", Some "None"); ("noise_level", Some "1e-08"); ("normalize", Some "False")] (same ["normalize"]) ["step_size"] [])
  else None.

(** the base class: [cond] is passed on only when it is given *)
Definition L_mi_base (p : mi_part) : layer :=
  mkLayer "BaseMIEstimator" self ([("cond", Some "None"); ("offset", Some "0"); base_d] ++ p_own p) true (p_pop p)
    (fun c => (if c then same ["cond"] else []) ++ same ["offset"; "base"] ++ p_fwd p) false.
Definition chain_mi (f : string) : option (list layer) :=
  option_map (fun p => L_mi_base p :: p_mix p ++ [L_mi; L_testing; L_random; L_estimator]) (mi_part_of f).
Definition chain_cmi (f : string) : option (list layer) :=
  option_map (fun p => L_mi_base p :: p_mix p ++ [L_cmi; L_testing; L_random; L_estimator]) (mi_part_of f).

(** transfer entropy: own parameters, what is passed on besides the common ones, mixins ([DiscreteTEMixin] has no [__init__]) *)
Definition te_part_of (f : string) : option mi_part :=
  (* bonachela.py, chao_shen.py, chao_wang_jost.py, grassberger.py, shrink.py, zhang.py 43-108 *)
  if one_of ["bonachela"; "chao_shen"; "chao_wang_jost"; "grassberger"; "shrink"; "zhang"] f then Some (mkPart [] [] [] [])
  (* ansb.py 45-117 *)
  else if String.eqb f "ansb" then Some (mkPart [("undersampled", Some "0.1")] [] [] [])
  (* bayes.py 52-131 *)
  else if String.eqb f "bayes" then Some (mkPart [("alpha", None); ("K", Some "None")] [] [] [])
  (* nsb.py 44-114 *)
  else if String.eqb f "nsb" then Some (mkPart [("K", Some "None")] [] [] [])
  (* discrete.py 45-114, miller_madow.py 43-109 *)
  else if one_of ["discrete"; "miller_madow"] f then Some (mkPart [] [] [] [])
  (* kernel.py 53-125 *)
  else if String.eqb f "kernel"
  then Some (mkPart [("bandwidth", Some "None"); ("kernel", Some "None"); ("workers", Some "1")] (same ["workers"]) [] [L_workers])
  (* kraskov_stoegbauer_grassberger.py 56-139 *)
  else if String.eqb f "kraskov_stoegbauer_grassberger"
  then Some (mkPart [("k", Some "4"); ("ksg_id", Some "1"); ("noise_level", Some "1e-08"); ("minkowski_p", Some "inf")] [] [] [])
  (* ordinal.py 65-164 *)
  else if String.eqb f "ordinal" then Some (mkPart [("embedding_dim", None); ("stable", Some "False")] [] [] [])
  (* renyi.py 59-141, tsallis.py 60-143 *)
  else if String.eqb f "renyi" then Some (mkPart [("k", Some "4"); ("alpha", Some "None"); ("noise_level", Some "1e-08")] [] [] [])
  else if String.eqb f "tsallis" then Some (mkPart [("k", Some "4"); ("q", Some "None"); ("noise_level", Some "1e-08")] [] [] [])
  else None.
Definition L_te_base (p : mi_part) : layer :=
  mkLayer "BaseTEEstimator" pos_te
    ([("cond", Some "None"); ("prop_time", Some "0"); ("step_size", Some "1"); ("src_hist_len", Some "1"); ("dest_hist_len", Some "1");
      ("cond_hist_len", Some "1"); ("offset", Some "None"); base_d] ++ p_own p) true (p_pop p)
    (fun c => (if c then same ["cond"; "step_size"; "src_hist_len"; "dest_hist_len"; "cond_hist_len"; "prop_time"; "offset"; "base"]
               else same ["prop_time"; "src_hist_len"; "dest_hist_len"; "step_size"; "offset"; "base"]) ++ p_fwd p) false.
Definition chain_te (f : string) : option (list layer) :=
  option_map (fun p => L_te_base p :: p_mix p ++ [L_te; L_effective; L_testing; L_random; L_estimator]) (te_part_of f).
Definition chain_cte (f : string) : option (list layer) :=
  option_map (fun p => L_te_base p :: p_mix p ++ [L_cte; L_effective; L_testing; L_random; L_estimator]) (te_part_of f).

(** The chain of the class at an import path (functional.py 14-176): measure directory, module, class name *)
Definition chain_of (path : string) : option (list layer) :=
  let mods := ["ansb"; "bayes"; "bonachela"; "chao_shen"; "chao_wang_jost"; "discrete"; "grassberger"; "kernel"; "kozachenko_leonenko";
               "kraskov_stoegbauer_grassberger"; "miller_madow"; "nsb"; "ordinal"; "renyi"; "shrink"; "tsallis"; "zhang"] in
  let cls := ["Ansb"; "Bayes"; "Bonachela"; "ChaoShen"; "ChaoWangJost"; "Discrete"; "Grassberger"; "Kernel"; "KozachenkoLeonenko";
              "KSG"; "MillerMadow"; "Nsb"; "Ordinal"; "Renyi"; "Shrink"; "Tsallis"; "Zhang"] in
  let p dir mc suffix := ("infomeasure.estimators." ++ dir ++ "." ++ fst mc ++ "." ++ snd mc ++ suffix)%string in
  let look dir suffix (chain : string -> option (list layer)) :=
    find (fun pc => String.eqb (fst pc) path) (map (fun mc => (p dir mc suffix, chain (fst mc))) (combine mods cls)) in
  match look "entropy" "EntropyEstimator" chain_h, look "mutual_information" "MIEstimator" chain_mi, look "mutual_information" "CMIEstimator" chain_cmi,
        look "transfer_entropy" "TEEstimator" chain_te, look "transfer_entropy" "CTEEstimator" chain_cte with
  | Some (_, c), _, _, _, _ | _, Some (_, c), _, _, _ | _, _, Some (_, c), _, _ | _, _, _, Some (_, c), _ | _, _, _, _, Some (_, c) => c
  | _, _, _, _, _ => None
  end.

(** Calling the class at a path with keyword arguments *)
Definition construct {D} (C : checks D) (path : string) (kw : kwargs D) : res (list (string * vkw D)) :=
  match chain_of path with Some ch => run C ch (user kw) | None => Raise RuntimeError end.
