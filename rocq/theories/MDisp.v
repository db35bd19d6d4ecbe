(** Model: choice of the estimator class from measure and approach names and the hand-over of arguments
    (infomeasure/estimators/functional.py).  The tables are copied from the source; a class is
    represented by its import path, a constructor call by [ctor]: the class, the positional data and the
    keyword arguments.  Importing the class ([_dynamic_import], 179-194) is not modelled beyond
    returning it: every path in the tables names an existing module and class of /repo. *)
From Coq Require Import List ZArith Arith Bool String Ascii.
From Verif Require Import Res MEst.
Import ListNotations.
Local Open Scope string_scope.

Definition table : Type := list (string * string).

(** functional.py 14-43 *)
Definition entropy_estimators : table := [
  ("ansb", "infomeasure.estimators.entropy.ansb.AnsbEntropyEstimator");
  ("bayes", "infomeasure.estimators.entropy.bayes.BayesEntropyEstimator");
  ("bonachela", "infomeasure.estimators.entropy.bonachela.BonachelaEntropyEstimator");
  ("chao_shen", "infomeasure.estimators.entropy.chao_shen.ChaoShenEntropyEstimator");
  ("cs", "infomeasure.estimators.entropy.chao_shen.ChaoShenEntropyEstimator");
  ("chao_wang_jost", "infomeasure.estimators.entropy.chao_wang_jost.ChaoWangJostEntropyEstimator");
  ("cwj", "infomeasure.estimators.entropy.chao_wang_jost.ChaoWangJostEntropyEstimator");
  ("discrete", "infomeasure.estimators.entropy.discrete.DiscreteEntropyEstimator");
  ("grassberger", "infomeasure.estimators.entropy.grassberger.GrassbergerEntropyEstimator");
  ("kernel", "infomeasure.estimators.entropy.kernel.KernelEntropyEstimator");
  ("metric", "infomeasure.estimators.entropy.kozachenko_leonenko.KozachenkoLeonenkoEntropyEstimator");
  ("kl", "infomeasure.estimators.entropy.kozachenko_leonenko.KozachenkoLeonenkoEntropyEstimator");
  ("miller_madow", "infomeasure.estimators.entropy.miller_madow.MillerMadowEntropyEstimator");
  ("mm", "infomeasure.estimators.entropy.miller_madow.MillerMadowEntropyEstimator");
  ("nsb", "infomeasure.estimators.entropy.nsb.NsbEntropyEstimator");
  ("renyi", "infomeasure.estimators.entropy.renyi.RenyiEntropyEstimator");
  ("shrink", "infomeasure.estimators.entropy.shrink.ShrinkEntropyEstimator");
  ("js", "infomeasure.estimators.entropy.shrink.ShrinkEntropyEstimator");
  ("ordinal", "infomeasure.estimators.entropy.ordinal.OrdinalEntropyEstimator");
  ("symbolic", "infomeasure.estimators.entropy.ordinal.OrdinalEntropyEstimator");
  ("permutation", "infomeasure.estimators.entropy.ordinal.OrdinalEntropyEstimator");
  ("tsallis", "infomeasure.estimators.entropy.tsallis.TsallisEntropyEstimator");
  ("zhang", "infomeasure.estimators.entropy.zhang.ZhangEntropyEstimator")].

(** functional.py 45-76 *)
Definition mi_estimators : table := [
  ("ansb", "infomeasure.estimators.mutual_information.ansb.AnsbMIEstimator");
  ("bayes", "infomeasure.estimators.mutual_information.bayes.BayesMIEstimator");
  ("bonachela", "infomeasure.estimators.mutual_information.bonachela.BonachelaMIEstimator");
  ("chao_shen", "infomeasure.estimators.mutual_information.chao_shen.ChaoShenMIEstimator");
  ("chao_wang_jost", "infomeasure.estimators.mutual_information.chao_wang_jost.ChaoWangJostMIEstimator");
  ("discrete", "infomeasure.estimators.mutual_information.discrete.DiscreteMIEstimator");
  ("grassberger", "infomeasure.estimators.mutual_information.grassberger.GrassbergerMIEstimator");
  ("kernel", "infomeasure.estimators.mutual_information.kernel.KernelMIEstimator");
  ("metric", "infomeasure.estimators.mutual_information.kraskov_stoegbauer_grassberger.KSGMIEstimator");
  ("ksg", "infomeasure.estimators.mutual_information.kraskov_stoegbauer_grassberger.KSGMIEstimator");
  ("miller_madow", "infomeasure.estimators.mutual_information.miller_madow.MillerMadowMIEstimator");
  ("mm", "infomeasure.estimators.mutual_information.miller_madow.MillerMadowMIEstimator");
  ("nsb", "infomeasure.estimators.mutual_information.nsb.NsbMIEstimator");
  ("ordinal", "infomeasure.estimators.mutual_information.ordinal.OrdinalMIEstimator");
  ("symbolic", "infomeasure.estimators.mutual_information.ordinal.OrdinalMIEstimator");
  ("permutation", "infomeasure.estimators.mutual_information.ordinal.OrdinalMIEstimator");
  ("renyi", "infomeasure.estimators.mutual_information.renyi.RenyiMIEstimator");
  ("shrink", "infomeasure.estimators.mutual_information.shrink.ShrinkMIEstimator");
  ("tsallis", "infomeasure.estimators.mutual_information.tsallis.TsallisMIEstimator");
  ("zhang", "infomeasure.estimators.mutual_information.zhang.ZhangMIEstimator")].

(** functional.py 83-114 *)
Definition cmi_estimators : table := [
  ("ansb", "infomeasure.estimators.mutual_information.ansb.AnsbCMIEstimator");
  ("bayes", "infomeasure.estimators.mutual_information.bayes.BayesCMIEstimator");
  ("bonachela", "infomeasure.estimators.mutual_information.bonachela.BonachelaCMIEstimator");
  ("chao_shen", "infomeasure.estimators.mutual_information.chao_shen.ChaoShenCMIEstimator");
  ("chao_wang_jost", "infomeasure.estimators.mutual_information.chao_wang_jost.ChaoWangJostCMIEstimator");
  ("discrete", "infomeasure.estimators.mutual_information.discrete.DiscreteCMIEstimator");
  ("grassberger", "infomeasure.estimators.mutual_information.grassberger.GrassbergerCMIEstimator");
  ("kernel", "infomeasure.estimators.mutual_information.kernel.KernelCMIEstimator");
  ("metric", "infomeasure.estimators.mutual_information.kraskov_stoegbauer_grassberger.KSGCMIEstimator");
  ("ksg", "infomeasure.estimators.mutual_information.kraskov_stoegbauer_grassberger.KSGCMIEstimator");
  ("miller_madow", "infomeasure.estimators.mutual_information.miller_madow.MillerMadowCMIEstimator");
  ("mm", "infomeasure.estimators.mutual_information.miller_madow.MillerMadowCMIEstimator");
  ("nsb", "infomeasure.estimators.mutual_information.nsb.NsbCMIEstimator");
  ("ordinal", "infomeasure.estimators.mutual_information.ordinal.OrdinalCMIEstimator");
  ("symbolic", "infomeasure.estimators.mutual_information.ordinal.OrdinalCMIEstimator");
  ("permutation", "infomeasure.estimators.mutual_information.ordinal.OrdinalCMIEstimator");
  ("renyi", "infomeasure.estimators.mutual_information.renyi.RenyiCMIEstimator");
  ("shrink", "infomeasure.estimators.mutual_information.shrink.ShrinkCMIEstimator");
  ("tsallis", "infomeasure.estimators.mutual_information.tsallis.TsallisCMIEstimator");
  ("zhang", "infomeasure.estimators.mutual_information.zhang.ZhangCMIEstimator")].

(** functional.py 116-144 *)
Definition te_estimators : table := [
  ("ansb", "infomeasure.estimators.transfer_entropy.ansb.AnsbTEEstimator");
  ("bayes", "infomeasure.estimators.transfer_entropy.bayes.BayesTEEstimator");
  ("bonachela", "infomeasure.estimators.transfer_entropy.bonachela.BonachelaTEEstimator");
  ("chao_shen", "infomeasure.estimators.transfer_entropy.chao_shen.ChaoShenTEEstimator");
  ("chao_wang_jost", "infomeasure.estimators.transfer_entropy.chao_wang_jost.ChaoWangJostTEEstimator");
  ("discrete", "infomeasure.estimators.transfer_entropy.discrete.DiscreteTEEstimator");
  ("grassberger", "infomeasure.estimators.transfer_entropy.grassberger.GrassbergerTEEstimator");
  ("kernel", "infomeasure.estimators.transfer_entropy.kernel.KernelTEEstimator");
  ("metric", "infomeasure.estimators.transfer_entropy.kraskov_stoegbauer_grassberger.KSGTEEstimator");
  ("ksg", "infomeasure.estimators.transfer_entropy.kraskov_stoegbauer_grassberger.KSGTEEstimator");
  ("miller_madow", "infomeasure.estimators.transfer_entropy.miller_madow.MillerMadowTEEstimator");
  ("mm", "infomeasure.estimators.transfer_entropy.miller_madow.MillerMadowTEEstimator");
  ("nsb", "infomeasure.estimators.transfer_entropy.nsb.NsbTEEstimator");
  ("ordinal", "infomeasure.estimators.transfer_entropy.ordinal.OrdinalTEEstimator");
  ("symbolic", "infomeasure.estimators.transfer_entropy.ordinal.OrdinalTEEstimator");
  ("permutation", "infomeasure.estimators.transfer_entropy.ordinal.OrdinalTEEstimator");
  ("renyi", "infomeasure.estimators.transfer_entropy.renyi.RenyiTEEstimator");
  ("shrink", "infomeasure.estimators.transfer_entropy.shrink.ShrinkTEEstimator");
  ("tsallis", "infomeasure.estimators.transfer_entropy.tsallis.TsallisTEEstimator");
  ("zhang", "infomeasure.estimators.transfer_entropy.zhang.ZhangTEEstimator")].

(** functional.py 146-176 *)
Definition cte_estimators : table := [
  ("ansb", "infomeasure.estimators.transfer_entropy.ansb.AnsbCTEEstimator");
  ("bayes", "infomeasure.estimators.transfer_entropy.bayes.BayesCTEEstimator");
  ("bonachela", "infomeasure.estimators.transfer_entropy.bonachela.BonachelaCTEEstimator");
  ("chao_shen", "infomeasure.estimators.transfer_entropy.chao_shen.ChaoShenCTEEstimator");
  ("chao_wang_jost", "infomeasure.estimators.transfer_entropy.chao_wang_jost.ChaoWangJostCTEEstimator");
  ("discrete", "infomeasure.estimators.transfer_entropy.discrete.DiscreteCTEEstimator");
  ("grassberger", "infomeasure.estimators.transfer_entropy.grassberger.GrassbergerCTEEstimator");
  ("kernel", "infomeasure.estimators.transfer_entropy.kernel.KernelCTEEstimator");
  ("metric", "infomeasure.estimators.transfer_entropy.kraskov_stoegbauer_grassberger.KSGCTEEstimator");
  ("ksg", "infomeasure.estimators.transfer_entropy.kraskov_stoegbauer_grassberger.KSGCTEEstimator");
  ("miller_madow", "infomeasure.estimators.transfer_entropy.miller_madow.MillerMadowCTEEstimator");
  ("mm", "infomeasure.estimators.transfer_entropy.miller_madow.MillerMadowCTEEstimator");
  ("nsb", "infomeasure.estimators.transfer_entropy.nsb.NsbCTEEstimator");
  ("ordinal", "infomeasure.estimators.transfer_entropy.ordinal.OrdinalCTEEstimator");
  ("symbolic", "infomeasure.estimators.transfer_entropy.ordinal.OrdinalCTEEstimator");
  ("permutation", "infomeasure.estimators.transfer_entropy.ordinal.OrdinalCTEEstimator");
  ("renyi", "infomeasure.estimators.transfer_entropy.renyi.RenyiCTEEstimator");
  ("shrink", "infomeasure.estimators.transfer_entropy.shrink.ShrinkCTEEstimator");
  ("tsallis", "infomeasure.estimators.transfer_entropy.tsallis.TsallisCTEEstimator");
  ("zhang", "infomeasure.estimators.transfer_entropy.zhang.ZhangCTEEstimator")].


(** dictionary lookup (keys of the tables are distinct) *)
Fixpoint tget (t : table) (k : string) : option string :=
  match t with [] => None | (a, p) :: r => if String.eqb a k then Some p else tget r k end.

(** a Python argument: [None], a string, an integer, a data array, or an unhashable object
    of another kind (a list).  Strings are ASCII: the Kelvin sign, which Python lower-cases to "k", is left out. *)
Inductive arg (D : Type) : Type := ANone | AStr (s : string) | AInt (z : Z) | AData (d : D) | AOther.
Arguments ANone {D}. Arguments AStr {D} s. Arguments AInt {D} z. Arguments AData {D} d. Arguments AOther {D}.

(** [mi_entropy_map] (functional.py 78-81) *)
Definition mi_entropy_map : table :=
  map (fun kv => (fst kv, if String.eqb (fst kv) "ksg" then "kl" else fst kv)) mi_estimators.

(** [str.replace(" ", "_").replace("-", "_")] (functional.py 697) *)
Fixpoint underscores (s : string) : string :=
  match s with
  | EmptyString => EmptyString
  | String c r => String (if Ascii.eqb c " " then "_" else if Ascii.eqb c "-" then "_" else c)%char (underscores r)
  end.

(** membership of a string in a literal list *)
Definition one_of (l : list string) (s : string) : bool := existsb (String.eqb s) l.

Section Dispatch.
Context {D : Type}.
Notation arg := (arg D).

(** [_get_estimator] (functional.py 197-226) *)
Definition get_estimator (t : table) (name : arg) : res string :=
  match name with
  | AStr s => match tget t (lower s) with Some p => Ok p | None => Raise ValueError end
  | _ => Raise ValueError
  end.

(** [get_estimator_class] (functional.py 229-275); a measure without [lower] raises AttributeError *)
Definition get_estimator_class (measure approach : arg) : res string :=
  match measure with
  | ANone => Raise ValueError
  | AStr m =>
      if one_of ["entropy"; "h"] (lower m) then get_estimator entropy_estimators approach
      else if one_of ["mutual_information"; "mi"] (lower m) then get_estimator mi_estimators approach
      else if one_of ["conditional_mutual_information"; "cmi"] (lower m) then get_estimator cmi_estimators approach
      else if one_of ["transfer_entropy"; "te"] (lower m) then get_estimator te_estimators approach
      else if one_of ["conditional_transfer_entropy"; "cte"] (lower m) then get_estimator cte_estimators approach
      else Raise ValueError
  | _ => Raise AttributeError
  end.

(** keyword arguments: names are distinct (guaranteed by Python) *)
Definition kwargs : Type := list (string * arg).
Fixpoint kget (kw : kwargs) (k : string) : option arg :=
  match kw with [] => None | (a, v) :: r => if String.eqb a k then Some v else kget r k end.
Definition kdrop (names : list string) (kw : kwargs) : kwargs := filter (fun p => negb (one_of names (fst p))) kw.
(** [kwargs.get(k)]: [None] if absent *)
Definition kget_none (kw : kwargs) (k : string) : arg := match kget kw k with Some v => v | None => ANone end.
Definition kget_or (kw : kwargs) (k : string) (v : arg) : arg := match kget kw k with Some w => w | None => v end.
Definition is_none (a : arg) : bool := match a with ANone => true | _ => false end.

(** a constructor call *)
Record ctor : Type := mkCtor { c_class : string; c_data : list D; c_kw : kwargs }.

(** [_dynamic_estimator] (functional.py 278-322): the class for a function whose measure is [m]
    ([mc] when a condition is given); then the decorated function gets all arguments but [approach],
    [EstimatorClass] being taken out again *)
Definition dyn_class (m mc : string) (kw : kwargs) : res string :=
  if is_none (kget_none kw "approach") then Raise ValueError
  else get_estimator_class (AStr (if is_none (kget_none kw "cond") then m else mc)) (kget_none kw "approach").
Definition pass_on (kw : kwargs) : kwargs := kdrop ["approach"; "EstimatorClass"] kw.

(** [entropy] (functional.py 325-390) up to the constructor call; [.result()] follows.  The decorator is
    given a single measure, so [cond] plays no role. *)
Definition call_entropy (data : list D) (kw : kwargs) : res ctor :=
  let* p := dyn_class "entropy" "entropy" kw in Ok (mkCtor p data (pass_on kw)).
(** [cross_entropy] (functional.py 393-404) *)
Definition call_cross_entropy (data : list D) (kw : kwargs) : res ctor :=
  if Nat.ltb (List.length data) 2 then Raise ValueError else call_entropy data kw.
(** [mutual_information] (functional.py 407-467) *)
Definition call_mutual_information (data : list D) (kw : kwargs) : res ctor :=
  let* p := dyn_class "mi" "cmi" kw in
  if Nat.ltb (List.length data) 2 then Raise ValueError else Ok (mkCtor p data (pass_on kw)).
(** [conditional_mutual_information] (functional.py 470-486) *)
Definition call_conditional_mutual_information (data : list D) (kw : kwargs) : res ctor :=
  if is_none (kget_none kw "cond") then Raise ValueError
  else if Nat.ltb (List.length data) 2 then Raise ValueError else call_mutual_information data kw.
(** [transfer_entropy] (functional.py 489-557) *)
Definition call_transfer_entropy (data : list D) (kw : kwargs) : res ctor :=
  let* p := dyn_class "te" "cte" kw in
  if negb (Nat.eqb (List.length data) 2) then Raise ValueError else Ok (mkCtor p data (pass_on kw)).
(** [conditional_transfer_entropy] (functional.py 560-575) *)
Definition call_conditional_transfer_entropy (data : list D) (kw : kwargs) : res ctor :=
  if is_none (kget_none kw "cond") then Raise ValueError
  else if negb (Nat.eqb (List.length data) 2) then Raise ValueError else call_transfer_entropy data kw.

(** the names [estimator] takes out of the keyword arguments (functional.py 578-590) *)
Definition estimator_named : list string :=
  ["cond"; "measure"; "approach"; "step_size"; "prop_time"; "src_hist_len"; "dest_hist_len"; "cond_hist_len"].

(** [estimator] (functional.py 578-787) *)
Definition call_estimator (data : list D) (all : kwargs) : res ctor :=
  let kw := kdrop estimator_named all in
  let cond := kget_none all "cond" in
  let approach := kget_none all "approach" in
  let hist := [("src_hist_len", kget_or all "src_hist_len" (AInt 1));
               ("dest_hist_len", kget_or all "dest_hist_len" (AInt 1))] in
  let n := List.length data in
  match kget_none all "measure" with
  | ANone => Raise ValueError
  | AStr m0 =>
      let m := underscores (lower m0) in
      if one_of ["entropy"; "h"; "cross_entropy"; "hx"] m then
        if Nat.eqb n 0 && one_of ["entropy"; "h"] m then Raise ValueError
        else if Nat.ltb n 2 && one_of ["cross_entropy"; "hx"] m then Raise ValueError
        else if negb (is_none cond) then Raise ValueError
        else if Nat.ltb 2 n then Raise ValueError
        else let* p := get_estimator entropy_estimators approach in Ok (mkCtor p data kw)
      else if one_of ["mutual_information"; "mi"; "conditional_mutual_information"; "cmi"] m then
        if one_of ["cmi"; "conditional_mutual_information"] m && is_none cond then Raise ValueError
        else if Nat.eqb n 0 then Raise ValueError
        else if Nat.eqb n 1 then
          match approach with
          | AStr a => match tget mi_entropy_map a with
                      | Some h => let* p := get_estimator entropy_estimators (AStr h) in Ok (mkCtor p (firstn 1 data) kw)
                      | None => Raise KeyError
                      end
          | ANone | AInt _ => Raise KeyError
          | _ => Raise TypeError
          end
        else if negb (is_none cond)
        then let* p := get_estimator cmi_estimators approach in Ok (mkCtor p data (("cond", cond) :: kw))
        else let* p := get_estimator mi_estimators approach in Ok (mkCtor p data kw)
      else if one_of ["transfer_entropy"; "te"; "conditional_transfer_entropy"; "cte"] m then
        if one_of ["cte"; "conditional_transfer_entropy"] m && is_none cond then Raise ValueError
        else if negb (Nat.eqb n 2) then Raise ValueError
        else if negb (is_none cond)
        then let* p := get_estimator cte_estimators approach in
             Ok (mkCtor p data (("cond", cond) :: ("prop_time", kget_or all "prop_time" (AInt 0)) :: hist ++
                                ("cond_hist_len", kget_or all "cond_hist_len" (AInt 1)) ::
                                ("step_size", kget_or all "step_size" (AInt 1)) :: kw))
        else let* p := get_estimator te_estimators approach in
             Ok (mkCtor p data (("prop_time", kget_or all "prop_time" (AInt 0)) :: hist ++
                                ("step_size", kget_or all "step_size" (AInt 1)) :: kw))
      else Raise ValueError
  | _ => Raise AttributeError
  end.

(** defaults shared by the constructors of all transfer-entropy classes
    (estimators/transfer_entropy/*.py, [__init__] of the Base classes) *)
Definition te_default (name : string) : option arg :=
  if String.eqb name "prop_time" then Some (AInt 0)
  else if one_of ["step_size"; "src_hist_len"; "dest_hist_len"; "cond_hist_len"] name then Some (AInt 1)
  else if String.eqb name "cond" then Some ANone else None.
(** value of a parameter in a constructor call of a transfer-entropy class *)
Definition te_param (c : ctor) (name : string) : option arg :=
  match kget (c_kw c) name with Some v => Some v | None => te_default name end.
End Dispatch.
Arguments ctor : clear implicits.
Arguments kwargs : clear implicits.
