(** Model: the global configuration (infomeasure/utils/config.py) and the capture of its [base] as a
    default argument when the modules of a package are imported. *)
From Coq Require Import List ZArith QArith Arith Bool String Ascii.
From Verif Require Import Res MEst MDisp.
Import ListNotations.
Local Open Scope string_scope.

(** Python values that can be handed to [Config.set].  A finite float is its exact rational value;
    [PNonFinite] is inf or nan; [PObj] any object that is neither a number nor a string and is equal to none of them. *)
Inductive pyval : Type :=
| PInt (z : Z) | PBool (b : bool) | PFloat (q : Q) | PNonFinite | PStr (s : string) | PNone | PObj.

(** the number a value is equal to *)
Definition num (v : pyval) : option Q :=
  match v with
  | PInt z => Some (inject_Z z) | PBool b => Some (inject_Z (if b then 1 else 0)) | PFloat q => Some q
  | _ => None
  end.
(** [==] *)
Definition py_eq (v w : pyval) : bool :=
  match num v, num w with
  | Some p, Some q => Qeq_bool p q
  | _, _ => match v, w with PStr s, PStr t => String.eqb s t | PNone, PNone => true | _, _ => false end
  end.
(** [isinstance(v, int)], [isinstance(v, int | float)] ([bool] is a subclass of [int]) *)
Definition is_int (v : pyval) : bool := match v with PInt _ | PBool _ => true | _ => false end.
Definition is_int_float (v : pyval) : bool :=
  match v with PInt _ | PBool _ | PFloat _ | PNonFinite => true | _ => false end.

(** the settings dictionary *)
Definition settings : Type := list (string * pyval).
Fixpoint sget (s : settings) (k : string) : option pyval :=
  match s with [] => None | (a, v) :: r => if String.eqb a k then Some v else sget r k end.
Fixpoint supd (s : settings) (k : string) (v : pyval) : settings :=
  match s with [] => [(k, v)] | (a, w) :: r => if String.eqb a k then (k, v) :: r else (a, w) :: supd r k v end.

(** one entry of [__default_settings]: the type test ([None]: no type), the explicitly allowed values
    ([None]: the entry is [None], so that [in] raises TypeError) *)
Record setting : Type := mkSetting { s_value : pyval; s_types : option (pyval -> bool); s_allowed : option (list pyval) }.
(** [__default_settings] (config.py 57-73) *)
Definition default_settings : list (string * setting) := [
  ("base", mkSetting (PStr "e") (Some is_int_float) (Some [PStr "e"]));
  ("statistical_test_method", mkSetting (PStr "permutation_test") None (Some [PStr "permutation_test"; PStr "bootstrap"]));
  ("statistical_test_n_tests", mkSetting (PInt 200) (Some is_int) None)].
(** [_settings] as created by the class body (config.py 74) and by [reset] (131-136) *)
Definition initial : settings := map (fun kv => (fst kv, s_value (snd kv))) default_settings.

Fixpoint lookup_setting (l : list (string * setting)) (k : string) : option setting :=
  match l with [] => None | (a, s) :: r => if String.eqb a k then Some s else lookup_setting r k end.

(** [get] (config.py 76-91) *)
Definition conf_get (s : settings) (k : string) : res pyval :=
  match sget s k with Some v => Ok v | None => Raise KeyError end.

(** [set] (config.py 93-129): new settings *)
Definition conf_set (s : settings) (k : string) (v : pyval) : res settings :=
  match sget s k with
  | None => Raise KeyError
  | Some _ =>
      match lookup_setting default_settings k with
      | None => Raise KeyError
      | Some d =>
          if match s_types d with None => true | Some t => negb (t v) end
          then match s_allowed d with
               | None => Raise TypeError
               | Some l => if existsb (fun w => py_eq w v) l then Ok (supd s k v) else Raise TypeError
               end
          else Ok (supd s k v)
      end
  end.

(** [BASE_UNIT_MAP] (config.py 15-34), descriptions abbreviated *)
Definition base_unit_map : list (pyval * (list string * (string * string))) := [
  (PInt 2, (["bits"; "bit"; "shannons"; "shannon"], ("bit/shannon", "This base is best suited for binary information")));
  (PStr "e", (["nats"; "nat"; "nit"; "nepit"], ("nat/nit/nepit", "This base is best suited for continuous probability distributions.")));
  (PInt 10, (["hartleys"; "hartley"; "bans"; "ban"; "dits"; "dit"], ("hartley/ban/dit", "This base is best suited for decimal information")))].

(** [set_logarithmic_unit] (config.py 138-167) *)
Definition conf_set_unit (s : settings) (u : string) : res settings :=
  match find (fun e => one_of (fst (snd e)) (lower u)) base_unit_map with
  | Some e => conf_set s "base" (fst e)
  | None => Raise ValueError
  end.
(** the answer of [get_logarithmic_unit]: a name, or the text "unknown (base v)" *)
Inductive unit_name : Type := Named (n : string) | UnknownBase (v : pyval).
(** [get_logarithmic_unit] (config.py 169-181) *)
Definition conf_get_unit (s : settings) : res unit_name :=
  let* b := conf_get s "base" in
  match find (fun e => py_eq b (fst e)) base_unit_map with
  | Some e => Ok (Named (fst (snd (snd e))))
  | None => Ok (UnknownBase b)
  end.
(** [get_logarithmic_unit_description] (config.py 183-200) *)
Definition conf_get_description (s : settings) : res string :=
  let* b := conf_get s "base" in
  match find (fun e => py_eq b (fst e)) base_unit_map with
  | Some e => Ok (snd (snd (snd e)))
  | None => Raise ValueError
  end.

(** calls that change the configuration *)
Inductive cop : Type := CSet (k : string) (v : pyval) | CUnit (u : string) | CReset.
Definition conf_step (s : settings) (o : cop) : res settings :=
  match o with
  | CSet k v => conf_set s k v
  | CUnit u => conf_set_unit s u
  | CReset => Ok initial
  end.
(** the configuration after a call, also when the call raised *)
Definition conf_after (s : settings) (o : cop) : settings :=
  match conf_step s o with Ok s' => s' | _ => s end.
Definition conf_run (l : list cop) : settings := fold_left conf_after l initial.

(** ** Default bases captured at import *)

(** sub-packages that hold the estimator classes *)
Inductive package : Type := PkgH | PkgMI | PkgTE.
(** [module_path = class_path.rsplit(".", 1)[0]] (functional.py 192); importing a module of a sub-package
    runs the package's __init__.py, which imports all its modules (estimators/*/__init__.py) *)
Definition pkg_of_path (p : string) : option package :=
  if String.prefix "infomeasure.estimators.entropy." p then Some PkgH
  else if String.prefix "infomeasure.estimators.mutual_information." p then Some PkgMI
  else if String.prefix "infomeasure.estimators.transfer_entropy." p then Some PkgTE
  else None.

(** entropy classes with an [__init__] of their own: it passes its own default base on even when the
    data is a DiscreteData object (estimators/entropy/{ansb,bayes,kernel,kozachenko_leonenko,nsb,ordinal,renyi,tsallis}.py) *)
Definition own_init (p : string) : bool :=
  existsb (fun m => String.prefix ("infomeasure.estimators.entropy." ++ m ++ ".") p)
    ["ansb"; "bayes"; "kernel"; "kozachenko_leonenko"; "nsb"; "ordinal"; "renyi"; "tsallis"].

(** process state: the configuration and the value that [Config.get("base")] had when the default
    arguments of a sub-package were evaluated ([None]: not imported yet) *)
Record world : Type := mkWorld { w_conf : settings; w_h : option pyval; w_mi : option pyval; w_te : option pyval }.
Definition captured (w : world) (p : package) : option pyval :=
  match p with PkgH => w_h w | PkgMI => w_mi w | PkgTE => w_te w end.
Definition import_pkg (w : world) (p : package) : world :=
  match captured w p, sget (w_conf w) "base" with
  | None, Some b => match p with
                    | PkgH => mkWorld (w_conf w) (Some b) (w_mi w) (w_te w)
                    | PkgMI => mkWorld (w_conf w) (w_h w) (Some b) (w_te w)
                    | PkgTE => mkWorld (w_conf w) (w_h w) (w_mi w) (Some b)
                    end
  | _, _ => w
  end.
(** [import infomeasure]: composite_measures/jsd.py 5 imports the entropy package (__init__.py 4-16);
    the other packages are imported by the first dispatch *)
Definition fresh : world := import_pkg (mkWorld initial None None None) PkgH.

(** things a program does: change the configuration; ask for an estimator class by measure and approach
    (every function and [estimator] do so first) *)
Inductive act : Type := AConf (o : cop) | AUse (measure approach : string).
Definition act_step (w : world) (a : act) : world :=
  match a with
  | AConf o => mkWorld (conf_after (w_conf w) o) (w_h w) (w_mi w) (w_te w)
  | AUse m ap => match get_estimator_class (D := unit) (AStr m) (AStr ap) with
                 | Ok p => match pkg_of_path p with Some k => import_pkg w k | None => w end
                 | _ => w
                 end
  end.
Definition run_acts (l : list act) : world := fold_left act_step l fresh.

(** the base stored in the estimator object that a call for measure [m] and approach [ap] creates in world [w]:
    [base] is the keyword argument if given, [dd] tells whether the data is a DiscreteData object
    (base.py 67-68, 282, 484, 643, 804, 991, 1146-1148 and the constructors of the estimator classes) *)
Definition base_used (w : world) (m ap : string) (base : option pyval) (dd : bool) : res pyval :=
  let* p := get_estimator_class (D := unit) (AStr m) (AStr ap) in
  match base with
  | Some b => Ok b
  | None =>
      match pkg_of_path p with
      | Some k =>
          match k with
          | PkgH => if dd && negb (own_init p) then conf_get (w_conf w) "base"
                    else match captured (import_pkg w k) k with Some b => Ok b | None => Raise RuntimeError end
          | _ => match captured (import_pkg w k) k with Some b => Ok b | None => Raise RuntimeError end
          end
      | None => Raise RuntimeError
      end
  end.
