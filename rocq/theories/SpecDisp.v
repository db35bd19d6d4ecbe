(** Specification: which estimator class a measure and an approach name stand for. *)
From Coq Require Import List String.
Import ListNotations.
Local Open Scope string_scope.

Inductive measure : Type := H | MI | CMI | TE | CTE.
Definition measure_names (m : measure) : list string :=
  match m with
  | H => ["entropy"; "h"] | MI => ["mutual_information"; "mi"]
  | CMI => ["conditional_mutual_information"; "cmi"] | TE => ["transfer_entropy"; "te"]
  | CTE => ["conditional_transfer_entropy"; "cte"]
  end.

(** a family of estimators: names for entropy; names for the other measures; module and class stem for
    entropy; for the others *)
Record family : Type := mkFamily { f_h : list string; f_mi : list string; f_hmod : string; f_hcls : string; f_mod : string; f_cls : string }.
Definition plain (hn mn : list string) (mod_ cls : string) : family := mkFamily hn mn mod_ cls mod_ cls.
Definition families : list family := [
  plain ["discrete"] ["discrete"] "discrete" "Discrete";
  plain ["miller_madow"; "mm"] ["miller_madow"; "mm"] "miller_madow" "MillerMadow";
  plain ["ansb"] ["ansb"] "ansb" "Ansb";
  plain ["bayes"] ["bayes"] "bayes" "Bayes";
  plain ["bonachela"] ["bonachela"] "bonachela" "Bonachela";
  plain ["chao_shen"; "cs"] ["chao_shen"] "chao_shen" "ChaoShen";
  plain ["chao_wang_jost"; "cwj"] ["chao_wang_jost"] "chao_wang_jost" "ChaoWangJost";
  plain ["grassberger"] ["grassberger"] "grassberger" "Grassberger";
  plain ["nsb"] ["nsb"] "nsb" "Nsb";
  plain ["shrink"; "js"] ["shrink"] "shrink" "Shrink";
  plain ["zhang"] ["zhang"] "zhang" "Zhang";
  plain ["kernel"] ["kernel"] "kernel" "Kernel";
  mkFamily ["metric"; "kl"] ["metric"; "ksg"] "kozachenko_leonenko" "KozachenkoLeonenko" "kraskov_stoegbauer_grassberger" "KSG";
  plain ["ordinal"; "symbolic"; "permutation"] ["ordinal"; "symbolic"; "permutation"] "ordinal" "Ordinal";
  plain ["renyi"] ["renyi"] "renyi" "Renyi";
  plain ["tsallis"] ["tsallis"] "tsallis" "Tsallis"].

Definition approach_names (m : measure) (f : family) : list string := match m with H => f_h f | _ => f_mi f end.
Definition class_of (m : measure) (f : family) : string :=
  "infomeasure.estimators." ++
  match m with
  | H => "entropy." ++ f_hmod f ++ "." ++ f_hcls f ++ "Entropy"
  | MI => "mutual_information." ++ f_mod f ++ "." ++ f_cls f ++ "MI"
  | CMI => "mutual_information." ++ f_mod f ++ "." ++ f_cls f ++ "CMI"
  | TE => "transfer_entropy." ++ f_mod f ++ "." ++ f_cls f ++ "TE"
  | CTE => "transfer_entropy." ++ f_mod f ++ "." ++ f_cls f ++ "CTE"
  end ++ "Estimator".
