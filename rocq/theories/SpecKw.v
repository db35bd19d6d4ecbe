(** Specification: the keyword parameters of every estimator, with their defaults as written in the source. *)
From Coq Require Import List String.
From Verif Require Import SpecDisp.
Import ListNotations.
Local Open Scope string_scope. Local Open Scope list_scope.

(** name and default; [None]: must be given *)
Definition param : Type := string * option string.
Definition opt (n d : string) : param := (n, Some d).
Definition req (n : string) : param := (n, None).
Definition base_p : param := opt "base" "Config.get('base')".

(** parameters special to a family (named by its module) *)
Definition special (m : measure) (f : string) : list param :=
  let is := String.eqb f in
  let noise := opt "noise_level" in
  let norm := match m with MI | CMI => [opt "normalize" "False"] | _ => [] end in
  if is "ansb" then match m with H => [opt "K" "None"] | _ => [] end ++ [opt "undersampled" "0.1"] ++ norm
  else if is "bayes" then [req "alpha"; opt "K" "None"] ++ norm
  else if is "nsb" then [opt "K" "None"] ++ norm
  else if is "kernel"
  then match m with H => [req "bandwidth"; req "kernel"] | _ => [opt "bandwidth" "None"; opt "kernel" "None"] end ++ [opt "workers" "1"] ++ norm
  else if (is "kozachenko_leonenko" || is "kraskov_stoegbauer_grassberger")%bool
  then [opt "k" "4"; opt "ksg_id" "1"; noise (match m with TE | CTE => "1e-08" | _ => "1e-10" end); opt "minkowski_p" "inf"] ++ norm
  else if is "ordinal"
  then [match m with MI | CMI => opt "embedding_dim" "None" | _ => req "embedding_dim" end; opt "stable" "False"] ++
       match m with H | MI | CMI => [opt "step_size" "1"] | _ => [] end
  else if is "renyi" then [opt "k" "4"; opt "alpha" "None"] ++ match m with H => [] | _ => [noise "1e-08"] end ++ norm
  else if is "tsallis" then [opt "k" "4"; opt "q" "None"] ++ match m with H => [] | _ => [noise "1e-08"] end ++ norm
  else if (is "discrete" || is "miller_madow")%bool then []
  else norm.

(** parameters every estimator of a measure has ([cond] apart) *)
Definition common (m : measure) : list param :=
  match m with
  | H => [base_p]
  | MI | CMI => [opt "offset" "0"; base_p; opt "seed" "None"]
  | TE | CTE => [opt "prop_time" "0"; opt "step_size" "1"; opt "src_hist_len" "1"; opt "dest_hist_len" "1"; opt "cond_hist_len" "1";
                 opt "offset" "None"; base_p; opt "seed" "None"]
  end.

Definition module_of (m : measure) (f : family) : string := match m with H => f_hmod f | _ => f_mod f end.
Definition params (m : measure) (f : family) : list param := common m ++ special m (module_of m f).
(** accepted and without effect: [step_size] of Renyi and Tsallis (conditional) mutual information *)
Definition ignored (m : measure) (f : family) : list string :=
  match m with MI | CMI => if (String.eqb (f_mod f) "renyi" || String.eqb (f_mod f) "tsallis")%bool then ["step_size"] else [] | _ => [] end.
Definition has_cond (m : measure) : bool := match m with H => false | _ => true end.
(** may be given; must be given *)
Definition allowed (m : measure) (f : family) : list string :=
  map fst (params m f) ++ ignored m f ++ (if has_cond m then ["cond"] else []).
Definition required (m : measure) (f : family) : list string :=
  map fst (filter (fun p => match snd p with None => true | _ => false end) (params m f)).

(** Which class in the hierarchy works with a parameter: the general class of the measure with the parameters of the measure, the
    random generator with the seed, the base class with the logarithm base; special parameters stay with the estimator
    itself, except normalisation and the number of workers. *)
Definition general (m : measure) : string :=
  match m with
  | H => "EntropyEstimator" | MI => "MutualInformationEstimator" | CMI => "ConditionalMutualInformationEstimator"
  | TE => "TransferEntropyEstimator" | CTE => "ConditionalTransferEntropyEstimator"
  end.
Definition worker (m : measure) (f : family) (p : string) : list string :=
  if String.eqb p "base" then ["Estimator"]
  else if String.eqb p "seed" then ["RandomGeneratorMixin"]
  else if String.eqb p "workers" then ["WorkersMixin"]
  else match m with
       | H => [f_hcls f ++ "EntropyEstimator"]%string
       | MI | CMI => if (String.eqb p "offset" || String.eqb p "normalize")%bool then [general m] else ["BaseMIEstimator"]
       | TE => if existsb (String.eqb p) ["prop_time"; "step_size"; "src_hist_len"; "dest_hist_len"; "offset"] then [general m] else ["BaseTEEstimator"]
       | CTE => if existsb (String.eqb p) ["prop_time"; "step_size"; "src_hist_len"; "dest_hist_len"; "cond_hist_len"; "offset"] then [general m] else ["BaseTEEstimator"]
       end.
