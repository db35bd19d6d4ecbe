(** Specification of a program history: configuration calls and uses of measures. *)
From Coq Require Import List String.
From Verif Require Import MEst SpecDisp MConf.
Import ListNotations.

(** the configuration calls of a history *)
Fixpoint confs (l : list act) : list cop :=
  match l with [] => [] | AConf o :: r => o :: confs r | AUse _ _ :: r => confs r end.

(** measures that share a package of estimator classes *)
Definition package_of (M : measure) : package := match M with H => PkgH | MI | CMI => PkgMI | TE | CTE => PkgTE end.

(** [m] and [ap] name measure [M] and approach family [f] *)
Definition names (m ap : string) (M : measure) (f : family) : Prop :=
  In (lower m) (measure_names M) /\ In f families /\ In (lower ap) (approach_names M f).
(** the history entry is a successful request for an estimator of package [P] *)
Definition uses (P : package) (a : act) : Prop := exists m ap M f, a = AUse m ap /\ names m ap M f /\ package_of M = P.
Definition unused (P : package) (l : list act) : Prop := Forall (fun a => ~ uses P a) l.
