(** Model: constructing discrete entropy estimators from arrays, DiscreteData objects, counts and
    probabilities (infomeasure/utils/data.py, infomeasure/estimators/base.py). *)
From Coq Require Import Reals List ZArith Arith Bool.
From Verif Require Import Res RSum Spec Ord MBase MData MEntropy MGeneric.
Import ListNotations.

(** what [numpy.asarray(counts)] may be: integers, or numbers of another dtype (floats, booleans) *)
Inductive counts_arr : Type := CInts (l : list Z) | COther (l : list R).

(** [DiscreteData.from_counts] (data.py 54-76) with [__post_init__] (78-101): for a non-integer dtype every
    check that fails raises ValueError and the last one (86-87) does fail *)
Definition from_counts_raw (u : list Z) (c : counts_arr) : res ddata :=
  match c with CInts l => from_counts u l | COther _ => Raise ValueError end.

(** positional arguments of an estimator: arrays (or tuples of arrays), or DiscreteData objects *)
Inductive cin : Type := IArr (i : einput) | IDD (d : ddata).

Definition is_tuple (i : cin) : bool := match i with IArr (ETuple _) => true | _ => false end.
Definition is_dd (i : cin) : bool := match i with IDD _ => true | _ => false end.
Definition convert (i : cin) : res ddata := match i with IArr a => make_data a | IDD _ => Raise ValueError end.

(** [DiscreteHEstimator.__init__] (base.py 1128-1159) with [EntropyEstimator.__init__] (282-340): [self.data] *)
Definition dh_init (args : list cin) : res (list ddata) :=
  match args with
  | [] => Raise IndexError
  | IDD d :: _ => Ok [d]
  | [a] => let* d := convert a in Ok [d]
  | [a; b] => if is_tuple a || is_tuple b || is_dd b then Raise ValueError
              else let* d := convert a in let* e := convert b in Ok [d; e]
  | _ => Raise ValueError
  end.

(** [EntropyEstimator._calculate] (base.py 366-388) and [global_val] for a discrete estimator class with
    cross-entropy [cross] *)
Definition dh_entropy (e : est) (cross : base -> ddata -> ddata -> res R) (b : base) (args : list cin) : res R :=
  let* ds := dh_init args in
  match ds with
  | [d] => e_global e b d
  | [p; q] => cross b p q
  | _ => Raise RuntimeError
  end.
(** [local_vals()] for one variable (base.py 342-364) *)
Definition dh_local (e : est) (b : base) (args : list cin) : res (list R) :=
  let* ds := dh_init args in
  match ds with
  | [d] => e_local e b d
  | _ => Raise UnsupportedOperation
  end.

(** [DiscreteHEstimator.from_counts] (base.py 1161-1173) followed by [global_val()] *)
Definition entropy_from_counts (e : est) (b : base) (u : list Z) (c : counts_arr) : res R :=
  let* d := from_counts_raw u c in dh_entropy e (fun _ _ _ => Raise RuntimeError) b [IDD d].
(** [DiscreteHEstimator.from_probabilities] (base.py 1175-1191) calls [DiscreteData.from_probabilities], which
    does not exist (data.py 8-130) *)
Definition entropy_from_probabilities (e : est) (b : base) (u : list Z) (p : list R) : res R := Raise AttributeError.
