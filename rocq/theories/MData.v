(** Model: [DiscreteData] (infomeasure/utils/data.py 8-130). *)
From Coq Require Import Reals List ZArith Arith Bool.
From Verif Require Import Res RSum Spec Ord MBase.
Import ListNotations.
Local Open Scope R_scope.

(** Fields of the frozen dataclass (data.py 26-30).  [N] and [K] are derived below. *)
Record ddata : Type := mkDD {
  dd_uniq : list Z;
  dd_counts : list Z;
  dd_data : option (list Z) }.

Definition sumZ (l : list Z) : Z := fold_right Z.add 0%Z l.

(** [__post_init__] (data.py 78-101).  Counts are integers here, so the dtype check
    (86-87) cannot fail and is omitted. *)
Definition post_init (u c : list Z) (d : option (list Z)) : res ddata :=
  if negb (Nat.eqb (length u) (length c)) then Raise ValueError
  else if existsb (fun x => Z.ltb x 0) c then Raise ValueError
  else if Z.eqb (sumZ c) 0 then Raise ValueError
  else match d with
       | None => Ok (mkDD u c None)
       | Some xs =>
           if Nat.eqb (length xs) 0 then Raise ValueError
           else if negb (Z.eqb (sumZ c) (Z.of_nat (length xs))) then Raise ValueError
           else Ok (mkDD u c (Some xs))
       end.

(** [from_data] (data.py 32-52) *)
Definition from_data (xs : list Z) : res ddata :=
  if Nat.eqb (length xs) 0 then Raise ValueError
  else post_init (unique xs) (map Z.of_nat (unique_counts xs)) (Some xs).

(** [from_counts] (data.py 54-76) *)
Definition from_counts (u c : list Z) : res ddata := post_init u c None.

(** [N] (data.py 92-101) and [K] (data.py 89-90) *)
Definition dd_N (d : ddata) : Z :=
  match dd_data d with Some xs => Z.of_nat (length xs) | None => sumZ (dd_counts d) end.
Definition dd_K (d : ddata) : nat := length (dd_uniq d).

(** [probabilities] (data.py 103-118) *)
Definition probabilities (d : ddata) : list R :=
  map (fun c => IZR c / IZR (dd_N d)) (dd_counts d).

(** a Python [dict] built from [zip(keys, values)]: a later duplicate key overwrites *)
Fixpoint dget {V} (d : list (Z * V)) (k : Z) : option V :=
  match d with
  | [] => None
  | (a, v) :: r => match dget r k with
                   | Some w => Some w
                   | None => if Z.eq_dec a k then Some v else None
                   end
  end.

(** dictionary access [d[k]] *)
Definition dget_exn {V} (d : list (Z * V)) (k : Z) : res V :=
  match dget d k with Some v => Ok v | None => Raise KeyError end.

(** [distribution_dict] (data.py 120-130) *)
Definition distribution_dict (d : ddata) : list (Z * R) := combine (dd_uniq d) (probabilities d).

(** What an entropy estimator is given for one variable: an array or a tuple of arrays. *)
Inductive einput : Type := EArr (a : arr) | ETuple (cols : list arr).

(** [EntropyEstimator.__init__] (infomeasure/estimators/base.py 325-338: unequal lengths inside
    a joint variable), [DiscreteHEstimator._reduce_space] (base.py 1244-1283) and the conversion
    to [DiscreteData] (base.py 1159), for one variable.  Type checks of the arguments
    (base.py 295-324) are not modelled: inputs are well-typed here. *)
Definition make_data (i : einput) : res ddata :=
  match i with
  | EArr (A1 xs) => from_data xs
  | EArr (A2 rs) => let* r := reduce_joint_space (RArr (A2 rs)) in from_data r
  | ETuple cols =>
      let n0 := match cols with [] => 0%nat | a :: _ => arr_len a end in
      if existsb (fun c => negb (Nat.eqb (arr_len c) n0)) cols then Raise ValueError
      else let* r := reduce_joint_space (RTuple cols) in from_data r
  end.
