(** Model: logarithm bases, arrays, [reduce_joint_space]. *)
From Coq Require Import Reals List ZArith Arith Bool.
From Verif Require Import Res RSum Spec Ord.
Import ListNotations.
Local Open Scope R_scope.

(** [LogBaseType]: ["e"] or a number (infomeasure/utils/types.py 1-7). *)
Inductive base : Type := BE | BNum (b : R).

(** numpy's [log] on one element: [-inf]/[nan] for non-positive arguments. *)
Definition np_log (x : R) : res R := if Rlt_dec 0 x then Ok (ln x) else NonFinite.

(** numpy's float division: [inf]/[nan] for a zero divisor. *)
Definition np_div (x y : R) : res R := if Req_EM_T y 0 then NonFinite else Ok (x / y).

(** [Estimator._log_base] on one array element
    (infomeasure/estimators/base.py 199-237).  Base 0 gives the scalar 0 whatever the shape of the argument; the model
    keeps the shape, so local values for base 0 (one number in the code) are outside the theorems: they assume a
    valid base wherever the shape of the local values matters. *)
Definition log_base (b : base) (x : R) : res R :=
  match b with
  | BE => np_log x
  | BNum r =>
      if Req_EM_T r 2 then rmap (fun y => y / ln 2) (np_log x)
      else if Req_EM_T r 10 then rmap (fun y => y / ln 10) (np_log x)
      else if Req_EM_T r 0 then Ok 0
      else if Rlt_dec r 0 then Raise ValueError
      else let* lx := np_log x in let* lb := np_log r in np_div lx lb
  end.

(** The idiom [if self.base != "e": x /= log(self.base)] used by the estimators that do not go
    through [_log_base] (e.g. infomeasure/estimators/entropy/chao_shen.py 60-61,
    miller_madow.py 63-64, grassberger.py 46-47, zhang.py 111-112, bonachela.py 73-74,
    ansb.py 109-110, chao_wang_jost.py 139-140, and
    infomeasure/estimators/utils/discrete_interaction_information.py 616-617).
    For base 0, [log(0) = -inf] and the quotient is [-0.0]; for a negative base [log] is [nan];
    for base 1 the divisor is zero. *)
Definition to_base (b : base) (x : R) : res R :=
  match b with
  | BE => Ok x
  | BNum r =>
      if Req_EM_T r 0 then Ok 0
      else let* lb := np_log r in np_div x lb
  end.

(** Arrays of integer symbols: 1-D, or 2-D as a list of rows.  Arrays with three or more
    dimensions are not modelled. *)
Inductive arr : Type := A1 (xs : list Z) | A2 (rs : list (list Z)).

Definition arr_rows (a : arr) : list (list Z) :=
  match a with A1 xs => map (fun x => [x]) xs | A2 rs => rs end.

Definition arr_len (a : arr) : nat :=
  match a with A1 xs => length xs | A2 rs => length rs end.

(** [numpy.column_stack]: 1-D arrays become columns, 2-D arrays are put side by side;
    raises ValueError on no arrays or on differing lengths. *)
Definition column_stack (cols : list arr) : res (list (list Z)) :=
  match cols with
  | [] => Raise ValueError
  | a :: _ =>
      if forallb (fun c => Nat.eqb (arr_len c) (arr_len a)) cols
      then Ok (map (fun t => concat (map (fun c => nth t (arr_rows c) []) cols)) (seq 0 (arr_len a)))
      else Raise ValueError
  end.

(** Arguments of [reduce_joint_space]: a Python list, an array, or a tuple of arrays
    (a generator is converted to a tuple first). *)
Inductive rinput : Type := RList | RArr (a : arr) | RTuple (cols : list arr).

(** [reduce_joint_space] (infomeasure/estimators/utils/ordinal.py 198-209). *)
Definition reduce_rows (rs : list (list Z)) : list Z := map Z.of_nat (inverse rs).

Definition reduce_joint_space (r : rinput) : res (list Z) :=
  match r with
  | RList => Raise ValueError
  | RTuple cols => rmap reduce_rows (column_stack cols)
  | RArr (A2 rs) => Ok (reduce_rows rs)
  | RArr (A1 xs) => Ok xs
  end.
