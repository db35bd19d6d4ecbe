(** Model: [normalize_data_0_1] (infomeasure/estimators/utils/normalize.py 8-32) on exact reals. *)
From Coq Require Import Reals List ZArith Arith Bool.
From Verif Require Import Res MBase.
Import ListNotations.
Local Open Scope R_scope.

(** [numpy.min] / [numpy.max] of a non-empty array *)
Definition minR (l : list R) : R := match l with [] => 0 | x :: r => fold_left Rmin r x end.
Definition maxR (l : list R) : R := match l with [] => 0 | x :: r => fold_left Rmax r x end.

(** one column (or a 1-D array); reducing an empty array raises ValueError *)
Definition normalize_0_1 (l : list R) : res (list R) :=
  match l with
  | [] => Raise ValueError
  | _ => mapM (fun x => np_div (x - minR l) (maxR l - minR l)) l
  end.
(** a 2-D array, given by its columns ([axis=0]) *)
Definition normalize_0_1_cols (cols : list (list R)) : res (list (list R)) := mapM normalize_0_1 cols.
