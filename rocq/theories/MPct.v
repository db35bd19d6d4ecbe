(** Model: [StatisticalTestResult.percentile] and [.confidence_interval]
    (infomeasure/utils/data.py 167-246), with the default method "linear". *)
From Coq Require Import Reals List ZArith Arith Bool.
From Verif Require Import Res.
Import ListNotations.
Local Open Scope R_scope.

(** ascending sort of the values (part of [numpy.percentile]) *)
Fixpoint insR (x : R) (l : list R) : list R :=
  match l with [] => [x] | y :: r => if Rlt_dec y x then y :: insR x r else x :: y :: r end.
Definition sortR (l : list R) : list R := fold_right insR [] l.

(** [numpy.percentile(test_values, q, method="linear")] (data.py 203): position (n-1) q/100 in the
    sorted values, linear interpolation between the two neighbouring values; the upper neighbour of the
    last value is the last value.  A percentage outside [0,100] raises ValueError.  A test result always
    has test values; without any, the model answers NonFinite. *)
Definition percentile (vals : list R) (q : R) : res R :=
  if Rlt_dec q 0 then Raise ValueError
  else if Rlt_dec 100 q then Raise ValueError
  else match sortR vals with
       | [] => NonFinite
       | s => let vi := (INR (length s) - 1) * (q / 100) in
              let j := Z.to_nat (Int_part vi) in
              let g := vi - IZR (Int_part vi) in
              let a := nth j s 0 in
              let b := nth (Nat.min (j + 1) (length s - 1)) s 0 in
              Ok (a + (b - a) * g)
       end.

(** [confidence_interval] (data.py 236-246) *)
Definition confidence_interval (vals : list R) (c : R) : res (list R) :=
  if Rlt_dec 0 c then
    if Rlt_dec c 100 then
      let y := (100 - c) / 2 in
      mapM (percentile vals) [y; 100 - y]
    else Raise ValueError
  else Raise ValueError.
