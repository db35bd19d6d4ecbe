(** Model: numeric arrays, neighbour searches and the parts shared by the kernel and nearest-neighbour
    estimators.  Floats are exact reals. *)
From Coq Require Import Reals List ZArith Arith Bool.
From Verif Require Import Res RSum Spec SpecBase MBase MTE MPct MNorm.
Import ListNotations.
Local Open Scope R_scope.

(** a sample point and an array of numbers: 1-D, or 2-D as a list of rows *)
Notation pt := (list R).
Inductive farr : Type := F1 (xs : list R) | F2 (rs : list pt).
Definition flen (a : farr) : nat := match a with F1 xs => length xs | F2 rs => length rs end.

(** [assure_2d_data] for arrays (infomeasure/estimators/utils/array.py 8-40) *)
Definition rows2d (a : farr) : list pt := match a with F1 xs => map (fun x => [x]) xs | F2 rs => rs end.

(** [numpy.column_stack] of 2-D arrays (as MBase.column_stack) *)
Definition cstack (cols : list (list pt)) : res (list pt) :=
  match cols with
  | [] => Raise ValueError
  | a :: _ =>
      if forallb (fun c => Nat.eqb (length c) (length a)) cols
      then Ok (map (@concat R) (rows_of [] (length a) cols))
      else Raise ValueError
  end.

(** data.shape[1] *)
Definition width (data : list pt) : nat := length (hd [] data).

(** ** Distances.  [scipy.spatial.KDTree] uses Minkowski distances; [MInf] is the maximum norm. *)
Inductive mink : Type := MInf | MP (p : R).
Definition diffs (x y : pt) : list R := map (fun ab => Rabs (fst ab - snd ab)) (combine x y).
Definition maxl (l : list R) : R := fold_right Rmax 0 l.
(** x ** p for x >= 0 and p > 0 *)
Definition rpow (x p : R) : R := if Req_EM_T x 0 then 0 else Rpower x p.
Definition dist (m : mink) (x y : pt) : R :=
  match m with
  | MInf => maxl (diffs x y)
  | MP p => rpow (sumR (map (fun a => rpow a p) (diffs x y))) (/ p)
  end.

(** a distance as returned by [KDTree.query]: [None] is inf (fewer than the requested neighbours) *)
Definition edist : Type := option R.

(** [tree.query(x, k)[0][-1]] for k >= 1: the k-th smallest distance to the points of the tree *)
Definition query (m : mink) (tree : list pt) (k : nat) (x : pt) : edist :=
  nth_error (sortR (map (dist m x) tree)) (k - 1).

(** [tree.query_ball_point(x, r, p, return_length=True)]: number of points within distance r, and the same with
    [r = nextafter(d, -inf)], the largest float below d: number of points closer than d.
    For d = inf that is the largest float; all distances are finite. *)
Definition ball_le (m : mink) (tree : list pt) (x : pt) (r : edist) : nat :=
  match r with
  | None => length tree
  | Some r => length (filter (fun y => if Rle_dec (dist m x y) r then true else false) tree)
  end.
Definition ball_lt (m : mink) (tree : list pt) (x : pt) (r : edist) : nat :=
  match r with
  | None => length tree
  | Some r => length (filter (fun y => if Rlt_dec (dist m x y) r then true else false) tree)
  end.
(** [d > 0] *)
Definition edist_pos (d : edist) : bool := match d with None => true | Some r => if Rlt_dec 0 r then true else false end.

(** the mean of an array of local values ([numpy.mean]; nan for an empty one) *)
Definition mean_res (ls : list R) : res R := match ls with [] => NonFinite | _ => Ok (mean ls) end.

(** ** Constructors of the numeric estimators *)

(** one variable of an entropy estimator, or a joint variable; [EntropyEstimator.__init__]
    (infomeasure/estimators/base.py 325-338), [assure_2d_data] and the [column_stack] of
    [_joint_entropy] (entropy/kernel.py 149, 182; kozachenko_leonenko.py 164, 222) *)
Inductive finput : Type := FArr (a : farr) | FTuple (cols : list farr).
Definition make_rows (i : finput) : res (list pt) :=
  match i with
  | FArr a => Ok (rows2d a)
  | FTuple cols =>
      let n0 := match cols with [] => 0%nat | a :: _ => flen a end in
      if existsb (fun c => negb (Nat.eqb (flen c) n0)) cols then Raise ValueError
      else cstack (map rows2d cols)
  end.

(** slices of an array *)
Definition fskip (k : nat) (a : farr) : farr := match a with F1 xs => F1 (skipn k xs) | F2 rs => F2 (skipn k rs) end.
Definition fdrop_last (k : nat) (a : farr) : farr :=
  match a with F1 xs => F1 (firstn (length xs - k) xs) | F2 rs => F2 (firstn (length rs - k) rs) end.

(** [normalize=True]: 1-D arrays only (base.py 511-515, 659-666) *)
Definition norm1 (a : farr) : res farr :=
  match a with F1 xs => rmap F1 (normalize_0_1 xs) | F2 _ => Raise ValueError end.

(** [MutualInformationEstimator.__init__] (base.py 479-516) followed by [assure_2d_data] *)
Definition fmi_init (offset : option Z) (normalize : bool) (vars : list farr) : res (list (list pt)) :=
  if Nat.ltb (length vars) 2 then Raise ValueError
  else if Nat.ltb 2 (length vars) && negb (match offset with None => true | Some o => Z.eqb o 0 end)
  then Raise ValueError
  else if negb (forallb (fun a => Nat.eqb (flen a) (flen (hd (F1 []) vars))) vars)
  then Raise ValueError
  else match offset with
       | None => Raise TypeError
       | Some o =>
           let vs := if Z.ltb 0 o then
                       [fdrop_last (Z.to_nat o) (nth 0 vars (F1 [])); fskip (Z.to_nat o) (nth 1 vars (F1 []))]
                     else if Z.ltb o 0 then
                       [fskip (Z.to_nat (- o)) (nth 0 vars (F1 [])); fdrop_last (Z.to_nat (- o)) (nth 1 vars (F1 []))]
                     else vars in
           let* vs := if normalize then
                        if existsb (fun a => match a with F2 _ => true | F1 _ => false end) vs then Raise ValueError
                        else mapM norm1 vs
                      else Ok vs in
           Ok (map rows2d vs)
       end.

(** [ConditionalMutualInformationEstimator.__init__] (base.py 637-667): only the first two variables are
    compared, and looked at for normalisation, next to the condition; [normalize_data_0_1] of a 2-D array
    normalises its columns *)
Definition norm_any (a : farr) : res farr :=
  match a with
  | F1 xs => rmap F1 (normalize_0_1 xs)
  | F2 rs => let w := width rs in
             let* cols := normalize_0_1_cols (map (fun j => map (fun r => nth j r 0) rs) (seq 0 w)) in
             Ok (F2 (rows_of 0 (length rs) cols))
  end.
Definition fcmi_init (normalize : bool) (vars : list farr) (cond : farr) : res (list (list pt) * list pt) :=
  match vars with
  | x :: y :: _ =>
      if negb (Nat.eqb (flen x) (flen y)) || negb (Nat.eqb (flen x) (flen cond)) then Raise ValueError
      else if normalize then
        if existsb (fun a => match a with F2 _ => true | F1 _ => false end) [x; y; cond] then Raise ValueError
        else let* vs := mapM norm_any vars in let* c := norm_any cond in Ok (map rows2d vs, rows2d c)
      else Ok (map rows2d vars, rows2d cond)
  | _ => Raise IndexError
  end.

(** ** Transfer-entropy embedding of numeric series: the code of MTE (infomeasure/estimators/utils/te_slicing.py,
    abbreviated TES) on arrays of numbers *)
Definition fgather (rows : list pt) (idx : list nat) : res pt :=
  rmap (@concat R) (mapM (fun i => match nth_error rows i with Some r => Ok r | None => Raise IndexError end) idx).
Definition fslices (source dest : list pt) (l k s max_delay : nat) (rnd : rand)
  : res (list pt * list pt * list pt * list nat) :=
  match rnd with
  | RBoth => Raise ValueError
  | _ =>
      let bases := arange max_delay (length dest) s in
      let si := hist_idx bases l s in
      let si' := match rnd with
                 | RPermute sg | RResample sg => map (fun j => nth j si []) sg
                 | _ => si
                 end in
      let* sh := mapM (fgather source) si' in
      let* dh := mapM (fgather dest) (hist_idx bases k s) in
      let* df := mapM (fgather dest) (map (fun b => [b]) bases) in
      Ok (df, dh, sh, bases)
  end.
(** [_construct_joint_space_data] (TES 413-462) *)
Definition fhcat (ts : list (list pt)) : list pt := map (@concat R) (rows_of [] (length (hd [] ts)) ts).
(** [te_observations] (TES 126-166): joint space, destination past, marginal 1 (source past, destination past),
    marginal 2 (destination past, future) *)
Definition fte_spaces (source dest : list pt) (l k s : num) (rnd : rand) : res (list pt * list pt * list pt * list pt) :=
  match pos_int l, pos_int k, pos_int s with
  | Some l, Some k, Some s =>
      let max_delay := (Nat.max k l * s)%nat in
      if Nat.leb (length source) max_delay then Raise ValueError
      else let* r := fslices source dest l k s max_delay rnd in
           let '(df, dh, sh, _) := r in
           Ok (fhcat [sh; dh; df], dh, fhcat [sh; dh], fhcat [dh; df])
  | _, _, _ => Raise ValueError
  end.
(** [cte_observations] (TES 342-408) *)
Definition fcte_spaces (source dest cond : list pt) (l k m s : num) : res (list pt * list pt * list pt * list pt) :=
  match pos_int l, pos_int k, pos_int m, pos_int s with
  | Some l, Some k, Some m, Some s =>
      let max_delay := (Nat.max (Nat.max k l) m * s)%nat in
      if Nat.leb (length source) max_delay then Raise ValueError
      else let* r := fslices source dest l k s max_delay RNone in
           let '(df, dh, sh, bases) := r in
           let* ch := mapM (fgather cond) (hist_idx bases m s) in
           Ok (fhcat [sh; dh; df; ch], fhcat [dh; ch], fhcat [sh; dh; ch], fhcat [dh; df; ch])
  | _, _, _, _ => Raise ValueError
  end.

(** [TransferEntropyEstimator.__init__] (base.py 794-844) on the rows of the two series *)
Definition fupto {A} (i : Z) (l : list A) : list A :=
  firstn (if Z.ltb i 0 then Z.to_nat (Z.of_nat (length l) + i) else Z.to_nat i) l.
Definition ffrom {A} (i : Z) (l : list A) : list A :=
  skipn (if Z.ltb i 0 then Z.to_nat (Z.of_nat (length l) + i) else Z.to_nat i) l.
Definition fupto_or {A} (i : Z) (l : list A) : list A := if Z.eqb i 0 then l else fupto i l.
Definition fte_init (source dest : list pt) (prop_time offset : option num) (s : num) : res (list pt * list pt) :=
  let* p := if negb (none_or_0 offset)
            then if none_or_0 prop_time then Ok offset else Raise ValueError
            else Ok prop_time in
  if negb (Nat.eqb (length source) (length dest)) then Raise ValueError
  else match p with
       | Some (NInt p) =>
           if Z.eqb p 0 then Ok (source, dest)
           else match s with
                | NFloat => Raise TypeError
                | NInt s =>
                    if Z.ltb 0 p then Ok (fupto_or (- p * s) source, ffrom (p * s) dest)
                    else Ok (ffrom (- p * s) source, fupto_or (p * s) dest)
                end
       | _ => Raise ValueError
       end.
(** [ConditionalTransferEntropyEstimator.__init__] (base.py 979-1018) *)
Definition fcte_init (source dest cond : list pt) (prop_time offset : option num) : res unit :=
  if negb (Nat.eqb (length source) (length dest)) || negb (Nat.eqb (length source) (length cond))
  then Raise ValueError
  else match prop_time with
       | Some (NInt p) => if negb (Z.eqb p 0) || negb (none_or_0 offset) then Raise ValueError else Ok tt
       | _ => Raise ValueError
       end.
