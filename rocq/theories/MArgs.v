(** Model: the positional arguments of the entropy estimators (infomeasure/estimators/base.py). *)
From Coq Require Import Reals List ZArith Arith Bool.
From Verif Require Import Res RSum Spec Ord MBase MData MEntropy MGeneric MCtor.
Import ListNotations.

(** a Python object passed as data: an array or a sequence other than a string or a tuple; a string; a tuple; a
    DiscreteData object; anything else (numbers, None, sets, generators, ...) *)
Inductive parg : Type := PSeq (a : arr) | PStr | PTup (l : list parg) | PDD (d : ddata) | POther.

Definition is_seq (p : parg) : bool := match p with PSeq _ => true | _ => false end.
Definition seqs (l : list parg) : list arr := flat_map (fun p => match p with PSeq a => [a] | _ => [] end) l.

(** [EntropyEstimator.__init__] (base.py 282-338): [self.data] *)
Definition h_args (args : list parg) : res (list einput) :=
  match args with
  | [] => Raise ValueError
  | [PSeq a] => Ok [EArr a]
  | [PTup l] =>
      if negb (forallb is_seq l) then Raise ValueError
      else let cols := seqs l in
           if existsb (fun c => negb (Nat.eqb (arr_len c) (arr_len (hd (A1 []) cols)))) cols then Raise ValueError
           else Ok [ETuple cols]
  | [_] => Raise ValueError
  | [PSeq a; PSeq b] => Ok [EArr a; EArr b]
  | _ => Raise ValueError
  end.

(** [DiscreteHEstimator.__init__] (base.py 1146-1159) and [_calculate] (366-388) of a discrete class with
    cross-entropy [cross] *)
Definition discrete_entropy (e : est) (cross : base -> ddata -> ddata -> res R) (b : base) (args : list parg) : res R :=
  match args with
  | [] => Raise IndexError
  | PDD d :: _ => e_global e b d
  | _ =>
      let* ins := h_args args in
      let* ds := mapM make_data ins in
      match ds with [d] => e_global e b d | [p; q] => cross b p q | _ => Raise RuntimeError end
  end.
