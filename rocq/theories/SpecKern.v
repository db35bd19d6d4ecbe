(** Independent specification of box-kernel information measures.  A variable is a list of sample points, a point
    a list of coordinates; nothing here refers to the code model. *)
From Coq Require Import Reals List ZArith Arith Bool.
From Verif Require Import RSum Spec SpecBase.
Import ListNotations.
Local Open Scope R_scope.

(** [n] sample points with [d] coordinates each *)
Definition table (n d : nat) (v : list (list R)) : Prop := length v = n /\ Forall (fun p => length p = d) v.

(** no coordinate of [y] is more than half a bandwidth away from that of [x] *)
Definition near (h : R) (x y : list R) : bool :=
  forallb (fun ab => if Rle_dec (Rabs (fst ab - snd ab)) (h / 2) then true else false) (combine x y).

(** number of the [n] samples that are near sample [t] in every variable *)
Definition nnear (h : R) (n : nat) (vars : list (list (list R))) (t : nat) : nat :=
  length (filter (fun u => forallb (fun v => near h (nth t v []) (nth u v [])) vars) (seq 0 n)).

(** box-kernel density at sample [t]: the fraction of near samples over the volume of the box ([d] coordinates) *)
Definition kdensity (h : R) (n d : nat) (vars : list (list (list R))) (t : nat) : R :=
  INR (nnear h n vars t) / INR n / h ^ d.

(** box-kernel entropy of the joint variable: the mean of - ln density over the samples *)
Definition KH (h : R) (n d : nat) (vars : list (list (list R))) : R :=
  mean (map (fun t => - ln (kdensity h n d vars t)) (seq 0 n)).

(** numbers of workers that are accepted *)
Definition workers_ok (w : Z) : Prop := (0 < w)%Z \/ w = (-1)%Z.

(** the samples in another order: entry [t] of the result is sample [nth t sigma] *)
Definition reorder (sigma : list nat) (v : list (list R)) : list (list R) := map (fun t => nth t v []) sigma.
(** all samples moved by the vector [c] / multiplied by [a] *)
Definition vadd (c p : list R) : list R := map (fun ab => fst ab + snd ab) (combine c p).
Definition translate (c : list R) (v : list (list R)) : list (list R) := map (vadd c) v.
Definition rescale (a : R) (v : list (list R)) : list (list R) := map (map (Rmult a)) v.

(** number of reference points near [x], and the box-kernel density of the reference points (of [d] coordinates) at [x] *)
Definition nref (h : R) (ref : list (list R)) (x : list R) : nat := length (filter (near h x) ref).
Definition refdensity (h : R) (d : nat) (ref : list (list R)) (x : list R) : R :=
  INR (nref h ref x) / INR (length ref) / h ^ d.
