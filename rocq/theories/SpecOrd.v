(** Specification vocabulary: windows, ordinal patterns, factorials. *)
From Coq Require Import Reals List ZArith Arith Permutation.
From Verif Require Import Spec Ord.
Import ListNotations.

#[export] Instance Cmp_R : Cmp R.
Proof.
  refine {| cmp := fun x y => if Rlt_dec x y then Lt else if Rlt_dec y x then Gt else Eq |}.
  - intros x y. destruct (Rlt_dec x y) as [L|L]; [split; [discriminate|intros ->; destruct (Rlt_irrefl _ L)]|].
    destruct (Rlt_dec y x) as [L'|L']; [split; [discriminate|intros ->; destruct (Rlt_irrefl _ L')]|].
    split; [intros _|reflexivity]. destruct (Rtotal_order x y) as [?|[?|?]]; [contradiction|assumption|contradiction].
  - intros x y. destruct (Rlt_dec x y) as [L|L], (Rlt_dec y x) as [L'|L']; try reflexivity.
    destruct (Rlt_irrefl x). eapply Rlt_trans; eassumption.
  - intros x y z. destruct (Rlt_dec x y) as [L|L]; [|destruct (Rlt_dec y x); discriminate]. intros _.
    destruct (Rlt_dec y z) as [L'|L']; [|destruct (Rlt_dec z y); discriminate]. intros _.
    destruct (Rlt_dec x z) as [L2|L2]; [reflexivity|]. destruct L2. eapply Rlt_trans; eassumption.
Defined.

(** n! as an integer *)
Fixpoint zfact (n : nat) : Z := match n with O => 1 | S m => Z.of_nat (S m) * zfact m end%Z.

(** Lehmer code of a permutation: each entry contributes the number of later, smaller entries, in the
    factorial number system *)
Fixpoint lehmer (p : list nat) : Z :=
  match p with
  | [] => 0
  | x :: r => Z.of_nat (length (filter (fun y => Nat.ltb y x) r)) * zfact (length r) + lehmer r
  end%Z.

(** a permutation of [0, ..., n-1] *)
Definition is_perm (n : nat) (p : list nat) : Prop := Permutation p (seq 0 n).

Section Windows.
Context {T : Type}.

(** the window starting at [t]: values at [t], [t+s], ..., [t+(d-1)s] ([x0] is an irrelevant default) *)
Definition window (x0 : T) (xs : list T) (d s t : nat) : list T :=
  map (fun i => nth (t + i * s) xs x0) (seq 0 d).

(** number of windows, and the list of all of them *)
Definition nwindows (n d s : nat) : nat := n - (d - 1) * s.
Definition windows (x0 : T) (xs : list T) (d s : nat) : list (list T) :=
  map (window x0 xs d s) (seq 0 (nwindows (length xs) d s)).

Context `{Cmp T}.

(** [p] lists the positions of [w], each once, in an order of non-decreasing values *)
Definition sorts (w : list T) (p : list nat) : Prop :=
  Permutation p (seq 0 (length w)) /\
  forall x0 i j, i < j < length w -> ~ lt (nth (nth j p 0) w x0) (nth (nth i p 0) w x0).

(** ... and equal values keep their order *)
Definition sorts_stably (w : list T) (p : list nat) : Prop :=
  sorts w p /\ forall x0 i j, i < j < length w ->
    nth (nth i p 0) w x0 = nth (nth j p 0) w x0 -> nth i p 0 < nth j p 0.

(** all values of a window differ *)
Definition tie_free (w : list T) : Prop := NoDup w.
Definition no_ties (x0 : T) (xs : list T) (d s : nat) : Prop := Forall tie_free (windows x0 xs d s).
End Windows.

Definition increasing {T U} `{Cmp T} `{Cmp U} (f : T -> U) : Prop := forall x y, lt x y -> lt (f x) (f y).

(** a pattern function: assigns to every window an order of positions that sorts it *)
Definition sorting {T} `{Cmp T} (p : list T -> list nat) : Prop := forall w, sorts w (p w).
Definition stable_sorting {T} `{Cmp T} (p : list T -> list nat) : Prop := forall w, sorts_stably w (p w).

(** the sequence of ordinal patterns of a series *)
Definition patterns {T} (p : list T -> list nat) (x0 : T) (xs : list T) (d s : nat) : list (list nat) :=
  map p (windows x0 xs d s).
