(** Specification vocabulary for names given in any mixture of upper and lower case, and for what a prior name stands for.
    Written without the model's lower-casing function. *)
From Coq Require Import Reals List String Ascii.
From Verif Require Import Spec SpecEst.
Import ListNotations.

(** the 26 letters, with their capitals *)
Definition letters : list (ascii * ascii) :=
  [("a", "A"); ("b", "B"); ("c", "C"); ("d", "D"); ("e", "E"); ("f", "F"); ("g", "G"); ("h", "H"); ("i", "I"); ("j", "J"); ("k", "K");
   ("l", "L"); ("m", "M"); ("n", "N"); ("o", "O"); ("p", "P"); ("q", "Q"); ("r", "R"); ("s", "S"); ("t", "T"); ("u", "U"); ("v", "V");
   ("w", "W"); ("x", "X"); ("y", "Y"); ("z", "Z")]%char.

(** [written s t]: [s] is the name [t] with some of its small letters replaced by their capitals *)
Definition capital_of (c d : ascii) : Prop := c = d \/ In (d, c) letters.
Definition written (s t : string) : Prop := Forall2 capital_of (list_ascii_of_string s) (list_ascii_of_string t).

Local Open Scope R_scope.
(** the concentration a documented prior name stands for, with [K] categories and [N] samples *)
Definition stands_for (name : string) (K N x : R) : Prop :=
  (name = "jeffrey"%string /\ x = 1 / 2) \/ (name = "laplace"%string /\ x = 1) \/
  (name = "sch-grass"%string /\ x = 1 / K) \/ (name = "min-max"%string /\ x = sqrt N / K).

(** the number of categories: the given one, or the number of values observed *)
Definition categories {A} `{EqDec A} (Kp : option Z) (xs : list A) : R :=
  match Kp with Some k => IZR k | None => INR (nvals xs) end.
