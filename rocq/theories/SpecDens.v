(** Specification vocabulary for C119: integrating a function of [d] real coordinates over the cube [a, b]^d, one
    coordinate after the other. *)
From Coq Require Import Reals List.
From Coquelicot Require Import Coquelicot.
Import ListNotations.
Local Open Scope R_scope.

(** [volint d F a b v]: the iterated Riemann integral of [F] over [a <= x_i <= b], i = 1..d, exists and is [v] *)
Fixpoint volint (d : nat) (F : list R -> R) (a b v : R) : Prop :=
  match d with
  | O => F [] = v
  | S d => exists g, (forall x, volint d (fun r => F (x :: r)) a b (g x)) /\ is_RInt g a b v
  end.

(** sample points made of two blocks of coordinates *)
Definition joined_points (ps qs : list (list R)) : list (list R) := map (fun pq => (fst pq ++ snd pq)%list) (combine ps qs).
(** all coordinates of all points are at least [m] away from the ends of [a, b] *)
Definition inside (m a b : R) (ps : list (list R)) : Prop := List.Forall (List.Forall (fun c => a + m <= c <= b - m)) ps.
