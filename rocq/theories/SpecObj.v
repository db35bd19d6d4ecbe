(** Specification vocabulary: histories of calls on one estimator object. *)
From Coq Require Import Reals List ZArith Arith Permutation.
From Verif Require Import Res RSum Spec MBase MTE MObj.
Import ListNotations.

(** calls a user may make *)
Inductive op : Type :=
| OpResult | OpGlobal | OpLocal | OpCalculate
| OpTest (n : num) (m : method) | OpEffective (m : method).

(** what they return *)
Inductive answer : Type :=
| AGlob (g : fl) | ALoc (ls : list fl) | AUnit | ATest (g : fl) (vs : list fl) | AEff (g v : fl).

Definition mmap {A B} (f : A -> B) (m : M A) : M B := mbind m (fun a => ret (f a)).

Section Run.
Variables (irq : nat -> bool) (K : klass) (pd bd : nat -> nat -> list nat).

Definition run_op (c : op) : M answer :=
  match c with
  | OpResult => mmap AGlob (result irq K)
  | OpGlobal => mmap AGlob (global_val irq K)
  | OpLocal => mmap ALoc (local_vals irq K)
  | OpCalculate => mmap (fun _ => AUnit) (calculate irq K)
  | OpTest n m => mmap (fun p => ATest (fst p) (snd p)) (statistical_test irq K pd bd n m)
  | OpEffective m => mmap (fun p => AEff (fst p) (snd p)) (effective_val irq K pd bd m)
  end.

(** a history of calls: exceptions are caught by the user, who goes on with the same object *)
Fixpoint run (h : list op) (o : obj) : obj * list (out answer) :=
  match h with
  | [] => (o, [])
  | c :: h => let '(o1, a) := run_op c o in let '(o2, r) := run h o1 in (o2, a :: r)
  end.
End Run.

(** the global / local value an answer reports *)
Definition glob_of (a : out answer) : option fl :=
  match a with inr (AGlob g) | inr (ATest g _) | inr (AEff g _) => Some g | _ => None end.
Definition loc_of (a : out answer) : option (list fl) :=
  match a with inr (ALoc l) => Some l | _ => None end.
Definition failed (a : out answer) : bool := match a with inl _ => true | _ => false end.

(** no interruption *)
Definition never : nat -> bool := fun _ => false.

(** [x'] has the rows of [x] in another order; [x'] consists of as many rows, each from [x] *)
Definition reordering (x x' : arr) : Prop := Permutation (arr_rows x) (arr_rows x').
Definition redraw (x x' : arr) : Prop :=
  arr_len x' = arr_len x /\ forall r, In r (arr_rows x') -> In r (arr_rows x).

(** draws a numpy generator makes: a row order; row numbers *)
Definition legal_perm (pd : nat -> nat -> list nat) : Prop := forall r n, Permutation (pd r n) (seq 0 n).
Definition legal_boot (bd : nat -> nat -> list nat) : Prop :=
  forall r n, length (bd r n) = n /\ Forall (fun j => j < n) (bd r n).
