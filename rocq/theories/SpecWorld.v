(** Specification vocabulary: one estimator object within a program that does many other things. *)
From Coq Require Import List ZArith Arith Bool.
From Verif Require Import Res MBase MObj MObjC SpecObj MWorld.
Import ListNotations.

(** the answers to the calls on the [i]-th object, the calls themselves *)
Fixpoint answers_of (i : nat) (p : list event) (r : list (option (out answer))) : list (option (out answer)) :=
  match p, r with
  | e :: p, a :: r =>
      match e with
      | ECall j _ _ => if Nat.eqb j i then a :: answers_of i p r else answers_of i p r
      | _ => answers_of i p r
      end
  | _, _ => []
  end.
Fixpoint calls_of (i : nat) (p : list event) : list ((nat -> bool) * op) :=
  match p with
  | [] => []
  | ECall j irq c :: p => if Nat.eqb j i then (irq, c) :: calls_of i p else calls_of i p
  | _ :: p => calls_of i p
  end.
(** number of constructor calls, of generators the user made *)
Definition objects_in (p : list event) : nat := length (filter (fun e => match e with ENew _ _ => true | _ => false end) p).
Definition generators_in (p : list event) : nat := length (filter (fun e => match e with EGen _ => true | _ => false end) p).

(** An object all alone with a generator at position [q]: its answers to a sequence of calls. *)
Fixpoint alone (K : klass) (st : stream) (h : list ((nat -> bool) * op)) (o : obj) : list (option (out answer)) :=
  match h with
  | [] => []
  | (irq, c) :: h => let '(o', a) := run_op irq K (s_perm st) (s_boot st) c o in Some a :: alone K st h o'
  end.

(** what the object created by the event [e] of the program [pre; e; post] answers to its calls *)
Definition answers (np : numpy) (pre : list event) (e : event) (post : list event) : list (option (out answer)) :=
  answers_of (objects_in pre) post (skipn (S (length pre)) (snd (exec np (pre ++ e :: post) start))).

(** the user's [u]-th generator is used neither for another object nor by the user *)
Definition not_using (u : nat) (p : list event) : Prop :=
  List.Forall (fun e => match e with EGen (SGen v) | ENew _ (SGen v) | EUser v _ => v <> u | _ => True end) p.
