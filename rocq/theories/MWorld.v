(** Model: a program that uses several estimator objects, and who owns which random generator
    (infomeasure/estimators/mixins.py, abbreviated MIX, on top of MObj and MObjC).

    Random generators are objects with identity: estimator objects hold a reference to one, and several may hold the same. *)
From Coq Require Import Reals List ZArith Arith Bool.
From Verif Require Import Res MBase MTE MGeneric MObj MObjC SpecObj.
Import ListNotations.

(** the values a numpy generator hands out: the state is an index into arbitrary sequences of normal values, row orders and
    row numbers, as in MObj and MObjC (simplification: in numpy the next state also depends on the kind of the draw) *)
Record stream : Type := mkStream { s_normal : nat -> R; s_perm : nat -> nat -> list nat; s_boot : nat -> nat -> list nat }.

(** numpy: what a generator made from an integer hands out, and the one made as [n]-th generator of the run without a seed
    (from entropy of the operating system) *)
Record numpy : Type := mkNumpy { seeded : Z -> stream; from_os : nat -> stream }.

(** values of [seed]: none, an integer, or a generator the user made earlier (the [u]-th) *)
Inductive seed : Type := SNone | SInt (z : Z) | SGen (u : nat).

(** an estimator object: its class, its attributes and the reference [self.rng] *)
Record wobj : Type := mkW { w_cls : klass; w_obj : obj; w_gen : nat }.

(** all generators with their positions; the number of generators made without seed; references held by the user
    ([None]: the call that should have made one raised); the estimator objects in order of creation ([None]: the constructor raised) *)
Record world : Type := mkWorld { w_gens : list (stream * nat); w_os : nat; w_user : list (option nat); w_objs : list (option wobj) }.
Definition start : world := mkWorld [] 0 [] [].

Fixpoint put {A} (l : list A) (i : nat) (x : A) : list A :=
  match l, i with
  | [], _ => []
  | _ :: r, O => x :: r
  | y :: r, S i => y :: put r i x
  end.

(** [numpy.random.default_rng(seed)], called in MIX 34: a new generator, or the given one itself *)
Definition default_rng (np : numpy) (s : seed) (w : world) : world * out nat :=
  match s with
  | SNone => (mkWorld (w_gens w ++ [(from_os np (w_os w), 0%nat)]) (S (w_os w)) (w_user w) (w_objs w), inr (length (w_gens w)))
  | SInt z => if (z <? 0)%Z then (w, inl ValueError)
              else (mkWorld (w_gens w ++ [(seeded np z, 0%nat)]) (w_os w) (w_user w) (w_objs w), inr (length (w_gens w)))
  | SGen u => match nth_error (w_user w) u with Some (Some g) => (w, inr g) | _ => (w, inl TypeError) end
  end.

Definition add_obj (w : world) (x : option wobj) : world := mkWorld (w_gens w) (w_os w) (w_user w) (w_objs w ++ [x]).
Definition set_obj (w : world) (i : nat) (x : wobj) : world := mkWorld (w_gens w) (w_os w) (w_user w) (put (w_objs w) i (Some x)).
Definition set_gen (w : world) (g : nat) (x : stream * nat) : world := mkWorld (put (w_gens w) g x) (w_os w) (w_user w) (w_objs w).

(** a constructor with its arguments: what it makes of the generator it gets ([Raise]: it rejects the arguments) *)
Definition maker : Type := stream -> res object.

(** [RandomGeneratorMixin.__init__] (MIX 32-35) as part of a constructor; whether the generator is made before or after
    the checks of the data makes no difference to what can be observed *)
Definition construct (np : numpy) (mk : maker) (s : seed) (w : world) : world * out unit :=
  let '(w1, r) := default_rng np s w in
  match r with
  | inl e => (add_obj w1 None, inl e)
  | inr g =>
      match nth_error (w_gens w1) g with
      | None => (add_obj w1 None, inl RuntimeError)
      | Some (st, _) =>
          match mk st with
          | Ok (K, d) => (add_obj w1 (Some (mkW K (fresh d 0) g)), inr tt)
          | Raise e => (add_obj w1 None, inl e)
          | NonFinite => (add_obj w1 None, inl RuntimeError)
          end
      end
  end.

(** a method call on the [i]-th object: everything is drawn from the generator [self.rng] refers to (MIX 286-292, 329-333;
    te_slicing.py 191-204; the noise of the KSG, Renyi and Tsallis classes), which is left where the method stops *)
Definition call (i : nat) (irq : nat -> bool) (c : op) (w : world) : world * option (out answer) :=
  match nth_error (w_objs w) i with
  | Some (Some x) =>
      match nth_error (w_gens w) (w_gen x) with
      | Some (st, q) =>
          let '(o, a) := run_op irq (w_cls x) (s_perm st) (s_boot st) c (set_rng (w_obj x) q) in
          (set_obj (set_gen w (w_gen x) (st, o_rng o)) i (mkW (w_cls x) o (w_gen x)), Some a)
      | None => (w, None)
      end
  | _ => (w, None)
  end.

(** what a program does: make a generator, make an estimator object, call one of its methods (interrupted where [irq] says),
    draw [n] values from a generator of its own *)
Inductive event : Type :=
| EGen (s : seed)
| ENew (mk : maker) (s : seed)
| ECall (i : nat) (irq : nat -> bool) (c : op)
| EUser (u n : nat).

Definition step (np : numpy) (e : event) (w : world) : world * option (out answer) :=
  match e with
  | EGen s => match default_rng np s w with
              | (w1, inr g) => (mkWorld (w_gens w1) (w_os w1) (w_user w1 ++ [Some g]) (w_objs w1), None)
              | (w1, inl e) => (mkWorld (w_gens w1) (w_os w1) (w_user w1 ++ [None]) (w_objs w1), Some (inl e))
              end
  | ENew mk s => match construct np mk s w with
                 | (w1, inr _) => (w1, None)
                 | (w1, inl e) => (w1, Some (inl e))
                 end
  | ECall i irq c => call i irq c w
  | EUser u n => match nth_error (w_user w) u with
                 | Some (Some g) => match nth_error (w_gens w) g with
                                    | Some (st, q) => (set_gen w g (st, q + n)%nat, None)
                                    | None => (w, None)
                                    end
                 | _ => (w, None)
                 end
  end.

Fixpoint exec (np : numpy) (p : list event) (w : world) : world * list (option (out answer)) :=
  match p with
  | [] => (w, [])
  | e :: p => let '(w1, a) := step np e w in let '(w2, r) := exec np p w1 in (w2, a :: r)
  end.
