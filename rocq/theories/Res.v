(** Results of Python computations: a value, a raised exception, or a non-finite float. *)
From Coq Require Import List.
Import ListNotations.

(** Exception classes that occur in the modelled code. *)
Inductive exn : Type :=
| ValueError | TypeError | KeyError | AttributeError | RuntimeError
| UnsupportedOperation | NotImplementedError | TheoreticalInconsistencyError
| IndexError | ZeroDivisionError | KeyboardInterrupt.

(** [Ok a]: a normal (finite) value; [Raise e]: an exception propagates;
    [NonFinite]: the float computation produced [inf] or [nan]. *)
Inductive res (A : Type) : Type :=
| Ok (a : A)
| Raise (e : exn)
| NonFinite.
Arguments Ok {A} a.
Arguments Raise {A} e.
Arguments NonFinite {A}.

Definition bind {A B} (x : res A) (f : A -> res B) : res B :=
  match x with
  | Ok a => f a
  | Raise e => Raise e
  | NonFinite => NonFinite
  end.

Declare Scope res_scope.
Delimit Scope res_scope with res.
Notation "'let*' x ':=' e 'in' b" := (bind e (fun x => b))
  (at level 200, x pattern, e at level 100, b at level 200, right associativity) : res_scope.
Open Scope res_scope.

Definition rmap {A B} (f : A -> B) (x : res A) : res B := let* a := x in Ok (f a).

(** Element-wise application over an array: the first failing element decides. *)
Fixpoint mapM {A B} (f : A -> res B) (l : list A) : res (list B) :=
  match l with
  | [] => Ok []
  | x :: xs => let* y := f x in let* ys := mapM f xs in Ok (y :: ys)
  end.

Lemma mapM_ok {A B} (f : A -> res B) (g : A -> B) (l : list A) :
  (forall x, In x l -> f x = Ok (g x)) -> mapM f l = Ok (map g l).
Proof.
  induction l as [|x xs IH]; intros H; simpl; [reflexivity|].
  rewrite (H x) by (left; reflexivity). simpl.
  rewrite IH by (intros y Hy; apply H; right; exact Hy). reflexivity.
Qed.

Lemma bind_ok {A B} (x : res A) (f : A -> res B) b :
  bind x f = Ok b -> exists a, x = Ok a /\ f a = Ok b.
Proof. destruct x; simpl; intros H; try discriminate. eauto. Qed.

Lemma mapM_app {A B} (f : A -> res B) (l1 l2 : list A) :
  mapM f (l1 ++ l2) = let* a := mapM f l1 in let* b := mapM f l2 in Ok (a ++ b).
Proof.
  induction l1 as [|x xs IH]; simpl.
  - destruct (mapM f l2); reflexivity.
  - destruct (f x); simpl; try reflexivity. rewrite IH.
    destruct (mapM f xs); simpl; try reflexivity.
    destruct (mapM f l2); reflexivity.
Qed.

Lemma mapM_inv {A B} (f : A -> res B) (l : list A) ys :
  mapM f l = Ok ys -> Forall2 (fun x y => f x = Ok y) l ys.
Proof.
  revert ys; induction l as [|x xs IH]; simpl; intros ys H.
  - injection H as <-. constructor.
  - destruct (f x) eqn:E; simpl in H; try discriminate.
    destruct (mapM f xs) eqn:E2; simpl in H; try discriminate.
    injection H as <-. constructor; auto.
Qed.
