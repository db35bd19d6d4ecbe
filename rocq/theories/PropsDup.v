(** C41: no constructor is given a keyword argument twice (Python raises TypeError for that). *)
From Coq Require Import List ZArith Arith Bool String Lia.
From Verif Require Import Res MDisp PropsDisp.
Import ListNotations.
Open Scope string_scope.

Section Dup.
Context {D : Type}.
Implicit Types (kw : kwargs D) (data : list D) (c : ctor D).
Definition names kw : list string := map fst kw.
(** every function of the public interface, given its keyword arguments *)
Definition public data kw : list (res (ctor D)) :=
  [call_entropy data kw; call_cross_entropy data kw; call_mutual_information data kw; call_conditional_mutual_information data kw;
   call_transfer_entropy data kw; call_conditional_transfer_entropy data kw; call_estimator data kw].

Lemma kdrop_In l kw k : In k (names (kdrop l kw)) -> In k (names kw) /\ ~ In k l.
Proof.
  unfold names, kdrop. intros I. apply in_map_iff in I. destruct I as ([a v] & <- & I). apply filter_In in I. destruct I as [I N]. cbn [fst] in *.
  split; [change a with (fst (a, v)); apply in_map; exact I|]. intros K. apply negb_true_iff in N. unfold one_of in N.
  rewrite (proj2 (existsb_exists (String.eqb a) l)) in N; [discriminate|]. exists a. split; [exact K|apply String.eqb_refl].
Qed.
Lemma kdrop_NoDup l kw : NoDup (names kw) -> NoDup (names (kdrop l kw)).
Proof.
  unfold names, kdrop. induction kw as [|[a v] r IH]; cbn [map filter]; intros ND; [constructor|]. inversion ND as [|? ? N ND']; subst.
  destruct (negb _); cbn [map fst]; [|apply IH; exact ND']. constructor; [|apply IH; exact ND'].
  intros I. apply N. apply (kdrop_In l r a) in I. apply I.
Qed.
Theorem C41_no_keyword_twice : forall data kw c, NoDup (names kw) -> In (Ok c) (public data kw) -> NoDup (names (c_kw c)).
Proof.
  intros data kw c ND. unfold public.
  assert (P : NoDup (names (pass_on kw))) by (apply kdrop_NoDup; exact ND).
  assert (H0 : call_entropy data kw = Ok c -> NoDup (names (c_kw c))).
  { unfold call_entropy. destruct (dyn_class _ _ _); cbn [bind]; try discriminate. intros E. injection E as <-. exact P. }
  assert (H1 : call_mutual_information data kw = Ok c -> NoDup (names (c_kw c))).
  { unfold call_mutual_information. destruct (dyn_class _ _ _); cbn [bind]; try discriminate. destruct (Nat.ltb _ _); try discriminate. intros E. injection E as <-. exact P. }
  assert (H2 : call_transfer_entropy data kw = Ok c -> NoDup (names (c_kw c))).
  { unfold call_transfer_entropy. destruct (dyn_class _ _ _); cbn [bind]; try discriminate. destruct (negb _); try discriminate. intros E. injection E as <-. exact P. }
  assert (H3 : call_estimator data kw = Ok c -> NoDup (names (c_kw c))).
  { assert (Q : NoDup (names (kdrop estimator_named kw))) by (apply kdrop_NoDup; exact ND).
    assert (A : forall l : list (string * arg D), incl (names l) estimator_named -> NoDup (names l) -> NoDup (names (l ++ kdrop estimator_named kw)%list)).
    { intros l IN NL. unfold names in *. rewrite map_app. induction l as [|[a v] l IH]; cbn [map app] in *; [exact Q|]. inversion NL as [|? ? N NL']; subst.
      constructor; [|apply IH; [intros x Hx; apply IN; right; exact Hx|exact NL']]. intros I. apply in_app_or in I. destruct I as [I|I]; [exact (N I)|].
      apply (kdrop_In estimator_named kw a) in I. apply (proj2 I). apply IN. left. reflexivity. }
    assert (S : forall l : list string, (forall x, In x l -> one_of estimator_named x = true) -> incl l estimator_named).
    { intros l F x Hx. specialize (F x Hx). apply existsb_exists in F. destruct F as (y & Hy & E). apply String.eqb_eq in E. subst. exact Hy. }
    unfold call_estimator. destruct (kget_none kw "measure"); try discriminate. cbv zeta.
    repeat match goal with |- (if ?x then _ else _) = _ -> _ => destruct x end; try discriminate;
      try (match goal with |- (match ?x with ANone => _ | _ => _ end) = _ -> _ => destruct x end; try discriminate);
      try (match goal with |- (match ?x with Some _ => _ | None => _ end) = _ -> _ => destruct x end; try discriminate);
      match goal with |- bind ?r _ = _ -> _ => destruct r; cbn [bind]; try discriminate end; intros E; injection E as <-; cbn [c_kw]; try exact Q.
    - apply (A [("cond", kget_none kw "cond")]); [apply S; intros x [<-|[]]; reflexivity|repeat constructor; cbn; intuition discriminate].
    - apply (A [("cond", kget_none kw "cond"); ("prop_time", kget_or kw "prop_time" (AInt 0)); ("src_hist_len", kget_or kw "src_hist_len" (AInt 1));
               ("dest_hist_len", kget_or kw "dest_hist_len" (AInt 1)); ("cond_hist_len", kget_or kw "cond_hist_len" (AInt 1)); ("step_size", kget_or kw "step_size" (AInt 1))]);
        [apply S; cbn [names map fst]; intros x Hx; repeat (destruct Hx as [<-|Hx]; [reflexivity|]); destruct Hx|repeat constructor; cbn; intuition discriminate].
    - apply (A [("prop_time", kget_or kw "prop_time" (AInt 0)); ("src_hist_len", kget_or kw "src_hist_len" (AInt 1));
               ("dest_hist_len", kget_or kw "dest_hist_len" (AInt 1)); ("step_size", kget_or kw "step_size" (AInt 1))]);
        [apply S; cbn [names map fst]; intros x Hx; repeat (destruct Hx as [<-|Hx]; [reflexivity|]); destruct Hx|repeat constructor; cbn; intuition discriminate]. }
  intros [E|[E|[E|[E|[E|[E|[E|[]]]]]]]].
  - exact (H0 E).
  - unfold call_cross_entropy in E. destruct (Nat.ltb _ _); [discriminate|exact (H0 E)].
  - exact (H1 E).
  - unfold call_conditional_mutual_information in E. destruct (is_none _); [discriminate|]. destruct (Nat.ltb _ _); [discriminate|exact (H1 E)].
  - exact (H2 E).
  - unfold call_conditional_transfer_entropy in E. destruct (is_none _); [discriminate|]. destruct (negb _); [discriminate|exact (H2 E)].
  - exact (H3 E).
Qed.
End Dup.
Print Assumptions C41_no_keyword_twice.
Example C41_twice_example (x y z : nat) :
  let kw := [("measure", AStr "cte"); ("approach", AStr "discrete"); ("cond", AData z); ("cond_hist_len", AInt 2)] in
  NoDup (names kw) /\ exists c, In (Ok c) (public [x; y] kw) /\ NoDup (names (c_kw c)).
Proof.
  intros kw. assert (N : NoDup (names kw)) by (repeat constructor; cbn; intuition discriminate). split; [exact N|].
  destruct (call_estimator [x; y] kw) as [c|e|] eqn:E; [|vm_compute in E; discriminate|vm_compute in E; discriminate].
  exists c. assert (I : In (Ok c) (public [x; y] kw)) by (do 6 right; left; exact E). split; [exact I|exact (C41_no_keyword_twice _ _ _ N I)].
Qed.
