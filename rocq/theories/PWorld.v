(** Proofs about programs with several estimator objects. *)
From Coq Require Import List ZArith Arith Bool Lia.
From Verif Require Import Res MBase MObj MObjC SpecObj MWorld SpecWorld.
Import ListNotations.

Lemma put_length {A} (l : list A) i x : length (put l i x) = length l.
Proof. revert i; induction l; destruct i; cbn; congruence. Qed.
Lemma put_same {A} (l : list A) i x y : nth_error l i = Some y -> nth_error (put l i x) i = Some x.
Proof. revert i; induction l; destruct i; cbn; intros E; try discriminate; [reflexivity|apply IHl; exact E]. Qed.
Lemma put_other {A} (l : list A) i j x : i <> j -> nth_error (put l i x) j = nth_error l j.
Proof. revert i j; induction l; destruct i, j; cbn; intros N; try reflexivity; [lia|apply IHl; lia]. Qed.

Lemma exec_app np p r w : exec np (p ++ r) w =
  let '(w1, a) := exec np p w in let '(w2, b) := exec np r w1 in (w2, a ++ b).
Proof.
  revert w. induction p as [|e p IH]; intros w; cbn [exec app].
  - destruct (exec np r w); reflexivity.
  - destruct (step np e w) as [w1 a]. rewrite IH. destruct (exec np p w1) as [w2 b]. destruct (exec np r w2). reflexivity.
Qed.
Lemma exec_length np p w : length (snd (exec np p w)) = length p.
Proof. revert w. induction p as [|e p IH]; intros w; cbn [exec]; [reflexivity|]. destruct (step np e w) as [w1 a]. specialize (IH w1). destruct (exec np p w1). cbn in *. congruence. Qed.

Lemma answers_exec np pre e post : answers np pre e post =
  answers_of (objects_in pre) post (snd (exec np post (fst (step np e (fst (exec np pre start)))))).
Proof.
  unfold answers. rewrite exec_app. pose proof (exec_length np pre start) as L. destruct (exec np pre start) as [w1 a]. cbn [fst snd] in *.
  cbn [exec]. destruct (step np e w1) as [w2 b]. cbn [fst]. destruct (exec np post w2) as [w3 c]. cbn [fst snd].
  rewrite skipn_app, L. replace (S (length pre) - length pre) with 1 by lia. rewrite skipn_all2 by lia. reflexivity.
Qed.

(** references point to existing generators *)
Definition wf (w : world) : Prop :=
  (forall u g, nth_error (w_user w) u = Some (Some g) -> g < length (w_gens w)) /\
  (forall i x, nth_error (w_objs w) i = Some (Some x) -> w_gen x < length (w_gens w)).

Lemma nth_error_snoc {A} (l : list A) x i y : nth_error (l ++ [x]) i = Some y -> nth_error l i = Some y \/ (i = length l /\ y = x).
Proof.
  intros E. destruct (Nat.lt_ge_cases i (length l)) as [L|L].
  - left. rewrite nth_error_app1 in E by exact L. exact E.
  - right. rewrite nth_error_app2 in E by exact L. destruct (i - length l) as [|k] eqn:Q; cbn in E.
    + injection E as <-. split; [lia|reflexivity].
    + destruct k; discriminate E.
Qed.

Lemma default_rng_shape np s w w1 r : default_rng np s w = (w1, r) ->
  w_user w1 = w_user w /\ w_objs w1 = w_objs w /\
  ((w1 = w /\ (exists e, r = inl e)) \/ (w1 = w /\ exists u g, s = SGen u /\ nth_error (w_user w) u = Some (Some g) /\ r = inr g) \/
   (exists st, w_gens w1 = w_gens w ++ [(st, 0)] /\ r = inr (length (w_gens w)) /\ forall u, s <> SGen u)).
Proof.
  destruct s as [|z|u]; cbn [default_rng].
  - intros [= <- <-]. split; [reflexivity|]. split; [reflexivity|]. right; right. eexists. repeat split; discriminate.
  - destruct (z <? 0)%Z; intros [= <- <-]; (split; [reflexivity|]); (split; [reflexivity|]).
    + left. split; [reflexivity|]. eexists; reflexivity.
    + right; right. eexists. repeat split; discriminate.
  - destruct (nth_error (w_user w) u) as [[g|]|] eqn:E; intros [= <- <-]; (split; [reflexivity|]); (split; [reflexivity|]).
    + right; left. split; [reflexivity|]. exists u, g. auto.
    + left. split; [reflexivity|]. eexists; reflexivity.
    + left. split; [reflexivity|]. eexists; reflexivity.
Qed.

(** what one event does to the world *)
Definition grows (w w' : world) : Prop := length (w_gens w) <= length (w_gens w').

Lemma construct_cases np mk s w : exists w1 r x, default_rng np s w = (w1, r) /\ fst (construct np mk s w) = add_obj w1 x /\
  (forall y, x = Some y -> r = inr (w_gen y) /\ w_gen y < length (w_gens w1)).
Proof.
  unfold construct. destruct (default_rng np s w) as [w1 r]. destruct r as [e|g]; [exists w1, (inl e), None; repeat split; discriminate|].
  destruct (nth_error (w_gens w1) g) as [[st q]|] eqn:E; [|exists w1, (inr g), None; repeat split; discriminate].
  destruct (mk st) as [[K d]|e|]; [|exists w1, (inr g), None; repeat split; discriminate|exists w1, (inr g), None; repeat split; discriminate].
  exists w1, (inr g), (Some (mkW K (fresh d 0) g)). split; [reflexivity|]. split; [reflexivity|]. intros y [= <-]. split; [reflexivity|].
  cbn. apply nth_error_Some. congruence.
Qed.

Lemma step_ECall np i irq c w : exists w' a, step np (ECall i irq c) w = (w', a) /\
  ((w' = w /\ a = None) \/ exists x st q o b, nth_error (w_objs w) i = Some (Some x) /\ nth_error (w_gens w) (w_gen x) = Some (st, q) /\
     run_op irq (w_cls x) (s_perm st) (s_boot st) c (set_rng (w_obj x) q) = (o, b) /\ a = Some b /\
     w' = set_obj (set_gen w (w_gen x) (st, o_rng o)) i (mkW (w_cls x) o (w_gen x))).
Proof.
  cbn [step]. unfold call. destruct (nth_error (w_objs w) i) as [[x|]|] eqn:E; [|eexists _, _; split; [reflexivity|left; auto]..].
  destruct (nth_error (w_gens w) (w_gen x)) as [[st q]|] eqn:F; [|eexists _, _; split; [reflexivity|left; auto]].
  destruct (run_op _ _ _ _ _ _) as [o b] eqn:RO. eexists _, _. split; [reflexivity|]. right. exists x, st, q, o, b. auto 6.
Qed.

Lemma step_wf np e w : wf w -> wf (fst (step np e w)) /\ grows w (fst (step np e w)).
Proof.
  intros [WU WO]. unfold grows. destruct e as [s|mk s|i irq c|u n].
  - cbn [step]. destruct (default_rng np s w) as [w1 r] eqn:E. destruct (default_rng_shape _ _ _ _ _ E) as (U & O & H).
    assert (L : length (w_gens w) <= length (w_gens w1) /\ forall g, r = inr g -> g < length (w_gens w1)).
    { destruct H as [[-> [e ->]]|[[-> (u & g & -> & N & ->)]|(st & G & -> & _)]].
      - split; [lia|discriminate].
      - split; [lia|]. intros g' [= <-]. apply (WU u g N).
      - rewrite G, app_length; cbn. split; [lia|]. intros g' [= <-]. lia. }
    destruct L as [L1 L2]. destruct r as [e|g]; cbn [fst w_gens w_user w_objs]; (split; [|exact L1]); split; cbn [w_gens w_user w_objs].
    + intros u g N. apply nth_error_snoc in N as [N|[_ N]]; [|discriminate N]. rewrite U in N. specialize (WU _ _ N). lia.
    + intros i x N. rewrite O in N. specialize (WO _ _ N). lia.
    + intros u h N. apply nth_error_snoc in N as [N|[_ [= <-]]]; [|apply L2; reflexivity]. rewrite U in N. specialize (WU _ _ N). lia.
    + intros i x N. rewrite O in N. specialize (WO _ _ N). lia.
  - destruct (construct_cases np mk s w) as (w1 & r & x & E & C & P). destruct (default_rng_shape _ _ _ _ _ E) as (U & O & H).
    assert (Q : fst (step np (ENew mk s) w) = add_obj w1 x) by (cbn [step]; rewrite <- C; destruct (construct np mk s w) as [? [?|?]]; reflexivity).
    rewrite Q.
    assert (L : length (w_gens w) <= length (w_gens w1)).
    { destruct H as [[-> _]|[[-> _]|(st & G & _)]]; [lia|lia|rewrite G, app_length; lia]. }
    split; [|exact L]. split; cbn [add_obj w_gens w_user w_objs].
    + intros u g N. rewrite U in N. specialize (WU _ _ N). lia.
    + intros i y N. apply nth_error_snoc in N as [N|[_ N]].
      * rewrite O in N. specialize (WO _ _ N). lia.
      * apply P. congruence.
  - destruct (step_ECall np i irq c w) as (w' & a & -> & [[-> _]|(x & st & q & o & b & N & G & _ & _ & ->)]); cbn [fst]; [split; [split; assumption|lia]|].
    cbn [set_obj set_gen w_gens w_user w_objs]. rewrite put_length. split; [|lia]. split; cbn [w_gens w_user w_objs set_obj set_gen].
    + rewrite put_length. exact WU.
    + rewrite put_length. intros j y M. destruct (Nat.eq_dec i j) as [<-|D].
      * rewrite (put_same _ _ _ _ N) in M. injection M as <-. cbn. apply (WO _ _ N).
      * rewrite put_other in M by exact D. apply (WO _ _ M).
  - cbn [step]. destruct (nth_error (w_user w) u) as [[g|]|]; [|cbn [fst]; split; [split; assumption|lia]..].
    destruct (nth_error (w_gens w) g) as [[st q]|]; cbn [fst]; [|split; [split; assumption|lia]].
    unfold set_gen; cbn [w_gens w_user w_objs]. rewrite put_length. split; [|lia]. split; cbn [w_gens w_user w_objs]; rewrite put_length; assumption.
Qed.

Lemma exec_wf np p w : wf w -> wf (fst (exec np p w)).
Proof.
  revert w. induction p as [|e p IH]; intros w W; cbn [exec]; [exact W|]. destruct (step_wf np e w W) as [W1 _]. destruct (step np e w) as [w1 a]. cbn [fst] in W1.
  specialize (IH w1 W1). destruct (exec np p w1). exact IH.
Qed.
Lemma wf_start : wf start.
Proof. split; intros i x N; destruct i; discriminate N. Qed.

(** the objects are numbered by the constructor calls, the user's generators by the calls that make them *)
Lemma step_numbers np e w : length (w_objs (fst (step np e w))) = length (w_objs w) + objects_in [e] /\
  length (w_user (fst (step np e w))) = length (w_user w) + generators_in [e].
Proof.
  destruct e as [s|mk s|i irq c|u n]; unfold objects_in, generators_in; cbn [filter length].
  - cbn [step]. destruct (default_rng np s w) as [w1 r] eqn:E. destruct (default_rng_shape _ _ _ _ _ E) as (U & O & _).
    destruct r; cbn [fst w_objs w_user]; rewrite app_length, U, O; cbn; lia.
  - destruct (construct_cases np mk s w) as (w1 & r & x & E & C & _). destruct (default_rng_shape _ _ _ _ _ E) as (U & O & _).
    assert (Q : fst (step np (ENew mk s) w) = add_obj w1 x) by (cbn [step]; rewrite <- C; destruct (construct np mk s w) as [? [?|?]]; reflexivity).
    rewrite Q. cbn [add_obj w_objs w_user]. rewrite app_length, U, O. cbn. lia.
  - destruct (step_ECall np i irq c w) as (w' & a & -> & [[-> _]|(x & st & q & o & b & N & G & _ & _ & ->)]); cbn [fst set_obj set_gen w_objs w_user]; [lia|]. rewrite put_length. lia.
  - cbn [step]. destruct (nth_error (w_user w) u) as [[g|]|]; [|cbn [fst]; lia..]. destruct (nth_error (w_gens w) g) as [[st q]|]; cbn [fst set_gen w_objs w_user]; lia.
Qed.
Lemma exec_numbers np p w : length (w_objs (fst (exec np p w))) = length (w_objs w) + objects_in p /\
  length (w_user (fst (exec np p w))) = length (w_user w) + generators_in p.
Proof.
  revert w. induction p as [|e p IH]; intros w; cbn [exec]; [cbn; lia|]. pose proof (step_numbers np e w) as S1. destruct (step np e w) as [w1 a]. cbn [fst] in S1.
  specialize (IH w1). destruct (exec np p w1). cbn [fst] in *.
  unfold objects_in, generators_in in *. destruct e; cbn [filter length] in *; lia.
Qed.

(** ** An object whose generator nobody else draws from *)
Section Private.
Variable np : numpy.
Variables (i g : nat) (K : klass) (st : stream) (P : nat -> Prop).

(** object [i] has the generator [g] to itself, up to the user's references in [P] *)
Definition own (w : world) (o : obj) (q : nat) : Prop :=
  nth_error (w_objs w) i = Some (Some (mkW K o g)) /\ nth_error (w_gens w) g = Some (st, q) /\
  (forall u, nth_error (w_user w) u = Some (Some g) -> P u) /\
  (forall j x, j <> i -> nth_error (w_objs w) j = Some (Some x) -> w_gen x <> g).

Definition spares (e : event) : Prop :=
  match e with EGen (SGen v) | ENew _ (SGen v) | EUser v _ => ~ P v | _ => True end.

Lemma own_step e w o q : own w o q -> spares e -> (forall irq c, e <> ECall i irq c) -> own (fst (step np e w)) o q.
Proof.
  intros (NO & NG & PU & PO) SP NE. destruct e as [s|mk s|j irq c|u n].
  - cbn [step]. destruct (default_rng np s w) as [w1 r] eqn:E. destruct (default_rng_shape _ _ _ _ _ E) as (U & O & H).
    assert (GL : nth_error (w_gens w1) g = Some (st, q)).
    { destruct H as [[-> _]|[[-> _]|(st' & G & _)]]; [exact NG|exact NG|]. rewrite G, nth_error_app1 by (apply nth_error_Some; congruence). exact NG. }
    assert (GR : forall h, r = inr h -> h = g -> exists v, s = SGen v /\ P v).
    { intros h -> ->. destruct H as [[-> [e [=]]]|[[-> (v & g' & -> & N & [= <-])]|(st' & G & [= Q] & _)]].
      - exists v. split; [reflexivity|]. apply PU. exact N.
      - exfalso. assert (g < length (w_gens w)) by (apply nth_error_Some; congruence). lia. }
    destruct r as [e|h]; unfold own; cbn [fst w_objs w_gens w_user]; rewrite O.
    + split; [exact NO|]. split; [exact GL|]. split; [|exact PO]. intros u N. apply nth_error_snoc in N as [N|[_ [=]]]. rewrite U in N. apply PU, N.
    + split; [exact NO|]. split; [exact GL|]. split; [|exact PO]. intros u N. apply nth_error_snoc in N as [N|[_ [= N]]].
      * rewrite U in N. apply PU, N.
      * exfalso. symmetry in N. destruct (GR h eq_refl N) as (v & -> & Pv). exact (SP Pv).
  - destruct (construct_cases np mk s w) as (w1 & r & x & E & C & PX). destruct (default_rng_shape _ _ _ _ _ E) as (U & O & H).
    assert (Q : fst (step np (ENew mk s) w) = add_obj w1 x) by (cbn [step]; rewrite <- C; destruct (construct np mk s w) as [? [?|?]]; reflexivity).
    rewrite Q. unfold own; cbn [add_obj w_objs w_gens w_user].
    assert (GL : nth_error (w_gens w1) g = Some (st, q)).
    { destruct H as [[-> _]|[[-> _]|(st' & G & _)]]; [exact NG|exact NG|]. rewrite G, nth_error_app1 by (apply nth_error_Some; congruence). exact NG. }
    rewrite O. split; [rewrite nth_error_app1 by (apply nth_error_Some; congruence); exact NO|]. split; [exact GL|].
    split; [intros u N; rewrite U in N; apply PU, N|]. intros j y D N. apply nth_error_snoc in N as [N|[_ N]]; [apply (PO j y D N)|].
    intros GY. destruct (PX y (eq_sym N)) as [-> _].
    destruct H as [[-> [e [=]]]|[[-> (v & g' & -> & M & [= <-])]|(st' & G & [= R] & _)]].
    + apply SP, PU. rewrite <- GY. exact M.
    + assert (g < length (w_gens w)) by (apply nth_error_Some; congruence). lia.
  - assert (D : i <> j) by (intros ->; apply (NE irq c); reflexivity).
    destruct (step_ECall np j irq c w) as (w' & a & -> & [[-> _]|(x & st' & q' & o' & b & N & G & _ & _ & ->)]); cbn [fst]; [repeat split; assumption|].
    assert (GX : w_gen x <> g) by (apply (PO j x); [congruence|exact N]).
    unfold own; cbn [set_obj set_gen w_objs w_gens w_user]. rewrite !put_other by congruence.
    split; [exact NO|]. split; [exact NG|]. split; [exact PU|]. intros k y Dk M. destruct (Nat.eq_dec j k) as [<-|Dj].
    + rewrite (put_same _ _ _ _ N) in M. injection M as <-. exact GX.
    + rewrite put_other in M by exact Dj. apply (PO k y Dk M).
  - cbn [step]. destruct (nth_error (w_user w) u) as [[h|]|] eqn:E; [|cbn [fst]; repeat split; assumption..].
    destruct (nth_error (w_gens w) h) as [[st' q']|] eqn:F; cbn [fst]; [|repeat split; assumption].
    assert (D : h <> g). { intros ->. apply SP, PU, E. }
    unfold own, set_gen; cbn [w_objs w_gens w_user]. rewrite put_other by exact D. repeat split; assumption.
Qed.

Lemma own_call irq c w o q o' a : own w o q -> run_op irq K (s_perm st) (s_boot st) c (set_rng o q) = (o', a) ->
  snd (step np (ECall i irq c) w) = Some a /\ own (fst (step np (ECall i irq c) w)) o' (o_rng o').
Proof.
  intros (NO & NG & PU & PO) RO. cbn [step]. unfold call. rewrite NO. cbn [w_gen w_cls w_obj]. rewrite NG, RO. cbn [fst snd].
  split; [reflexivity|]. unfold own; cbn [set_obj set_gen w_objs w_gens w_user].
  split; [apply (put_same _ _ _ _ NO)|]. split; [apply (put_same _ _ _ _ NG)|]. split; [exact PU|].
  intros j x D N. rewrite put_other in N by congruence. apply (PO j x D N).
Qed.

Lemma set_rng_id o : set_rng o (o_rng o) = o.
Proof. destruct o; reflexivity. Qed.

Lemma exec_own p : forall w o q, own w o q -> List.Forall spares p ->
  answers_of i p (snd (exec np p w)) = alone K st (calls_of i p) (set_rng o q).
Proof.
  induction p as [|e p IH]; intros w o q OW SP; [reflexivity|]. pose proof (Forall_inv SP) as S1. apply Forall_inv_tail in SP. cbn [exec].
  assert (C : (exists irq c, e = ECall i irq c) \/ forall irq c, e <> ECall i irq c).
  { destruct e as [| |j irq c|]; try (right; discriminate). destruct (Nat.eq_dec j i) as [->|D]; [left; eauto|right; congruence]. }
  destruct C as [(irq & c & ->)|NE].
  - destruct (run_op irq K (s_perm st) (s_boot st) c (set_rng o q)) as [o' a] eqn:RO. destruct (own_call irq c w o q o' a OW RO) as [A O'].
    destruct (step np (ECall i irq c) w) as [w1 b]. cbn [fst snd] in A, O'. subst b. specialize (IH w1 o' (o_rng o') O' SP). destruct (exec np p w1) as [w2 r].
    cbn [snd answers_of calls_of] in *. rewrite Nat.eqb_refl. cbn [alone]. rewrite RO, IH, set_rng_id. reflexivity.
  - pose proof (own_step e w o q OW S1 NE) as O'. destruct (step np e w) as [w1 b]. cbn [fst] in O'. specialize (IH w1 o q O' SP). destruct (exec np p w1) as [w2 r].
    cbn [snd answers_of calls_of] in *. destruct e as [| |j irq c|]; try exact IH.
    destruct (Nat.eqb_spec j i) as [->|D]; [exfalso; apply (NE irq c); reflexivity|exact IH].
Qed.
End Private.

(** a new object with a generator of its own *)
Lemma new_private np pre mk s K d st n post : let w := fst (exec np pre start) in
  default_rng np s w = (mkWorld (w_gens w ++ [(st, 0)]) n (w_user w) (w_objs w), inr (length (w_gens w))) ->
  mk st = Ok (K, d) ->
  answers np pre (ENew mk s) post = alone K st (calls_of (objects_in pre) post) (fresh d 0).
Proof.
  intros w DR MK. rewrite answers_exec. fold w.
  assert (W : wf w) by (apply exec_wf, wf_start). destruct W as [WU WO].
  assert (LO : length (w_objs w) = objects_in pre) by (apply (proj1 (exec_numbers np pre start))).
  cbn [step]. unfold construct. rewrite DR. cbn [w_gens]. rewrite nth_error_app2, Nat.sub_diag by lia. cbn [nth_error]. rewrite MK. cbn [fst].
  change (fresh d 0) with (set_rng (fresh d 0) 0).
  apply (exec_own np (objects_in pre) (length (w_gens w)) K st (fun _ => False)).
  - unfold own; cbn [add_obj w_objs w_gens w_user]. rewrite <- LO. repeat split.
    + rewrite nth_error_app2, Nat.sub_diag by lia. reflexivity.
    + rewrite nth_error_app2, Nat.sub_diag by lia. reflexivity.
    + intros u N. specialize (WU _ _ N). lia.
    + intros j x D N. apply nth_error_snoc in N as [N|[N _]]; [|congruence]. specialize (WO _ _ N). lia.
  - apply Forall_forall. intros e _. destruct e as [[| |]|? [| |]| |]; cbn; auto.
Qed.

(** ** Generators of the user *)
(** the [u]-th generator of the user is a new one, only reachable by that reference, and nothing has been drawn from it *)
Definition kept (u : nat) (st : stream) (w : world) : Prop :=
  exists g, nth_error (w_user w) u = Some (Some g) /\ nth_error (w_gens w) g = Some (st, 0) /\
    (forall v, nth_error (w_user w) v = Some (Some g) -> v = u) /\
    (forall j x, nth_error (w_objs w) j = Some (Some x) -> w_gen x <> g).

Lemma kept_step np u st e w : kept u st w -> not_using u [e] -> kept u st (fst (step np e w)).
Proof.
  intros (g & NU & NG & PU & PO) NS. apply Forall_inv in NS. destruct e as [s|mk s|j irq c|v n].
  - cbn [step]. destruct (default_rng np s w) as [w1 r] eqn:E. destruct (default_rng_shape _ _ _ _ _ E) as (U & O & H).
    exists g. assert (GL : nth_error (w_gens w1) g = Some (st, 0)).
    { destruct H as [[-> _]|[[-> _]|(st' & G & _)]]; [exact NG|exact NG|]. rewrite G, nth_error_app1 by (apply nth_error_Some; congruence). exact NG. }
    assert (GR : r <> inr g).
    { intros ->. destruct H as [[-> [e [=]]]|[[-> (v & g' & -> & N & [= <-])]|(st' & G & [= Q] & _)]].
      - apply NS, PU, N.
      - assert (g < length (w_gens w)) by (apply nth_error_Some; congruence). lia. }
    destruct r as [e|h]; cbn [fst w_objs w_gens w_user]; rewrite O, U.
    + split; [rewrite nth_error_app1 by (apply nth_error_Some; congruence); exact NU|]. split; [exact GL|]. split; [|exact PO].
      intros v N. apply nth_error_snoc in N as [N|[_ [=]]]. apply PU, N.
    + split; [rewrite nth_error_app1 by (apply nth_error_Some; congruence); exact NU|]. split; [exact GL|]. split; [|exact PO].
      intros v N. apply nth_error_snoc in N as [N|[_ [= N]]]; [apply PU, N|congruence].
  - destruct (construct_cases np mk s w) as (w1 & r & x & E & C & PX). destruct (default_rng_shape _ _ _ _ _ E) as (U & O & H).
    assert (Q : fst (step np (ENew mk s) w) = add_obj w1 x) by (cbn [step]; rewrite <- C; destruct (construct np mk s w) as [? [?|?]]; reflexivity).
    rewrite Q. exists g. cbn [add_obj w_objs w_gens w_user]. rewrite U, O. split; [exact NU|].
    split. { destruct H as [[-> _]|[[-> _]|(st' & G & _)]]; [exact NG|exact NG|]. rewrite G, nth_error_app1 by (apply nth_error_Some; congruence). exact NG. }
    split; [exact PU|]. intros j y N. apply nth_error_snoc in N as [N|[_ N]]; [apply (PO j y N)|].
    intros GY. destruct (PX y (eq_sym N)) as [-> _].
    destruct H as [[-> [e [=]]]|[[-> (v & g' & -> & M & [= <-])]|(st' & G & [= R] & _)]].
    + apply NS, PU. rewrite <- GY. exact M.
    + assert (g < length (w_gens w)) by (apply nth_error_Some; congruence). lia.
  - destruct (step_ECall np j irq c w) as (w' & a & -> & [[-> _]|(x & st' & q' & o' & b & N & G & _ & _ & ->)]); cbn [fst]; [exists g; auto|].
    exists g. cbn [set_obj set_gen w_objs w_gens w_user]. rewrite (put_other (w_gens w)) by (apply (PO j x N)).
    split; [exact NU|]. split; [exact NG|]. split; [exact PU|]. intros k y M. destruct (Nat.eq_dec j k) as [<-|Dj].
    + rewrite (put_same _ _ _ _ N) in M. injection M as <-. apply (PO j x N).
    + rewrite put_other in M by exact Dj. apply (PO k y M).
  - cbn [step]. destruct (nth_error (w_user w) v) as [[h|]|] eqn:E; [|exists g; auto..].
    destruct (nth_error (w_gens w) h) as [[st' q']|] eqn:F; [|exists g; auto].
    assert (D : h <> g). { intros ->. apply NS, PU, E. }
    exists g. cbn [fst set_gen w_objs w_gens w_user]. rewrite put_other by exact D. auto.
Qed.

Lemma kept_exec np u st p : forall w, kept u st w -> not_using u p -> kept u st (fst (exec np p w)).
Proof.
  induction p as [|e p IH]; intros w KW NS; cbn [exec]; [exact KW|].
  pose proof (kept_step np u st e w KW (Forall_cons _ (Forall_inv NS) (Forall_nil _))) as K1. destruct (step np e w) as [w1 a]. cbn [fst] in K1.
  specialize (IH w1 K1 (Forall_inv_tail NS)). destruct (exec np p w1). exact IH.
Qed.

Lemma new_with_generator np p1 z p2 mk K d post : let u := generators_in p1 in let pre := p1 ++ EGen (SInt z) :: p2 in
  (0 <= z)%Z -> not_using u p2 -> not_using u post -> mk (seeded np z) = Ok (K, d) ->
  answers np pre (ENew mk (SGen u)) post = alone K (seeded np z) (calls_of (objects_in pre) post) (fresh d 0).
Proof.
  intros u pre Z0 N2 NP MK. rewrite answers_exec.
  assert (KW : kept u (seeded np z) (fst (exec np pre start))).
  { unfold pre. rewrite exec_app. assert (W : wf (fst (exec np p1 start))) by (apply exec_wf, wf_start).
    assert (LU : length (w_user (fst (exec np p1 start))) = u) by (apply (proj2 (exec_numbers np p1 start))).
    destruct (exec np p1 start) as [w1 a1]. cbn [fst] in W, LU. destruct W as [WU WO].
    cbn [exec]. destruct (step np (EGen (SInt z)) w1) as [w2 a2] eqn:SE.
    assert (K2 : kept u (seeded np z) w2).
    { cbn [step default_rng] in SE. replace (z <? 0)%Z with false in SE by (symmetry; apply Z.ltb_ge; lia). injection SE as <- <-.
      exists (length (w_gens w1)). cbn [w_user w_gens w_objs]. rewrite !nth_error_app2, LU, !Nat.sub_diag by lia. cbn [nth_error]. split; [reflexivity|]. split; [reflexivity|].
      split. { intros v N. apply nth_error_snoc in N as [N|[N _]]; [specialize (WU _ _ N); lia|congruence]. }
      intros j x N. specialize (WO _ _ N). lia. }
    pose proof (kept_exec np u (seeded np z) p2 w2 K2 N2) as K3. destruct (exec np p2 w2). exact K3. }
  assert (W : wf (fst (exec np pre start))) by (apply exec_wf, wf_start).
  assert (LO : length (w_objs (fst (exec np pre start))) = objects_in pre) by (apply (proj1 (exec_numbers np pre start))).
  destruct (exec np pre start) as [w a]. cbn [fst] in KW, LO, W |- *. clear W. destruct KW as (g & NU & NG & PU & PO).
  cbn [step]. unfold construct. cbn [default_rng]. rewrite NU, NG, MK. cbn [fst].
  change (fresh d 0) with (set_rng (fresh d 0) 0).
  apply (exec_own np (objects_in pre) g K (seeded np z) (fun v => v = u)).
  - unfold own; cbn [add_obj w_objs w_gens w_user]. rewrite <- LO. split; [rewrite nth_error_app2, Nat.sub_diag by lia; reflexivity|]. split; [exact NG|]. split; [exact PU|].
    intros j x D N. apply nth_error_snoc in N as [N|[N _]]; [|congruence]. apply (PO _ _ N).
  - unfold not_using in NP. apply Forall_forall. intros e IN. pose proof (proj1 (Forall_forall _ _) NP e IN) as Q. destruct e as [[| |]|? [| |]| |]; cbn in *; auto.
Qed.
