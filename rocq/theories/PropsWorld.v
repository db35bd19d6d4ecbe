(** Property theorems C112: results are reproducible from the seed, whatever else the program does. *)
From Coq Require Import Reals Lra Lia List ZArith Arith Bool Permutation.
From Verif Require Import Res RSum Spec SpecBase SpecTE SpecObj SpecWorld SpecObjC Info Info2 Ord MBase MData MEntropy MMI MTE MGeneric MObj MCont MKern MKnn MFam MObjC MWorld
  PMI4 PObj PObj2 PObj3 PMI5 PropsMI PropsTE PTE2 PropsObj PropsObjC PropsObjF PWorld.
Import ListNotations.

(** ** One object, one seed *)
(** An object made with an integer seed answers as if it were alone in the world, with the generator of that seed. *)
Theorem C112_alone : forall np pre mk z K d post, (0 <= z)%Z -> mk (seeded np z) = Ok (K, d) ->
  answers np pre (ENew mk (SInt z)) post = alone K (seeded np z) (calls_of (objects_in pre) post) (fresh d 0).
Proof.
  intros np pre mk z K d post Z0 MK. apply (new_private np pre mk (SInt z) K d (seeded np z) (w_os (fst (exec np pre start))) post); [|exact MK].
  cbn [default_rng]. replace (z <? 0)%Z with false by (symmetry; apply Z.ltb_ge; lia). reflexivity.
Qed.
Print Assumptions C112_alone.

(** Two programs, whatever else they do and whatever entropy the operating system provides: the same constructor call
    with the same integer seed and the same calls on the object get the same answers. *)
Theorem C112_reproducible : forall np np' pre pre' mk z post post',
  (0 <= z)%Z -> seeded np z = seeded np' z -> (exists K d, mk (seeded np z) = Ok (K, d)) ->
  calls_of (objects_in pre) post = calls_of (objects_in pre') post' ->
  answers np pre (ENew mk (SInt z)) post = answers np' pre' (ENew mk (SInt z)) post'.
Proof.
  intros np np' pre pre' mk z post post' Z0 S (K & d & MK) C.
  rewrite (C112_alone np pre mk z K d post Z0 MK), (C112_alone np' pre' mk z K d post' Z0 ltac:(congruence)). congruence.
Qed.
Print Assumptions C112_reproducible.

(** A new generator made from the integer gives what the integer gives, as long as nothing else uses it. *)
Theorem C112_generator_as_seed : forall np p1 p2 mk z K d post, (0 <= z)%Z -> mk (seeded np z) = Ok (K, d) ->
  let u := generators_in p1 in let pre := p1 ++ EGen (SInt z) :: p2 in
  not_using u p2 -> not_using u post ->
  answers np pre (ENew mk (SGen u)) post = answers np pre (ENew mk (SInt z)) post.
Proof.
  intros np p1 p2 mk z K d post Z0 MK u pre N2 NP. rewrite (C112_alone np pre mk z K d post Z0 MK). apply new_with_generator; assumption.
Qed.
Print Assumptions C112_generator_as_seed.

(** Without a seed the object also has a generator of its own: the next one the operating system seeds. *)
Theorem C112_without_seed : forall np pre mk, exists n, forall K d post, mk (from_os np n) = Ok (K, d) ->
  answers np pre (ENew mk SNone) post = alone K (from_os np n) (calls_of (objects_in pre) post) (fresh d 0).
Proof.
  intros np pre mk. exists (w_os (fst (exec np pre start))). intros K d post MK.
  apply (new_private np pre mk SNone K d _ (S (w_os (fst (exec np pre start)))) post); [|exact MK]. reflexivity.
Qed.
Print Assumptions C112_without_seed.

(** A negative seed is refused, and nothing is left that could be called. *)
Theorem C112_negative_seed : forall np pre mk z post, (z < 0)%Z ->
  snd (step np (ENew mk (SInt z)) (fst (exec np pre start))) = Some (inl ValueError) /\
  (forall a, In a (answers np pre (ENew mk (SInt z)) post) -> a = None).
Proof.
  intros np pre mk z post Z0. rewrite answers_exec. set (w := fst (exec np pre start)).
  assert (LO : length (w_objs w) = objects_in pre) by (apply (proj1 (exec_numbers np pre start))).
  assert (Q : step np (ENew mk (SInt z)) w = (add_obj w None, Some (inl ValueError))).
  { cbn [step]. unfold construct. cbn [default_rng]. rewrite (proj2 (Z.ltb_lt z 0) Z0). reflexivity. }
  rewrite Q. cbn [fst snd]. split; [reflexivity|].
  assert (N : nth_error (w_objs (add_obj w None)) (objects_in pre) = Some None).
  { cbn [add_obj w_objs]. rewrite nth_error_app2, LO, Nat.sub_diag by lia. reflexivity. }
  revert N. generalize (add_obj w None). clear. induction post as [|e p IH]; intros w N a; cbn [exec]; [intros []|].
  assert (N' : nth_error (w_objs (fst (step np e w))) (objects_in pre) = Some None).
  { destruct e as [s|mk s|j irq c|u n].
    - cbn [step]. destruct (default_rng np s w) as [w1 r] eqn:E. destruct (default_rng_shape _ _ _ _ _ E) as (_ & O & _). destruct r; cbn [fst w_objs]; rewrite O; exact N.
    - destruct (construct_cases np mk s w) as (w1 & r & x & E & C & _). destruct (default_rng_shape _ _ _ _ _ E) as (_ & O & _).
      assert (Q : fst (step np (ENew mk s) w) = add_obj w1 x) by (cbn [step]; rewrite <- C; destruct (construct np mk s w) as [? [?|?]]; reflexivity).
      rewrite Q. cbn [add_obj w_objs]. rewrite O, nth_error_app1 by (apply nth_error_Some; congruence). exact N.
    - destruct (step_ECall np j irq c w) as (w' & b & -> & [[-> _]|(x & st & q & o & y & M & G & _ & _ & ->)]); cbn [fst]; [exact N|].
      cbn [set_obj set_gen w_objs]. rewrite put_other by congruence. exact N.
    - cbn [step]. destruct (nth_error (w_user w) u) as [[g|]|]; [|exact N..]. destruct (nth_error (w_gens w) g) as [[st q]|]; exact N. }
  assert (A : forall irq c, e = ECall (objects_in pre) irq c -> snd (step np e w) = None) by (intros irq c ->; cbn [step]; unfold call; rewrite N; reflexivity).
  destruct (step np e w) as [w1 b]. cbn [fst snd] in *. specialize (IH w1 N' a). destruct (exec np p w1) as [w2 r]. cbn [snd answers_of] in *.
  destruct e as [| |j irq c|]; try exact IH. destruct (Nat.eqb_spec j (objects_in pre)) as [->|_]; [|exact IH].
  intros [<-|H]; [apply (A irq c eq_refl)|apply IH, H].
Qed.
Print Assumptions C112_negative_seed.

(** ** Values that no seed changes *)
(** every value reported by an uninterrupted object is [v], all local values are [ls] *)
Definition steady (v : fl) (ls : option (list fl)) (as_ : list (option (out answer))) : Prop :=
  forall a, In (Some a) as_ -> (forall g, glob_of a = Some g -> g = v) /\ (forall l, loc_of a = Some l -> Some l = ls).

Section Steady.
Variables (np : numpy) (i : nat) (v : fl) (L : option (list fl)).

Definition quiet (w : world) : Prop := exists K o g st q d,
  nth_error (w_objs w) i = Some (Some (mkW K o g)) /\ nth_error (w_gens w) g = Some (st, q) /\
  calm K (s_perm st) (s_boot st) d /\ pure K d /\ G0 K d = Some v /\ L0 K d = L /\ inv o /\ clean K d o /\ numeric_cache K d o.

Lemma gens_keep e w g st q : nth_error (w_gens w) g = Some (st, q) -> exists q', nth_error (w_gens (fst (step np e w))) g = Some (st, q').
Proof.
  intros N. destruct e as [s|mk s|j irq c|u n].
  - exists q. cbn [step]. destruct (default_rng np s w) as [w1 r] eqn:E. destruct (default_rng_shape _ _ _ _ _ E) as (_ & _ & H).
    replace (w_gens (fst (match r with inl e => _ | inr g => _ end))) with (w_gens w1) by (destruct r; reflexivity).
    destruct H as [[-> _]|[[-> _]|(st' & G & _)]]; [exact N|exact N|]. rewrite G, nth_error_app1 by (apply nth_error_Some; congruence). exact N.
  - exists q. destruct (construct_cases np mk s w) as (w1 & r & x & E & C & _). destruct (default_rng_shape _ _ _ _ _ E) as (_ & _ & H).
    assert (Q : fst (step np (ENew mk s) w) = add_obj w1 x) by (cbn [step]; rewrite <- C; destruct (construct np mk s w) as [? [?|?]]; reflexivity).
    rewrite Q. cbn [add_obj w_gens]. destruct H as [[-> _]|[[-> _]|(st' & G & _)]]; [exact N|exact N|]. rewrite G, nth_error_app1 by (apply nth_error_Some; congruence). exact N.
  - destruct (step_ECall np j irq c w) as (w' & b & -> & [[-> _]|(x & st' & q' & o & y & M & G & _ & _ & ->)]); cbn [fst]; [eauto|].
    cbn [set_obj set_gen w_gens]. destruct (Nat.eq_dec (w_gen x) g) as [D|D].
    + rewrite D in *. rewrite (put_same _ _ _ _ G). rewrite N in G. injection G as <- <-. eauto.
    + rewrite put_other by exact D. eauto.
  - cbn [step]. destruct (nth_error (w_user w) u) as [[h|]|]; [|eauto..]. destruct (nth_error (w_gens w) h) as [[st' q']|] eqn:F; cbn [fst]; [|eauto].
    cbn [set_gen w_gens]. destruct (Nat.eq_dec h g) as [->|D].
    + rewrite (put_same _ _ _ _ F). rewrite N in F. injection F as <- <-. eauto.
    + rewrite put_other by exact D. eauto.
Qed.
Lemma objs_keep e w x : nth_error (w_objs w) i = Some (Some x) -> (forall irq c, e <> ECall i irq c) -> nth_error (w_objs (fst (step np e w))) i = Some (Some x).
Proof.
  intros N NE. destruct e as [s|mk s|j irq c|u n].
  - cbn [step]. destruct (default_rng np s w) as [w1 r] eqn:E. destruct (default_rng_shape _ _ _ _ _ E) as (_ & O & _). destruct r; cbn [fst w_objs]; rewrite O; exact N.
  - destruct (construct_cases np mk s w) as (w1 & r & y & E & C & _). destruct (default_rng_shape _ _ _ _ _ E) as (_ & O & _).
    assert (Q : fst (step np (ENew mk s) w) = add_obj w1 y) by (cbn [step]; rewrite <- C; destruct (construct np mk s w) as [? [?|?]]; reflexivity).
    rewrite Q. cbn [add_obj w_objs]. rewrite O, nth_error_app1 by (apply nth_error_Some; congruence). exact N.
  - destruct (step_ECall np j irq c w) as (w' & b & -> & [[-> _]|(y & st & q & o & z & M & G & _ & _ & ->)]); cbn [fst]; [exact N|].
    cbn [set_obj set_gen w_objs]. rewrite put_other by (intros ->; apply (NE irq c); reflexivity). exact N.
  - cbn [step]. destruct (nth_error (w_user w) u) as [[g|]|]; [|exact N..]. destruct (nth_error (w_gens w) g) as [[st q]|]; exact N.
Qed.

Lemma exec_quiet p : forall w, quiet w -> (forall irq c, In (irq, c) (calls_of i p) -> irq = never) ->
  steady v L (answers_of i p (snd (exec np p w))).
Proof.
  induction p as [|e p IH]; intros w QW NV; [intros a []|]. cbn [exec].
  assert (C : (exists irq c, e = ECall i irq c) \/ forall irq c, e <> ECall i irq c).
  { destruct e as [| |j irq c|]; try (right; discriminate). destruct (Nat.eq_dec j i) as [->|D]; [left; eauto|right; congruence]. }
  destruct QW as (K & o & g & st & q & d & NO & NG & CA & PU & GV & LV & IV & CL & NC). destruct C as [(irq & c & ->)|NE].
  - cbn [calls_of] in NV. rewrite Nat.eqb_refl in NV. assert (irq = never) as -> by (apply (NV irq c); left; reflexivity).
    pose proof (op_clean K (s_perm st) (s_boot st) d c (set_rng o q) PU CA CL NC) as [C1 N1].
    pose proof (op_inv K (s_perm st) (s_boot st) c (set_rng o q) IV) as I1. pose proof (op_reports K (s_perm st) (s_boot st) c (set_rng o q) IV) as R1.
    destruct (run_op never K (s_perm st) (s_boot st) c (set_rng o q)) as [o' a] eqn:RO. cbn [fst snd] in C1, N1, I1, R1.
    assert (ST : step np (ECall i never c) w = (set_obj (set_gen w g (st, o_rng o')) i (mkW K o' g), Some a)).
    { cbn [step]. unfold call. rewrite NO. cbn [w_gen w_cls w_obj]. rewrite NG, RO. reflexivity. }
    rewrite ST. set (w1 := set_obj _ _ _).
    assert (Q1 : quiet w1).
    { exists K, o', g, st, (o_rng o'), d. unfold w1; cbn [set_obj set_gen w_objs w_gens].
      split; [apply (put_same _ _ _ _ NO)|]. split; [apply (put_same _ _ _ _ NG)|]. auto 8. }
    assert (IH1 := IH w1 Q1 (fun irq c H => NV irq c (or_intror H))). destruct (exec np p w1) as [w2 r]. cbn [snd answers_of] in *. rewrite Nat.eqb_refl.
    intros b [[= <-]|H]; [|apply IH1, H]. destruct C1 as (_ & _ & CG & CLo). split.
    + intros x E. destruct a as [e|a]; [discriminate E|]. assert (G0 K d = Some x) by (apply CG, (proj1 (R1 a eq_refl)); exact E). congruence.
    + intros l E. destruct a as [e|a]; [discriminate E|]. assert (L0 K d = Some l) by (apply CLo, (proj2 (R1 a eq_refl)); exact E). congruence.
  - destruct (gens_keep e w g st q NG) as (q' & NG'). pose proof (objs_keep e w _ NO NE) as NO'.
    assert (NV' : forall irq c, In (irq, c) (calls_of i p) -> irq = never).
    { intros irq c H. apply (NV irq c). destruct e as [| |j irq' c'|]; cbn [calls_of]; try exact H. destruct (Nat.eqb j i); [right|]; exact H. }
    destruct (step np e w) as [w1 b]. cbn [fst] in *.
    assert (IH1 := IH w1 ltac:(exists K, o, g, st, q', d; auto 10) NV'). destruct (exec np p w1) as [w2 r]. cbn [snd answers_of] in *.
    destruct e as [| |j irq c|]; try exact IH1. destruct (Nat.eqb_spec j i) as [->|D]; [exfalso; apply (NE irq c); reflexivity|exact IH1].
Qed.
End Steady.

(** all draws numpy makes are row orders and row numbers *)
Definition numpy_legal (np : numpy) : Prop :=
  (forall z, legal (s_perm (seeded np z)) (s_boot (seeded np z))) /\ (forall n, legal (s_perm (from_os np n)) (s_boot (from_os np n))).

Lemma streams_legal np p : numpy_legal np -> forall w, (forall g st q, nth_error (w_gens w) g = Some (st, q) -> legal (s_perm st) (s_boot st)) ->
  forall g st q, nth_error (w_gens (fst (exec np p w))) g = Some (st, q) -> legal (s_perm st) (s_boot st).
Proof.
  intros [LS LO]. assert (DR : forall s w, (forall g st q, nth_error (w_gens w) g = Some (st, q) -> legal (s_perm st) (s_boot st)) ->
    forall g st q, nth_error (w_gens (fst (default_rng np s w))) g = Some (st, q) -> legal (s_perm st) (s_boot st)).
  { intros [|z|u] w W g st q; cbn [default_rng].
    - cbn [fst w_gens]. intros N. apply nth_error_snoc in N as [N|[_ [= -> ->]]]; [apply (W _ _ _ N)|apply LO].
    - destruct (z <? 0)%Z; cbn [fst w_gens]; [apply W|]. intros N. apply nth_error_snoc in N as [N|[_ [= -> ->]]]; [apply (W _ _ _ N)|apply LS].
    - destruct (nth_error (w_user w) u) as [[h|]|]; apply W. }
  induction p as [|e p IH]; intros w W g st q; cbn [exec]; [apply W|].
  assert (W1 : forall g st q, nth_error (w_gens (fst (step np e w))) g = Some (st, q) -> legal (s_perm st) (s_boot st)).
  { destruct e as [s|mk s|j irq c|u n].
    - specialize (DR s w W). cbn [step]. destruct (default_rng np s w) as [w1 [r|r]]; exact DR.
    - specialize (DR s w W). destruct (construct_cases np mk s w) as (w1 & r & x & E & C & _).
      assert (Q : fst (step np (ENew mk s) w) = add_obj w1 x) by (cbn [step]; rewrite <- C; destruct (construct np mk s w) as [? [?|?]]; reflexivity).
      rewrite Q. rewrite E in DR. exact DR.
    - destruct (step_ECall np j irq c w) as (w' & b & -> & [[-> _]|(x & st' & q' & o & y & M & G & _ & _ & ->)]); cbn [fst]; [exact W|].
      cbn [set_obj set_gen w_gens]. intros h st2 q2 N. destruct (Nat.eq_dec (w_gen x) h) as [<-|D].
      + rewrite (put_same _ _ _ _ G) in N. injection N as <- <-. apply (W _ _ _ G).
      + rewrite put_other in N by exact D. apply (W _ _ _ N).
    - cbn [step]. destruct (nth_error (w_user w) u) as [[h|]|]; [|exact W..]. destruct (nth_error (w_gens w) h) as [[st' q']|] eqn:F; cbn [fst]; [|exact W].
      cbn [set_gen w_gens]. intros h' st2 q2 N. destruct (Nat.eq_dec h h') as [<-|D].
      + rewrite (put_same _ _ _ _ F) in N. injection N as <- <-. apply (W _ _ _ F).
      + rewrite put_other in N by exact D. apply (W _ _ _ N). }
  destruct (step np e w) as [w1 a]. cbn [fst] in W1. specialize (IH w1 W1 g st q). destruct (exec np p w1) as [w2 r]. exact IH.
Qed.

Lemma seed_irrelevant np pre mk s post v L (d : list arr) : numpy_legal np ->
  (forall st, legal (s_perm st) (s_boot st) -> exists K, mk st = Ok (K, d) /\ calm K (s_perm st) (s_boot st) d /\ pure K d /\ G0 K d = Some v /\ L0 K d = L) ->
  (forall irq c, In (irq, c) (calls_of (objects_in pre) post) -> irq = never) ->
  snd (step np (ENew mk s) (fst (exec np pre start))) = None ->
  steady v L (answers np pre (ENew mk s) post).
Proof.
  intros LG HM NV NW. rewrite answers_exec. set (w := fst (exec np pre start)) in *.
  assert (LO : length (w_objs w) = objects_in pre) by (apply (proj1 (exec_numbers np pre start))).
  assert (SL : forall g st q, nth_error (w_gens (fst (default_rng np s w))) g = Some (st, q) -> legal (s_perm st) (s_boot st)).
  { assert (X := streams_legal np (pre ++ [EGen s]) LG start (fun g st q N => False_ind _ ltac:(destruct g; discriminate N))).
    rewrite exec_app in X. unfold w. destruct (exec np pre start) as [w1 a1]. cbn [exec step fst] in X |- *. destruct (default_rng np s w1) as [w2 [e|g]]; exact X. }
  apply exec_quiet; [|exact NV]. cbn [step] in *. unfold construct in *. destruct (default_rng np s w) as [w1 r] eqn:DR.
  destruct (default_rng_shape _ _ _ _ _ DR) as (_ & O & _). cbn [fst] in SL.
  destruct r as [e|g]; [discriminate NW|]. destruct (nth_error (w_gens w1) g) as [[st q]|] eqn:NG; [|discriminate NW].
  destruct (HM st (SL _ _ _ NG)) as (K & MK & CA & PU & GV & LV). rewrite MK. cbn [fst].
  exists K, (fresh d 0), g, st, q, d. cbn [add_obj w_objs w_gens]. rewrite O, nth_error_app2, LO, Nat.sub_diag by lia. cbn [nth_error].
  split; [reflexivity|]. split; [exact NG|]. split; [exact CA|]. split; [exact PU|]. split; [exact GV|]. split; [exact LV|].
  split; [intros l E; discriminate E|]. split; [split; [reflexivity|split; [reflexivity|split; intros ? E; discriminate E]]|intros E; cbn in E; congruence].
Qed.

Local Open Scope R_scope.

(** Mutual information of integer series: any seed, any sharing of generators, any other activity, significance tests of this
    and other objects in between: every value reported is that of the function call. *)
Theorem C112_discrete_mi_any_seed : forall np pre s post b xs ys, numpy_legal np ->
  big_base b -> length xs = length ys -> xs <> [] -> small2 (length xs) ->
  let mk := fun _ : stream => Ok (klass_mi_discrete b, [A1 xs; A1 ys]) in
  (forall irq c, In (irq, c) (calls_of (objects_in pre) post) -> irq = never) ->
  snd (step np (ENew mk s) (fst (exec np pre start))) = None ->
  exists v ls, mi_discrete b (Some 0%Z) [A1 xs; A1 ys] = Ok v /\ mi_discrete_local b (Some 0%Z) [A1 xs; A1 ys] = Ok ls /\
    steady (Fin v) (Some (map Fin ls)) (answers np pre (ENew mk s) post).
Proof.
  intros np pre s post b xs ys LG B L NE S mk NV NW.
  destruct (C07_mi_local_mean b xs ys B L NE S) as (ls & E1 & E2 & E3). exists (mean ls), ls. split; [exact E3|]. split; [exact E1|].
  unfold mi_discrete in E3. unfold mi_discrete_local in E1. rewrite mi_init_2 in E1, E3 by exact L. cbn [bind] in E1, E3.
  apply (seed_irrelevant np pre mk s post _ _ [A1 xs; A1 ys] LG); [|exact NV|exact NW].
  intros st Lst. exists (klass_mi_discrete b). destruct (C34_discrete_mi b _ _ xs ys B L NE S Lst) as (C & P).
  split; [reflexivity|]. split; [exact C|]. split; [exact P|].
  unfold G0, L0. cbn [klass_mi_discrete klass_mi k_calc k_extract snd]. rewrite E3, E1. split; reflexivity.
Qed.
Print Assumptions C112_discrete_mi_any_seed.

Theorem C112_discrete_te_any_seed : forall np pre s post b xs ys l k sz, numpy_legal np ->
  valid_base b -> length ys = length xs -> (1 <= l)%nat -> (1 <= k)%nat -> (1 <= sz)%nat -> (Nat.max k l * sz < length xs)%nat -> small2 (length xs) ->
  let mk := fun st : stream => Ok (klass_te_discrete (s_perm st) (s_boot st) (te_rows (length xs) l k sz) b (PropsTE.I l) (PropsTE.I k) (PropsTE.I sz), [A1 xs; A1 ys]) in
  (forall irq c, In (irq, c) (calls_of (objects_in pre) post) -> irq = never) ->
  snd (step np (ENew mk s) (fst (exec np pre start))) = None ->
  exists v ls, te_discrete b (A1 xs) (A1 ys) (te_kw l k sz) = Ok v /\ te_discrete_local b (A1 xs) (A1 ys) (te_kw l k sz) = Ok ls /\
    steady (Fin v) (Some (map Fin ls)) (answers np pre (ENew mk s) post).
Proof.
  intros np pre s post b xs ys l k sz LG V L Hl Hk Hs Hd SM mk NV NW.
  destruct (C07_te_local_mean b None (A1 xs) (A1 ys) l k sz (length xs) V Logic.I eq_refl L Hl Hk Hs Hd SM) as (v & ls & E1 & E2 & E3 & E4).
  exists v, ls. split; [exact E1|]. split; [exact E2|].
  unfold te_gen in E1. unfold te_gen_local in E2. cbn [a_prop a_offset a_step a_src a_dest te_kw] in E1, E2. rewrite te_init_plain in E1, E2 by (cbn [arr_len]; congruence). cbn [bind fst snd] in E1, E2.
  apply (seed_irrelevant np pre mk s post _ _ [A1 xs; A1 ys] LG); [|exact NV|exact NW].
  intros st Lst. eexists. split; [reflexivity|]. destruct (C34_discrete_te b _ _ xs ys l k sz Lst V L Hl Hk Hs Hd SM) as (C & P).
  split; [exact C|]. split; [exact P|].
  unfold G0, L0. cbn [klass_te_discrete klass_te k_calc k_extract snd]. unfold te_eval, te_eval_local.
  destruct (te_observations (A1 xs) (A1 ys) (PropsTE.I l) (PropsTE.I k) (PropsTE.I sz) RNone) as [((sh, dh), df)|e|]; try discriminate E1.
  cbn [bind] in *. unfold rmap. rewrite E1, E2. split; reflexivity.
Qed.
Print Assumptions C112_discrete_te_any_seed.

(** ** The noise of the metric, Renyi and Tsallis estimators comes from the seed *)
Lemma first_result K st h d v : snd (k_calc K d FOff 0) = of_res v -> forall g, fl_of v = Some g ->
  hd_error (alone K st ((never, OpResult) :: h) (fresh d 0)) = Some (Some (inr (AGlob g))).
Proof.
  intros E g G. cbn [alone]. unfold run_op, mmap, mbind, result, global_val, calculate, mbind, read, run_calc, never, upd, ret.
  cbn [fresh o_glob o_data o_flag o_rng tick o_calls pred]. destruct (k_calc K d FOff 0) as [r' x]. cbn [snd] in E. subst x.
  unfold fl_of in G. destruct (of_res v) as [e|pv] eqn:Q; [discriminate G|]. injection G as <-.
  destruct pv as [x|ls|]; [reflexivity|reflexivity|exfalso; apply (of_res_not_bad v PBad Q); reflexivity].
Qed.

(** the generator of a stream as environment of the nearest-neighbour formulas *)
Definition env_of (gm : R -> R) (st : stream) : nenv := mkNenv gm (s_normal st).

(** the first [result()] of an object made with the integer seed [z], in any program: the value the formula gives with the
    noise drawn from the generator of [z] *)
Definition seeded_result (np : numpy) (mk : maker) (r : stream -> res R) : Prop :=
  forall pre z post h g, (0 <= z)%Z -> (exists K d, mk (seeded np z) = Ok (K, d)) ->
    calls_of (objects_in pre) post = (never, OpResult) :: h -> reported (r (seeded np z)) = Some g ->
    hd_error (answers np pre (ENew mk (SInt z)) post) = Some (Some (inr (AGlob g))).

Lemma seeded_result_of np mk r :
  (forall st K d, mk st = Ok (K, d) -> exists v, snd (k_calc K d FOff 0) = of_res v /\ fl_of v = reported (r st)) -> seeded_result np mk r.
Proof.
  intros H pre z post h g Z0 (K & d & MK) C G. rewrite (C112_alone np pre mk z K d post Z0 MK), C.
  destruct (H _ K d MK) as (v & E & F). apply (first_result K (seeded np z) h d v E). congruence.
Qed.

Lemma num_first vars calc : map (fun Xa => rows_at (fst Xa) (snd Xa)) (combine vars (map (fun X => row_ids (length X)) vars)) = vars /\
  snd (k_calc (klass_num_mi vars calc) (map (fun X => row_ids (length X)) vars) FOff 0) = of_res (snd (calc vars 0%nat)).
Proof.
  assert (R : map (fun Xa => rows_at (fst Xa) (snd Xa)) (combine vars (map (fun X => row_ids (length X)) vars)) = vars).
  { induction vars as [|X vars IH]; [reflexivity|]. cbn [map combine fst snd]. rewrite rows_at_ids, IH. reflexivity. }
  split; [exact R|]. cbn [klass_num_mi k_calc]. rewrite R. destruct (calc vars 0%nat). reflexivity.
Qed.

Theorem C112_ksg_values : forall np gm a offset normalize vars cond source dest t data,
  seeded_result np (fun st => ksg_mi_object (env_of gm st) a offset normalize vars) (fun st => ksg_mi (env_of gm st) a offset normalize vars) /\
  seeded_result np (fun st => ksg_cmi_object (env_of gm st) a offset normalize vars cond) (fun st => ksg_cmi (env_of gm st) a offset normalize vars cond) /\
  seeded_result np (fun st => Ok (ksg_te_klass (s_perm st) (s_boot st) (env_of gm st) a source dest t, data)) (fun st => ksg_te (env_of gm st) a source dest t RNone) /\
  seeded_result np (fun st => Ok (ksg_cte_klass (env_of gm st) a source dest cond t, data)) (fun st => ksg_cte (env_of gm st) a source dest cond t).
Proof.
  intros np gm a offset normalize vars cond source dest t data. split; [|split; [|split]]; apply seeded_result_of; intros st K d MK.
  - unfold ksg_mi_object in MK. destruct (fmi_init offset normalize vars) as [ws|e|] eqn:EI; try discriminate MK. cbn [bind] in MK.
    destruct (id_ok a) eqn:ID; [|discriminate MK]. cbn [negb] in MK. unfold num_object in MK. injection MK as <- <-.
    eexists. split; [apply (proj2 (num_first _ _))|]. cbn [snd]. unfold ksg_mi, ksg_mi_local. rewrite EI, ID. cbn [bind negb env_of after draw gam].
    change (fun i => s_normal st (0 + i)) with (s_normal st). destruct (with_noise _ _ _); [|reflexivity|reflexivity]. cbn [bind].
    destruct (int_k a); [|reflexivity|reflexivity]. cbn [bind]. apply fl_of_VArr.
  - unfold ksg_cmi_object in MK. destruct (match offset with None | Some 0%Z => Ok tt | _ => Raise ValueError end) as [u|e|] eqn:EO; try discriminate MK. cbn [bind] in MK.
    destruct (fcmi_init normalize vars cond) as [[ws Z]|e|] eqn:EI; try discriminate MK. cbn [bind fst snd] in MK.
    destruct (id_ok a) eqn:ID; [|discriminate MK]. cbn [negb] in MK. unfold num_object in MK. injection MK as <- <-.
    eexists. split; [apply (proj2 (num_first _ _))|]. cbn [snd fst]. unfold ksg_cmi, ksg_cmi_local. rewrite EO, EI, ID. cbn [bind negb env_of after draw gam fst snd].
    change (fun i => s_normal st (0 + i)) with (s_normal st). destruct (cmi_with_noise _ _ _ _); [|reflexivity|reflexivity]. cbn [bind].
    destruct (int_k a); [|reflexivity|reflexivity]. cbn [bind]. apply fl_of_VArr.
  - injection MK as <- <-. eexists. split; [reflexivity|]. rewrite fl_of_VArr. reflexivity.
  - injection MK as <- <-. eexists. split; [reflexivity|]. rewrite fl_of_VArr. reflexivity.
Qed.
Print Assumptions C112_ksg_values.

Theorem C112_renyi_tsallis_values : forall np gm f a noise offset normalize vars cond source dest t data,
  seeded_result np (fun st => fam_mi_object f (env_of gm st) a noise offset normalize vars) (fun st => fam_mi f (env_of gm st) a noise offset normalize vars) /\
  seeded_result np (fun st => fam_cmi_object f (env_of gm st) a noise offset normalize vars cond) (fun st => fam_cmi f (env_of gm st) a noise offset normalize vars cond) /\
  seeded_result np (fun st => Ok (fam_te_klass (s_perm st) (s_boot st) f (env_of gm st) a noise source dest t, data)) (fun st => fam_te f (env_of gm st) a noise source dest t RNone) /\
  seeded_result np (fun st => Ok (fam_cte_klass f (env_of gm st) a noise source dest cond t, data)) (fun st => fam_cte f (env_of gm st) a noise source dest cond t).
Proof.
  intros np gm f a noise offset normalize vars cond source dest t data. split; [|split; [|split]]; apply seeded_result_of; intros st K d MK.
  - unfold fam_mi_object in MK. destruct (fmi_init offset normalize vars) as [ws|e|] eqn:EI; try discriminate MK. cbn [bind] in MK.
    destruct (e_check a) as [u|e|] eqn:EC; try discriminate MK. cbn [bind] in MK. unfold num_object in MK. injection MK as <- <-.
    eexists. split; [apply (proj2 (num_first _ _))|]. cbn [snd]. unfold fam_mi. rewrite EI, EC. cbn [bind env_of after draw gam].
    change (fun i => s_normal st (0 + i)) with (s_normal st). destruct (with_noise _ _ _); [|reflexivity|reflexivity]. cbn [bind]. apply fl_of_VNum.
  - unfold fam_cmi_object in MK. destruct (match offset with None | Some 0%Z => Ok tt | _ => Raise ValueError end) as [u|e|] eqn:EO; try discriminate MK. cbn [bind] in MK.
    destruct (fcmi_init normalize vars cond) as [[ws Z]|e|] eqn:EI; try discriminate MK. cbn [bind fst snd] in MK.
    destruct (e_check a) as [u'|e|] eqn:EC; try discriminate MK. cbn [bind] in MK. unfold num_object in MK. injection MK as <- <-.
    eexists. split; [apply (proj2 (num_first _ _))|]. cbn [snd fst]. unfold fam_cmi. rewrite EO, EI, EC. cbn [bind env_of after draw gam fst snd].
    change (fun i => s_normal st (0 + i)) with (s_normal st). destruct (with_noise _ _ _); [|reflexivity|reflexivity]. cbn [bind]. apply fl_of_VNum.
  - injection MK as <- <-. eexists. split; [reflexivity|]. rewrite fl_of_VNum. reflexivity.
  - injection MK as <- <-. eexists. split; [reflexivity|]. rewrite fl_of_VNum. reflexivity.
Qed.
Print Assumptions C112_renyi_tsallis_values.

(** ** What does not hold *)
(** a generator that hands out the identical order twice, then an order with two rows exchanged *)
Definition ex_perm (r n : nat) : list nat := if (r <? 2)%nat then seq 0 n else swap_draw r n.
Definition ex_stream : stream := mkStream (fun _ => 0) ex_perm id_draw.
Definition ex_numpy : numpy := mkNumpy (fun _ => ex_stream) (fun n => if Nat.eqb n 0 then ex_stream else mkStream (fun _ => 0) swap_draw id_draw).
Lemma ex_numpy_legal : numpy_legal ex_numpy.
Proof.
  assert (legal_perm ex_perm) as LP by (intros r n; unfold ex_perm; destruct (r <? 2)%nat; [apply Permutation_refl|apply swap_legal]).
  split; [intros z|intros n]; cbn [ex_numpy seeded from_os]; [split; [exact LP|apply id_boot_legal]|].
  destruct (Nat.eqb n 0); cbn; [split; [exact LP|apply id_boot_legal]|apply ex_legal].
Qed.

Lemma shared_run f loc g z : f [A1 [0;0;1;1]; A1 [0;0;1;1]]%Z = Ok (VNum g) -> f [A1 [0;1;0;1]; A1 [0;0;1;1]]%Z = Ok (VNum z) ->
  let mk := fun _ : stream => Ok (klass_mi f loc, [A1 [0;0;1;1]; A1 [0;0;1;1]]%Z) in
  let test i := ECall i never (OpTest (NInt 2) MPermute) in
  answers ex_numpy [EGen (SInt 7)] (ENew mk (SGen 0)) [test 0%nat] = [Some (inr (ATest (Fin g) [Fin g; Fin g]))] /\
  answers ex_numpy [EGen (SInt 7)] (ENew mk (SGen 0)) [ENew mk (SGen 0); test 1%nat; test 0%nat] = [Some (inr (ATest (Fin g) [Fin z; Fin z]))] /\
  answers ex_numpy [] (ENew mk SNone) [test 0%nat] = [Some (inr (ATest (Fin g) [Fin g; Fin g]))] /\
  answers ex_numpy [EGen SNone] (ENew mk SNone) [test 0%nat] = [Some (inr (ATest (Fin g) [Fin z; Fin z]))].
Proof.
  intros E1 E2 mk test.
  split; [|split; [|split]]; cbv; repeat first [rewrite E1|rewrite E2]; reflexivity.
Qed.

(** Objects that share one generator, and objects without a seed: the answers depend on what else the program does.  Here
    the significance test of the discrete mutual information of a series with itself. *)
Theorem C112_shared_or_unseeded_refuted : let mk := fun _ : stream => Ok (klass_mi_discrete BE, [A1 [0;0;1;1]; A1 [0;0;1;1]]%Z) in
  let test i := ECall i never (OpTest (NInt 2) MPermute) in
  answers ex_numpy [EGen (SInt 7)] (ENew mk (SGen 0)) [test 0%nat] <>
  answers ex_numpy [EGen (SInt 7)] (ENew mk (SGen 0)) [ENew mk (SGen 0); test 1%nat; test 0%nat] /\
  answers ex_numpy [] (ENew mk SNone) [test 0%nat] <> answers ex_numpy [EGen SNone] (ENew mk SNone) [test 0%nat].
Proof.
  intros mk test. assert (S4 : small2 4) by (unfold small2; lia).
  pose proof (mi_global_1d BE [0;1;0;1]%Z [0;0;1;1]%Z Logic.I eq_refl ltac:(discriminate) S4) as E2.
  rewrite MI_0101 in E2. replace (0 / unit_of BE) with 0 in E2 by (simpl; field).
  pose proof (mi_global_1d BE [0;0;1;1]%Z [0;0;1;1]%Z Logic.I eq_refl ltac:(discriminate) S4) as E1.
  replace (MI [0;0;1;1]%Z [0;0;1;1]%Z / unit_of BE) with (MI [0;0;1;1]%Z [0;0;1;1]%Z) in E1 by (simpl; field).
  destruct (shared_run (fun d => rmap VNum (mi_global BE None d)) (fun d => mi_local BE None d) (MI [0;0;1;1]%Z [0;0;1;1]%Z) 0) as (A & B & C & D).
  { rewrite E1. reflexivity. }
  { rewrite E2. reflexivity. }
  fold (klass_mi_discrete BE) in A, B, C, D. fold mk in A, B, C, D. cbv zeta in A, B, C, D. fold (test 0%nat) (test 1%nat) in A, B, C, D.
  rewrite A, B, C, D. pose proof MI_0011. split; intros [= Q _]; lra.
Qed.
Print Assumptions C112_shared_or_unseeded_refuted.

(** the hypotheses can be met: a seeded object in the middle of other activity, with its answers *)
Example C112_example : let mk := fun _ : stream => Ok (klass_mi_discrete BE, [A1 [0;0;1;1]; A1 [0;0;1;1]]%Z) in
  let test i := ECall i never (OpTest (NInt 2) MPermute) in
  numpy_legal ex_numpy /\ mk (seeded ex_numpy 7) = Ok (klass_mi_discrete BE, [A1 [0;0;1;1]; A1 [0;0;1;1]]%Z) /\
  calls_of 1 [test 0%nat; test 1%nat; ENew mk SNone; test 2%nat; ECall 1 never OpLocal] = [(never, OpTest (NInt 2) MPermute); (never, OpLocal)] /\
  snd (step ex_numpy (ENew mk (SInt 7)) (fst (exec ex_numpy [ENew mk (SInt 7)] start))) = None /\
  not_using 0 [EUser 1 5; ENew mk (SGen 1)].
Proof.
  intros mk test. split; [apply ex_numpy_legal|]. split; [reflexivity|]. split; [reflexivity|]. split; [reflexivity|]. repeat constructor; discriminate.
Qed.
