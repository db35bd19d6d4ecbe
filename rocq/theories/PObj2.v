(** Proofs: call counts, restoration after tests, and what the surrogates are. *)
From Coq Require Import Reals Lra Lia List ZArith Arith Bool Permutation.
From Verif Require Import Res RSum Spec SpecBase Ord MBase MData MEntropy MMI MTE MGeneric MObj SpecObj PObj.
Import ListNotations.

(** ** Number of estimations *)
Section Calls.
Variables (irq : nat -> bool) (K : klass) (pd bd : nat -> nat -> list nat).

Lemma calculate_calls o : let '(o', r) := calculate irq K o in
  o_calls o' = S (o_calls o) /\ (forall a, r = inr a -> exists g, o_glob o' = Some g).
Proof.
  unfold calculate, mbind, run_calc. destruct (irq _); [split; [reflexivity|discriminate]|].
  destruct (k_calc K _ _ _) as [r [e|v]]; [split; [reflexivity|discriminate]|].
  destruct v; cbn; (split; [reflexivity|]); intros; try discriminate; eexists; reflexivity.
Qed.

Lemma global_calls o : let '(o', r) := global_val irq K o in
  match o_glob o with Some _ => o' = o | None => o_calls o' = S (o_calls o) end /\
  (forall a, r = inr a -> exists g, o_glob o' = Some g).
Proof.
  unfold global_val, mbind, read. destruct (o_glob o) as [x|] eqn:G.
  - unfold ret. split; [reflexivity|]. intros. exists x. exact G.
  - pose proof (calculate_calls o) as C. destruct (calculate irq K o) as [o1 [e|u]]; destruct C as [C H].
    + split; [exact C|discriminate].
    + destruct (H u eq_refl) as [g Eg]. rewrite Eg. unfold ret. split; [exact C|]. intros. exists g. exact Eg.
Qed.

Definition basic (c : op) : Prop := c = OpResult \/ c = OpGlobal \/ c = OpLocal.

Lemma op_calls c o : basic c -> let '(o', a) := run_op irq K pd bd c o in
  (o_calls o' <= o_calls o + match o_glob o with Some _ => 0 | None => 1 end)%nat /\
  (failed a = false -> o_glob o' <> None) /\ (o_glob o <> None -> o_glob o' <> None).
Proof.
  intros B. pose proof (global_calls o) as GC.
  assert (X : let '(o', r) := global_val irq K o in
     (o_calls o' <= o_calls o + match o_glob o with Some _ => 0 | None => 1 end)%nat /\
     (forall a, r = inr a -> o_glob o' <> None) /\ (o_glob o <> None -> o_glob o' <> None)).
  { destruct (global_val irq K o) as [o' r]. destruct GC as [C H]. split; [|split].
    - destruct (o_glob o); [subst o'; lia|lia].
    - intros a E. destruct (H a E) as [g Eg]. congruence.
    - destruct (o_glob o) eqn:E; [subst o'; congruence|congruence]. }
  destruct B as [->|[->| ->]]; cbn [run_op]; unfold mmap, mbind.
  1,2: change (result irq K o) with (global_val irq K o); destruct (global_val irq K o) as [o' [e|a]]; cbn;
    destruct X as (X1 & X2 & X3); (split; [exact X1|split; [|exact X3]]); intros Q; [discriminate|apply (X2 a eq_refl)].
  unfold local_vals, mbind at 1. destruct (global_val irq K o) as [o1 [e|a]]; destruct X as (X1 & X2 & X3).
  - cbn. split; [exact X1|]. split; [discriminate|exact X3].
  - pose proof (X2 a eq_refl) as NG. cbn [read mbind]. unfold read, mbind. destruct (o_loc o1).
    + cbn. split; [exact X1|]. split; auto.
    + destruct (k_extract K _ _ _) as [r [e|ls]].
      * destruct e; cbn; (split; [exact X1|split; [discriminate|auto]]).
      * cbn. split; [exact X1|]. split; auto.
Qed.

Definition failures (as_ : list (out answer)) : nat := length (filter failed as_).

Lemma run_calls h o : Forall basic h ->
  let '(o', as_) := run irq K pd bd h o in
  (o_calls o' <= o_calls o + match o_glob o with Some _ => 0 | None => 1 + failures as_ end)%nat.
Proof.
  revert o. induction h as [|c h IH]; intros o F; cbn [run].
  - destruct (o_glob o); lia.
  - pose proof (op_calls c o (Forall_inv F)) as C. destruct (run_op irq K pd bd c o) as [o1 a].
    specialize (IH o1 (Forall_inv_tail F)). destruct (run irq K pd bd h o1) as [o2 as_].
    destruct C as (C1 & C2 & C3). unfold failures in *. cbn [filter].
    destruct (o_glob o) as [g|].
    + assert (o_glob o1 <> None) by (apply C3; discriminate). destruct (o_glob o1); [lia|congruence].
    + destruct (failed a) eqn:Fa.
      * destruct (o_glob o1); cbn [length]; lia.
      * assert (o_glob o1 <> None) by (apply C2; reflexivity). destruct (o_glob o1); [lia|congruence].
Qed.
End Calls.

(** ** Restoration *)
(** the row numbers a test method draws *)
Definition draw (pd bd : nat -> nat -> list nat) (m : method) : nat -> nat -> list nat :=
  if match m with MPermute => true | _ => false end then pd else bd.

(** no surrogate evaluation raises *)
Definition calm (K : klass) (pd bd : nat -> nat -> list nat) (data : list arr) : Prop :=
  if k_te K then forall fg r e, snd (k_calc K data fg r) <> inl e
  else forall x y, data = [x; y] -> forall m r r' e,
         snd (k_calc K [take_rows (draw pd bd m r (arr_len x)) x; y] FOff r') <> inl e.

(** same data, flags and caches *)
Definition restored (data : list arr) (o o' : obj) : Prop :=
  o_data o' = data /\ o_flag o' = FOff /\ o_glob o' = o_glob o /\ o_loc o' = o_loc o.

Section Restore.
Variables (K : klass) (pd bd : nat -> nat -> list nat) (data : list arr).

Lemma surrogate_run x y m o : k_te K = false -> calm K pd bd [x; y] -> o_orig o = Some [x; y] -> o_flag o = FOff ->
  exists o' pv, mi_surrogate never K pd bd m o = (o', inr (val_of pv)) /\
    k_calc K [take_rows (draw pd bd m (o_rng o) (arr_len x)) x; y] FOff (S (o_rng o)) = (o_rng o', inr pv) /\
    o_orig o' = Some [x; y] /\ o_flag o' = FOff /\ o_glob o' = o_glob o /\ o_loc o' = o_loc o.
Proof.
  intros Kt C EO EF. unfold calm in C. rewrite Kt in C. specialize (C x y eq_refl).
  unfold mi_surrogate, mbind, read. rewrite EO. unfold resample, upd, run_calc, never. cbn [o_data o_flag o_rng tick set_data set_rng].
  rewrite EF. fold (draw pd bd m).
  specialize (C m (o_rng o) (S (o_rng o))).
  destruct (k_calc K _ FOff _) as [r [e|pv]] eqn:E; [exfalso; apply (C e); reflexivity|].
  eexists. exists pv. split; [reflexivity|]. cbn. split; [reflexivity|]. auto.
Qed.

Lemma surrogates_run x y m n o : k_te K = false -> calm K pd bd [x; y] -> o_orig o = Some [x; y] -> o_flag o = FOff ->
  exists o' vs, repeatM n (mi_surrogate never K pd bd m) o = (o', inr vs) /\ length vs = n /\
    Forall (fun v => exists r pv, snd (k_calc K [take_rows (draw pd bd m r (arr_len x)) x; y] FOff (S r)) = inr pv /\ v = val_of pv) vs /\
    o_orig o' = Some [x; y] /\ o_flag o' = FOff /\ o_glob o' = o_glob o /\ o_loc o' = o_loc o.
Proof.
  intros Kt C. revert o. induction n as [|n IH]; intros o EO EF; cbn [repeatM].
  - exists o, []. repeat split; auto.
  - destruct (surrogate_run x y m o Kt C EO EF) as (o1 & pv & E1 & E2 & O1 & F1 & G1 & L1).
    destruct (IH o1 O1 F1) as (o2 & vs & E3 & Lv & Fv & O2 & F2 & G2 & L2).
    exists o2, (val_of pv :: vs). unfold mbind. rewrite E1, E3. split; [reflexivity|]. split; [simpl; congruence|].
    split; [|repeat split; congruence]. constructor; [|exact Fv].
    exists (o_rng o), pv. rewrite E2. split; reflexivity.
Qed.

Lemma calcs_run fg n o : calm K pd bd (o_data o) -> k_te K = true -> o_flag o = fg ->
  exists o' vs, repeatM n (run_calc never K) o = (o', inr vs) /\ length vs = n /\
    o_data o' = o_data o /\ o_flag o' = fg /\ o_glob o' = o_glob o /\ o_loc o' = o_loc o.
Proof.
  intros C Kt. unfold calm in C. rewrite Kt in C. revert o C. induction n as [|n IH]; intros o C EF; cbn [repeatM].
  - exists o, []. repeat split; auto.
  - unfold mbind. rewrite (eq_refl : run_calc never K o = let '(r, v) := k_calc K (o_data o) (o_flag o) (o_rng o) in (set_rng (tick o) r, v)).
    pose proof (C (o_flag o) (o_rng o)) as X. destruct (k_calc K (o_data o) (o_flag o) (o_rng o)) as [r [e|pv]]; [exfalso; apply (X e); reflexivity|].
    destruct (IH (set_rng (tick o) r)) as (o2 & vs & E3 & Lv & D2 & F2 & G2 & L2); [exact C|exact EF|].
    rewrite E3. exists o2, (pv :: vs). split; [reflexivity|]. split; [simpl; congruence|].
    cbn in *. auto.
Qed.

Lemma values_restore n m o : calm K pd bd data -> o_data o = data -> o_flag o = FOff ->
  let '(o', r) := statistical_test_values never K pd bd n m o in restored data o o'.
Proof.
  intros C ED EF. unfold statistical_test_values. destruct (pos_int n) as [k|]; [|repeat split; assumption].
  destruct (k_te K) eqn:Kt.
  - unfold test_te. assert (X : forall fg, exists o' vs,
       repeatM k (run_calc never K) (set_flag o fg) = (o', inr vs) /\ o_data o' = data /\ o_flag o' = fg /\ o_glob o' = o_glob o /\ o_loc o' = o_loc o).
    { intros fg. destruct (calcs_run fg k (set_flag o fg)) as (o' & vs & E & _ & D' & F' & G' & L'); [cbn; rewrite ED; exact C|exact Kt|reflexivity|].
      exists o', vs. cbn in *. repeat split; congruence. }
    destruct m; [destruct (X FPermute) as (o' & vs & E & D' & F' & G' & L')|destruct (X FResample) as (o' & vs & E & D' & F' & G' & L')|repeat split; assumption];
      unfold mbind, upd; rewrite E; cbn; repeat split; assumption.
  - unfold mbind at 1, read. destruct (Nat.eqb_spec (length (o_data o)) 2) as [L2|]; [|repeat split; assumption].
    rewrite ED in L2. destruct data as [|x [|y [|]]] eqn:Dd; try discriminate.
    unfold test_mi. assert (X : exists o' vs,
       repeatM k (mi_surrogate never K pd bd m) (set_orig o (Some (o_data o))) = (o', inr vs) /\
       o_orig o' = Some [x; y] /\ o_flag o' = FOff /\ o_glob o' = o_glob o /\ o_loc o' = o_loc o).
    { destruct (surrogates_run x y m k (set_orig o (Some (o_data o))) Kt C) as (o' & vs & E & _ & _ & H); [cbn; congruence|exact EF|].
      exists o', vs. split; [exact E|exact H]. }
    destruct X as (o' & vs & E & O' & F' & G' & L').
    destruct m; [| |repeat split; assumption]; unfold mbind, upd; rewrite E, O'; cbn; repeat split; assumption.
Qed.

(** the class gives the same results whatever the generator state, when the flags are off *)
Definition pure : Prop := forall r, snd (k_calc K data FOff r) = snd (k_calc K data FOff 0) /\
                                    snd (k_extract K data FOff r) = snd (k_extract K data FOff 0).

(** the values of an untested estimator *)
Definition G0 : option fl :=
  match snd (k_calc K data FOff 0) with inr (PNum x) => Some x | inr (PArr ls) => Some (np_mean ls) | _ => None end.
Definition L0 : option (list fl) :=
  match snd (k_calc K data FOff 0) with
  | inr (PArr ls) => Some ls
  | inr (PNum _) => match snd (k_extract K data FOff 0) with inr ls => Some ls | inl _ => None end
  | _ => None
  end.

Definition clean (o : obj) : Prop :=
  o_data o = data /\ o_flag o = FOff /\
  (forall g, o_glob o = Some g -> G0 = Some g) /\ (forall l, o_loc o = Some l -> L0 = Some l).

Lemma clean_restored o o' : clean o -> restored data o o' -> clean o'.
Proof. intros (D & F & G & L) (D' & F' & G' & L'). repeat split; try assumption; rewrite ?G', ?L'; assumption. Qed.

Lemma calculate_clean o : pure -> clean o -> clean (fst (calculate never K o)).
Proof.
  intros P (D & F & G & L). unfold calculate, mbind, run_calc, never. cbn [o_data o_flag o_rng tick]. rewrite D, F.
  destruct (P (o_rng o)) as [P1 _]. destruct (k_calc K data FOff (o_rng o)) as [r [e|v]]; cbn in P1; [repeat split; assumption|].
  destruct v as [x|ls|]; cbn; repeat split; try assumption.
  - intros g E. injection E as <-. unfold G0. rewrite <- P1. reflexivity.
  - intros g E. injection E as <-. unfold G0. rewrite <- P1. reflexivity.
  - intros l E. injection E as <-. unfold L0. rewrite <- P1. reflexivity.
Qed.

Lemma global_clean o : pure -> clean o -> clean (fst (global_val never K o)).
Proof.
  intros P Cl. unfold global_val, mbind, read. destruct (o_glob o) eqn:E; [exact Cl|].
  pose proof (calculate_clean o P Cl) as C'. destruct (calculate never K o) as [o1 [e|u]]; [exact C'|].
  cbn in C'. destruct (o_glob o1); exact C'.
Qed.


(** after [global_val] returned and no local values are stored, [_calculate] gave a number *)
Definition numeric_cache (o : obj) : Prop := o_glob o <> None -> o_loc o = None ->
  exists x, snd (k_calc K data FOff 0) = inr (PNum x).

Lemma calculate_numeric o : pure -> clean o -> numeric_cache o -> numeric_cache (fst (calculate never K o)).
Proof.
  intros P (D & F & G & L) NC. unfold calculate, mbind, run_calc, never. cbn [o_data o_flag o_rng tick]. rewrite D, F.
  destruct (P (o_rng o)) as [P1 _]. destruct (k_calc K data FOff (o_rng o)) as [r [e|v]]; cbn in P1; [exact NC|].
  destruct v as [x|ls|]; cbn; try exact NC.
  - intros _ _. exists x. congruence.
  - intros _ Q. discriminate Q.
Qed.

Lemma global_numeric o : pure -> clean o -> numeric_cache o -> numeric_cache (fst (global_val never K o)).
Proof.
  intros P Cl NC. unfold global_val, mbind, read. destruct (o_glob o) eqn:E; [exact NC|].
  pose proof (calculate_numeric o P Cl NC) as C'. destruct (calculate never K o) as [o1 [e|u]]; [exact C'|].
  cbn in C'. destruct (o_glob o1) eqn:E1; exact C'.
Qed.

Lemma local_clean o : pure -> clean o -> numeric_cache o ->
  clean (fst (local_vals never K o)) /\ numeric_cache (fst (local_vals never K o)).
Proof.
  intros P Cl NC. pose proof (global_clean o P Cl) as C1. pose proof (global_numeric o P Cl NC) as N1.
  pose proof (global_calls never K o) as GC.
  unfold local_vals, mbind, read. destruct (global_val never K o) as [o1 [e|g]]; cbn in C1, N1; [split; assumption|].
  destruct GC as [_ GC]. destruct (GC g eq_refl) as [g' Eg].
  destruct (o_loc o1) as [l|] eqn:EL; [split; [exact C1|cbn; exact N1]|].
  destruct C1 as (D & F & G & L). destruct (P (o_rng o1)) as [_ P2]. rewrite D, F.
  assert (Nx : exists x, snd (k_calc K data FOff 0) = inr (PNum x)) by (apply N1; congruence). destruct Nx as [x Ex].
  destruct (k_extract K data FOff (o_rng o1)) as [r [e|ls]]; cbn in P2.
  - destruct e; cbn; (split; [repeat split; assumption|intros _ _; exists x; exact Ex]).
  - cbn. split; [|intros _ Q; discriminate Q]. repeat split; try assumption.
    intros l E. injection E as <-. unfold L0. rewrite Ex, <- P2. reflexivity.
Qed.

Lemma op_clean c o : pure -> calm K pd bd data -> clean o -> numeric_cache o ->
  clean (fst (run_op never K pd bd c o)) /\ numeric_cache (fst (run_op never K pd bd c o)).
Proof.
  intros P C Cl NC.
  assert (FM : forall A B (f : A -> B) (m : M A) o, fst (mmap f m o) = fst (m o)).
  { intros A B f m o0. unfold mmap, mbind. destruct (m o0) as [o1 [e|a]]; reflexivity. }
  assert (V : forall n m A (k : list fl -> fl -> M A), (forall vs g o, fst (k vs g o) = o) ->
     clean (fst (mbind (statistical_test_values never K pd bd n m) (fun vs => mbind (global_val never K) (k vs)) o)) /\
     numeric_cache (fst (mbind (statistical_test_values never K pd bd n m) (fun vs => mbind (global_val never K) (k vs)) o))).
  { intros n m A k Hk. pose proof (values_restore n m o C ltac:(apply Cl) ltac:(apply Cl)) as VR.
    unfold mbind at 1 3. destruct (statistical_test_values never K pd bd n m o) as [o1 [e|vs]].
    - cbn. split; [apply (clean_restored o); assumption|]. destruct VR as (_ & _ & G' & L'). unfold numeric_cache. rewrite G', L'. exact NC.
    - pose proof (clean_restored o o1 Cl VR) as C1.
      assert (N1 : numeric_cache o1) by (destruct VR as (_ & _ & G' & L'); unfold numeric_cache; rewrite G', L'; exact NC).
      pose proof (global_clean o1 P C1) as C2. pose proof (global_numeric o1 P C1 N1) as N2.
      unfold mbind. destruct (global_val never K o1) as [o2 [e|g]]; cbn in C2, N2; [split; assumption|].
      rewrite Hk. split; assumption. }
  destruct c; cbn [run_op]; rewrite !FM.
  - split; [apply global_clean|apply global_numeric]; assumption.
  - split; [apply global_clean|apply global_numeric]; assumption.
  - apply local_clean; assumption.
  - split; [apply calculate_clean|apply calculate_numeric]; assumption.
  - unfold statistical_test. apply V. intros vs g o1. destruct (Nat.ltb _ _); reflexivity.
  - unfold effective_val. destruct (negb (k_te K)); [split; assumption|]. apply V. intros vs g o1. destruct vs; reflexivity.
Qed.

(** every reported value is a cached one, also with explicit [calculate()] calls *)
Lemma op_reports c o : inv o -> forall a, snd (run_op never K pd bd c o) = inr a ->
  reports a (fst (run_op never K pd bd c o)).
Proof.
  intros I a Ha. destruct (match c with OpCalculate => true | _ => false end) eqn:Q.
  - destruct c; try discriminate. cbn [run_op] in *. unfold mmap, mbind in *.
    destruct (calculate never K o) as [o1 [e|u]]; cbn in Ha; [discriminate|]. injection Ha as <-. split; discriminate.
  - assert (NC : c <> OpCalculate) by (intros ->; discriminate).
    pose proof (tri_op never K pd bd c NC o I) as T. destruct (run_op never K pd bd c o) as [o1 r]. cbn in *.
    destruct T as (_ & _ & R). apply R. exact Ha.
Qed.

Lemma op_inv c o : inv o -> inv (fst (run_op never K pd bd c o)).
Proof.
  intros I. destruct (match c with OpCalculate => true | _ => false end) eqn:Q.
  - destruct c; try discriminate. cbn [run_op]. unfold mmap, mbind, calculate, mbind, run_calc, never.
    cbn [o_data o_flag o_rng tick]. destruct (k_calc K _ _ _) as [r [e|v]]; [exact I|].
    destruct v; cbn; try exact I; intros l H; eexists; reflexivity.
  - assert (NC : c <> OpCalculate) by (intros ->; discriminate).
    pose proof (tri_op never K pd bd c NC o I) as T. destruct (run_op never K pd bd c o) as [o1 r]. apply T.
Qed.

Lemma run_clean h o : pure -> calm K pd bd data -> inv o -> clean o -> numeric_cache o ->
  let '(o', as_) := run never K pd bd h o in
  clean o' /\ (forall a g, In a as_ -> glob_of a = Some g -> G0 = Some g) /\
  (forall a l, In a as_ -> loc_of a = Some l -> L0 = Some l).
Proof.
  intros P C. revert o. induction h as [|c h IH]; intros o I Cl NC; cbn [run].
  - split; [exact Cl|]. split; intros ? ? [].
  - pose proof (op_clean c o P C Cl NC) as [C1 N1]. pose proof (op_inv c o I) as I1. pose proof (op_reports c o I) as R1.
    destruct (run_op never K pd bd c o) as [o1 a]. cbn in C1, N1, I1, R1. specialize (IH o1 I1 C1 N1).
    destruct (run never K pd bd h o1) as [o2 as_]. destruct IH as (C2 & HG & HL). split; [exact C2|]. split.
    + intros b g [<-|Hb] E; [|eapply HG; eassumption]. destruct a as [e|a]; [discriminate|].
      destruct C1 as (_ & _ & CG & _). apply CG. apply (R1 a eq_refl). exact E.
    + intros b l [<-|Hb] E; [|eapply HL; eassumption]. destruct a as [e|a]; [discriminate|].
      destruct C1 as (_ & _ & _ & CL). apply CL. apply (R1 a eq_refl). exact E.
Qed.
End Restore.
