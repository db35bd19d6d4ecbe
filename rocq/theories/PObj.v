(** Proofs: estimator objects and significance tests. *)
From Coq Require Import Reals Lra Lia List ZArith Arith Bool Permutation.
From Verif Require Import Res RSum Spec SpecBase Ord MBase MData MEntropy MMI MTE MGeneric MObj SpecObj.
Import ListNotations.

(** ** Caching: the stored results are written once *)
Definition inv (o : obj) : Prop := forall l, o_loc o = Some l -> exists g, o_glob o = Some g.
Definition grows (o o' : obj) : Prop :=
  (forall g, o_glob o = Some g -> o_glob o' = Some g) /\ (forall l, o_loc o = Some l -> o_loc o' = Some l).

Lemma grows_refl o : grows o o. Proof. split; auto. Qed.
Lemma grows_trans a b c : grows a b -> grows b c -> grows a c.
Proof. intros [G1 L1] [G2 L2]. split; auto. Qed.

Definition tri {A} (m : M A) (Q : A -> obj -> Prop) : Prop :=
  forall o, inv o -> let '(o', r) := m o in inv o' /\ grows o o' /\ forall a, r = inr a -> Q a o'.

Lemma tri_ret {A} (a : A) (Q : A -> obj -> Prop) : (forall o, inv o -> Q a o) -> tri (ret a) Q.
Proof. intros H o I. unfold ret. split; [exact I|]. split; [apply grows_refl|]. intros a' E. injection E as <-. auto. Qed.
Lemma tri_raise {A} e (Q : A -> obj -> Prop) : tri (raise e) Q.
Proof. intros o I. unfold raise. split; [exact I|]. split; [apply grows_refl|]. discriminate. Qed.
Lemma tri_bind {A B} (m : M A) (f : A -> M B) (P : A -> obj -> Prop) (Q : B -> obj -> Prop) :
  tri m P -> (forall a o, inv o -> P a o -> let '(o', r) := f a o in inv o' /\ grows o o' /\ forall b, r = inr b -> Q b o') ->
  tri (mbind m f) Q.
Proof.
  intros Hm Hf o I. unfold mbind. specialize (Hm o I). destruct (m o) as [o1 [e|a]].
  - destruct Hm as (I1 & G1 & _). split; [exact I1|]. split; [exact G1|]. discriminate.
  - destruct Hm as (I1 & G1 & H1). specialize (Hf a o1 I1 (H1 a eq_refl)). destruct (f a o1) as [o2 r].
    destruct Hf as (I2 & G2 & H2). split; [exact I2|]. split; [eapply grows_trans; eassumption|exact H2].
Qed.
Lemma tri_weaken {A} (m : M A) (P Q : A -> obj -> Prop) : tri m P -> (forall a o, P a o -> Q a o) -> tri m Q.
Proof. intros H HQ o I. specialize (H o I). destruct (m o) as [o' r]. destruct H as (? & ? & H). split; [assumption|]. split; [assumption|]. intros a E. apply HQ, H, E. Qed.
Lemma tri_bind' {A B} (m : M A) (f : A -> M B) (Q : B -> obj -> Prop) :
  tri m (fun _ _ => True) -> (forall a, tri (f a) Q) -> tri (mbind m f) Q.
Proof. intros Hm Hf. eapply tri_bind; [exact Hm|]. intros a o I _. exact (Hf a o I). Qed.

(** updates that leave the caches alone *)
Definition quiet (f : obj -> obj) : Prop := forall o, o_glob (f o) = o_glob o /\ o_loc (f o) = o_loc o.
Lemma tri_upd f : quiet f -> tri (upd f) (fun _ _ => True).
Proof.
  intros HQ o I. unfold upd. destruct (HQ o) as [G L]. split; [intros l; rewrite L, G; apply I|].
  split; [split; rewrite ?G, ?L; auto|auto].
Qed.
Lemma tri_read {A} (f : obj -> A) : tri (read f) (fun a o => a = f o).
Proof. intros o I. unfold read. split; [exact I|]. split; [apply grows_refl|]. intros a E. injection E as <-. reflexivity. Qed.

Section Caching.
Variables (irq : nat -> bool) (K : klass) (pd bd : nat -> nat -> list nat).

Lemma tri_run_calc : tri (run_calc irq K) (fun _ _ => True).
Proof.
  intros o I. unfold run_calc. destruct (irq _).
  - split; [exact I|]. split; [split; auto|discriminate].
  - destruct (k_calc K _ _ _) as [r v]. split; [exact I|]. split; [split; auto|auto].
Qed.

Lemma run_calc_caches o : let '(o', _) := run_calc irq K o in o_glob o' = o_glob o /\ o_loc o' = o_loc o.
Proof. unfold run_calc. destruct (irq _); [split; reflexivity|]. destruct (k_calc K _ _ _). split; reflexivity. Qed.

Lemma calculate_inv o : inv o -> o_glob o = None ->
  let '(o', r) := calculate irq K o in inv o' /\ grows o o' /\ (forall a, r = inr a -> exists g, o_glob o' = Some g).
Proof.
  intros I G. unfold calculate, mbind. pose proof (run_calc_caches o) as RC.
  destruct (run_calc irq K o) as [o1 [e|v]]; destruct RC as [G1 L1].
  - split; [intros l; rewrite L1, G1; apply I|]. split; [split; rewrite ?G1, ?L1; auto|discriminate].
  - assert (L0 : o_loc o = None) by (destruct (o_loc o) eqn:E; [destruct (I _ E); congruence|reflexivity]).
    assert (I1 : inv o1) by (intros l; rewrite L1, L0; discriminate).
    destruct v as [x|ls|]; cbn [upd raise]; unfold upd, raise.
    + split; [intros l H; eexists; reflexivity|]. split; [split; [rewrite G; discriminate|cbn; rewrite L1; auto]|]. intros; eexists; reflexivity.
    + split; [intros l H; eexists; reflexivity|]. split; [split; [rewrite G; discriminate|rewrite L0; discriminate]|]. intros; eexists; reflexivity.
    + split; [exact I1|]. split; [split; rewrite ?G1, ?L1; auto|discriminate].
Qed.

Lemma tri_global : tri (global_val irq K) (fun g o => o_glob o = Some g).
Proof.
  intros o I. unfold global_val, mbind, read. destruct (o_glob o) as [x|] eqn:G.
  - unfold ret. split; [exact I|]. split; [apply grows_refl|]. intros a E. injection E as <-. exact G.
  - pose proof (calculate_inv o I G) as C. destruct (calculate irq K o) as [o1 [e|u]].
    + destruct C as (I1 & G1 & _). split; [exact I1|]. split; [exact G1|discriminate].
    + destruct C as (I1 & G1 & H). destruct (H u eq_refl) as [g Eg]. rewrite Eg. unfold ret.
      split; [exact I1|]. split; [exact G1|]. intros a E. injection E as <-. exact Eg.
Qed.

Lemma tri_local : tri (local_vals irq K) (fun l o => o_loc o = Some l).
Proof.
  unfold local_vals. eapply tri_bind; [apply tri_global|]. intros g o I Hg.
  unfold mbind, read. destruct (o_loc o) as [l|] eqn:L.
  - unfold ret. split; [exact I|]. split; [apply grows_refl|]. intros a E. injection E as <-. exact L.
  - destruct (k_extract K _ _ _) as [r v]. cbn [o_loc set_rng].
    assert (I' : inv (set_rng o r)) by exact I. assert (G' : grows o (set_rng o r)) by (split; auto).
    destruct v as [e|ls].
    + destruct e; unfold raise; (split; [exact I'|split; [exact G'|discriminate]]).
    + unfold upd, ret. split; [intros l H; exists g; exact Hg|].
      split; [split; [auto|rewrite L; discriminate]|]. intros a E. injection E as <-. reflexivity.
Qed.

Lemma tri_repeat {A} n (m : M A) : tri m (fun _ _ => True) -> tri (repeatM n m) (fun _ _ => True).
Proof.
  intros Hm. induction n as [|n IH]; [apply tri_ret; auto|]. cbn [repeatM].
  apply tri_bind'; [exact Hm|]. intros x. apply tri_bind'; [exact IH|]. intros xs. apply tri_ret. auto.
Qed.

Lemma tri_surrogate m : tri (mi_surrogate irq K pd bd m) (fun _ _ => True).
Proof.
  unfold mi_surrogate. eapply tri_bind'; [eapply tri_weaken; [apply tri_read|auto]|].
  intros [[|x [|y [|]]]|]; try apply tri_raise.
  apply tri_bind'; [|intros x'].
  - intros o I. unfold resample. split; [exact I|]. split; [split; auto|auto].
  - apply tri_bind'; [apply tri_upd; split; reflexivity|]. intros _.
    apply tri_bind'; [apply tri_run_calc|]. intros v. apply tri_ret. auto.
Qed.

Lemma tri_values n m : tri (statistical_test_values irq K pd bd n m) (fun _ _ => True).
Proof.
  unfold statistical_test_values. destruct (pos_int n); [|apply tri_raise]. destruct (k_te K).
  - unfold test_te. assert (forall k, tri (repeatM k (run_calc irq K)) (fun _ _ => True)) as R by (intros; apply tri_repeat, tri_run_calc).
    destruct m; try apply tri_raise; (apply tri_bind'; [apply tri_upd; split; reflexivity|]; intros _;
      apply tri_bind'; [apply R|]; intros vs; apply tri_bind'; [apply tri_upd; split; reflexivity|]; intros _; apply tri_ret; auto).
  - eapply tri_bind'; [eapply tri_weaken; [apply tri_read|auto]|]. intros d. destruct (Nat.eqb _ _); [|apply tri_raise].
    unfold test_mi. apply tri_bind'; [apply tri_upd; split; reflexivity|]. intros _.
    assert (Q : quiet (fun o => match o_orig o with Some d => set_data o d | None => o end))
      by (intros o; destruct (o_orig o); split; reflexivity).
    destruct m; try apply tri_raise; (apply tri_bind'; [apply tri_repeat, tri_surrogate|]; intros vs;
      apply tri_bind'; [apply tri_upd; exact Q|]; intros _; apply tri_ret; auto).
Qed.

Lemma tri_test n m : tri (statistical_test irq K pd bd n m) (fun p o => o_glob o = Some (fst p)).
Proof.
  unfold statistical_test. apply tri_bind'; [apply tri_values|]. intros vs.
  eapply tri_bind; [apply tri_global|]. intros g o I Hg. destruct (Nat.ltb _ _).
  - apply (tri_raise ValueError (fun p o => o_glob o = Some (fst p)) o I).
  - unfold ret. split; [exact I|]. split; [apply grows_refl|]. intros a E. injection E as <-. exact Hg.
Qed.

Lemma tri_eff m : tri (effective_val irq K pd bd m) (fun p o => o_glob o = Some (fst p)).
Proof.
  unfold effective_val. destruct (negb (k_te K)); [apply tri_raise|]. apply tri_bind'; [apply tri_values|]. intros vs.
  eapply tri_bind; [apply tri_global|]. intros g o I Hg. destruct vs.
  - apply (tri_raise IndexError (fun p o => o_glob o = Some (fst p)) o I).
  - unfold ret. split; [exact I|]. split; [apply grows_refl|]. intros a E. injection E as <-. exact Hg.
Qed.

Lemma tri_mmap {A B} (f : A -> B) (m : M A) (P : A -> obj -> Prop) (Q : B -> obj -> Prop) :
  tri m P -> (forall a o, P a o -> Q (f a) o) -> tri (mmap f m) Q.
Proof.
  intros Hm HQ. unfold mmap. eapply tri_bind; [exact Hm|]. intros a o I H. unfold ret.
  split; [exact I|]. split; [apply grows_refl|]. intros b E. injection E as <-. auto.
Qed.

(** every answer reports the cached value *)
Definition reports (a : answer) (o : obj) : Prop :=
  (forall g, glob_of (inr a) = Some g -> o_glob o = Some g) /\ (forall l, loc_of (inr a) = Some l -> o_loc o = Some l).

Lemma tri_op c : c <> OpCalculate -> tri (run_op irq K pd bd c) reports.
Proof.
  intros NC. destruct c; try congruence; cbn [run_op].
  1,2: eapply tri_mmap; [apply tri_global|]; intros a o H; split; cbn; intros ? E; [injection E as <-; exact H|discriminate].
  - eapply tri_mmap; [apply tri_local|]; intros a o H; split; cbn; intros ? E; [discriminate|injection E as <-; exact H].
  - eapply tri_mmap; [apply tri_test|]; intros a o H; split; cbn; intros ? E; [injection E as <-; exact H|discriminate].
  - eapply tri_mmap; [apply tri_eff|]; intros a o H; split; cbn; intros ? E; [injection E as <-; exact H|discriminate].
Qed.

Lemma run_reports h o : ~ In OpCalculate h -> inv o ->
  let '(o', as_) := run irq K pd bd h o in
  grows o o' /\ (forall a g, In a as_ -> glob_of a = Some g -> o_glob o' = Some g) /\
  (forall a l, In a as_ -> loc_of a = Some l -> o_loc o' = Some l).
Proof.
  revert o. induction h as [|c h IH]; intros o NC I; cbn [run].
  - split; [apply grows_refl|]. split; intros ? ? [].
  - pose proof (tri_op c ltac:(intros ->; apply NC; left; reflexivity) o I) as T.
    destruct (run_op irq K pd bd c o) as [o1 a]. destruct T as (I1 & G1 & R1).
    specialize (IH o1 ltac:(intros H; apply NC; right; exact H) I1).
    destruct (run irq K pd bd h o1) as [o2 as_]. destruct IH as (G2 & HG & HL).
    split; [eapply grows_trans; eassumption|]. split.
    + intros b g [<-|Hb] E; [|eapply HG; eassumption]. destruct a as [e|a]; [discriminate|].
      apply G2. apply (R1 a eq_refl). exact E.
    + intros b l [<-|Hb] E; [|eapply HL; eassumption]. destruct a as [e|a]; [discriminate|].
      apply G2. apply (R1 a eq_refl). exact E.
Qed.
End Caching.
