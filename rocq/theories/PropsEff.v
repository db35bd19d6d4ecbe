(** Property theorems: effective transfer entropy (C89). *)
From Coq Require Import Reals Lra Lia List ZArith Arith Bool Permutation.
From Verif Require Import Res RSum Spec SpecBase SpecTE Info Info2 Ord MBase MData MEntropy MMI MTE MGeneric MObj SpecObj PBase PEntropy PCoo PMI PMI2 PMI3 PCMI PMI4 PCMI2 PMI5 PMI6 PropsMI PTE PTE2 PropsTE PObj PObj2 PObj3 PropsObj SpecEff.
Import ListNotations.
Local Open Scope R_scope.

Section TE.
Variables (f : list arr -> rand -> res value) (loc : list arr -> rand -> res (list R)).
Variables (pd bd : nat -> nat -> list nat) (rows : nat) (data : list arr) (r : nat).
Let K := klass_te pd bd rows f loc.
Let val (rnd : rand) : option fl := fl_of (f data rnd).
Hypothesis TOT : val RNone <> None /\ forall m q, m <> MUnknown -> val (surrogate pd bd rows m q) <> None.

Let Inv (k : nat) (o : obj) : Prop :=
  o_data o = data /\ o_flag o = FOff /\ o_rng o = (r + k)%nat /\ (forall g, o_glob o = Some g -> val RNone = Some g).

Let flag_of (m : method) : flag := match m with MPermute => FPermute | _ => FResample end.

Lemma te_calcs_total m n o : m <> MUnknown -> o_flag o = flag_of m -> o_data o = data ->
  exists o' vs, repeatM n (run_calc never K) o = (o', inr vs) /\
    o_data o' = data /\ o_glob o' = o_glob o /\ o_flag o' = o_flag o /\ o_rng o' = (o_rng o + n)%nat /\
    map (fun v => Some (val_of v)) vs = map (fun i => val (surrogate pd bd rows m (o_rng o + i))) (seq 0 n).
Proof.
  intros Hm. revert o. induction n as [|n IH]; intros o EF ED; cbn [repeatM].
  - exists o, []. unfold ret. repeat split; auto.
  - unfold mbind.
    rewrite (eq_refl : run_calc never K o =
       let '(r, v) := k_calc K (o_data o) (o_flag o) (o_rng o) in (set_rng (tick o) r, v)).
    unfold K at 1. cbn [klass_te k_calc]. rewrite EF, ED.
    assert (ER : (match flag_of m with FOff => RNone | FPermute => RPermute (pd (o_rng o) rows) | FResample => RResample (bd (o_rng o) rows) end)
       = surrogate pd bd rows m (o_rng o)) by (destruct m; [reflexivity|reflexivity|congruence]).
    assert (EN : (match flag_of m with FOff => o_rng o | _ => S (o_rng o) end) = S (o_rng o)) by (destruct m; reflexivity).
    rewrite ER, EN. destruct TOT as [_ T]. specialize (T m (o_rng o) Hm).
    unfold val, fl_of in T. destruct (of_res (f data _)) as [e|pv] eqn:E1; [congruence|].
    destruct (IH (set_rng (tick o) (S (o_rng o))) EF ED) as (o2 & vs & E2 & A1 & A2 & A3 & A4 & A5).
    rewrite E2. exists o2, (pv :: vs). split; [reflexivity|]. split; [exact A1|]. split; [exact A2|]. split; [rewrite A3; exact EF|].
    split; [rewrite A4; cbn [o_rng set_rng]; lia|].
    cbn [seq map]. rewrite Nat.add_0_r. unfold val at 1, fl_of. rewrite E1. f_equal. rewrite A5. rewrite <- seq_shift, map_map. apply map_ext. intros i.
    cbn [o_rng set_rng tick]. replace (S (o_rng o) + i)%nat with (o_rng o + S i)%nat by lia. reflexivity.
Qed.

Lemma global_total k o : Inv k o -> exists o' g, global_val never K o = (o', inr g) /\ val RNone = Some g /\ Inv k o'.
Proof.
  intros (D & F & Q & G). unfold global_val, mbind, read. destruct (o_glob o) as [x|] eqn:EG.
  - exists o, x. unfold ret. split; [reflexivity|]. split; [auto|]. split; [exact D|]. split; [exact F|]. split; [exact Q|]. intros g. rewrite EG. apply G.
  - unfold calculate, mbind, run_calc, never, K. cbn [o_data o_flag o_rng tick klass_te k_calc]. rewrite D, F.
    destruct TOT as [T _]. assert (V : val RNone = match of_res (f data RNone) with inr v => Some (val_of v) | inl _ => None end) by reflexivity.
    destruct (of_res (f data RNone)) as [e|pv] eqn:E; [congruence|].
    assert (NB : pv <> PBad) by (unfold of_res in E; destruct (f data RNone) as [[x|x]|e|]; try discriminate; injection E as <-; discriminate).
    destruct pv as [x|ls|]; [| |congruence]; cbn;
      (do 2 eexists; split; [reflexivity|]; split; [exact V|]; split; [exact D|]; split; [exact F|]; split; [exact Q|]; intros g EQ; rewrite V; exact EQ).
Qed.

Lemma values_total n m k o : Inv k o -> m <> MUnknown -> (0 < n)%Z ->
  exists o' vs, statistical_test_values never K pd bd (NInt n) m o = (o', inr vs) /\
    map Some vs = map (fun i => val (surrogate pd bd rows m (r + k + i))) (seq 0 (Z.to_nat n)) /\ Inv (k + Z.to_nat n) o'.
Proof.
  intros (D & F & Q & G) Hm Hn. unfold statistical_test_values. cbn [pos_int]. rewrite (proj2 (Z.ltb_lt 0 n) Hn).
  unfold K at 1. cbn [klass_te k_te]. unfold test_te.
  destruct (te_calcs_total m (Z.to_nat n) (set_flag o (flag_of m)) Hm eq_refl D) as (o' & vs & E & A1 & A2 & A3 & A4 & A5).
  exists (set_flag o' FOff), (map val_of vs).
  assert (X : mbind (MObj.upd (fun o0 => set_flag o0 (flag_of m))) (fun _ => mbind (repeatM (Z.to_nat n) (run_calc never K)) (fun vs0 => mbind (MObj.upd (fun o0 => set_flag o0 FOff)) (fun _ => ret (map val_of vs0)))) o = (set_flag o' FOff, inr (map val_of vs))).
  { unfold mbind, MObj.upd. rewrite E. reflexivity. }
  split; [destruct m; [exact X|exact X|congruence]|].
  cbn [set_flag o_rng] in A5, A4. rewrite Q in A5, A4. split; [rewrite map_map; exact A5|].
  split; [exact A1|]. split; [reflexivity|]. split; [cbn [set_flag o_rng]; rewrite A4; lia|]. cbn [set_flag o_glob]. rewrite A2. exact G.
Qed.

(** what a call answers in a state reached after [k] draws *)
Let answers (c : op) (k : nat) (a : out answer) : Prop :=
  (forall m, c = OpEffective m -> m <> MUnknown -> exists g v, a = inr (AEff g v) /\
     val RNone = Some g /\ val (surrogate pd bd rows m (r + k)) = Some v) /\
  (forall n m, c = OpTest (NInt n) m -> m <> MUnknown -> (2 <= n)%Z -> exists g vs, a = inr (ATest g vs) /\
     val RNone = Some g /\ map Some vs = map (fun i => val (surrogate pd bd rows m (r + k + i))) (seq 0 (Z.to_nat n))).

Lemma mmap_run {A B} (h : A -> B) (m : M A) o : mmap h m o = let '(o', x) := m o in (o', match x with inl e => inl e | inr a => inr (h a) end).
Proof. unfold mmap, mbind, ret. destruct (m o) as [o' [e|a]]; reflexivity. Qed.

Lemma step c k o : Inv k o -> Inv (k + draws c) (fst (run_op never K pd bd c o)) /\ answers c k (snd (run_op never K pd bd c o)).
Proof.
  intros IV. destruct c as [| | | |n m|m]; cbn [run_op]; rewrite mmap_run; cbn [draws]; rewrite ?Nat.add_0_r.
  - destruct (global_total k o IV) as (o' & g & E & _ & I'). unfold result. rewrite E. split; [exact I'|]. split; intros; discriminate.
  - destruct (global_total k o IV) as (o' & g & E & _ & I'). rewrite E. split; [exact I'|]. split; intros; discriminate.
  - destruct (global_total k o IV) as (o' & g & E & _ & I'). unfold local_vals, mbind. rewrite E. unfold read.
    destruct (o_loc o'); [split; [exact I'|split; intros; discriminate]|].
    unfold K. cbn [klass_te k_extract]. destruct I' as (D & F & Q & G). rewrite D, F.
    destruct (of_res_list _) as [e|ls]; [destruct e; cbn; (split; [repeat split; assumption|split; intros; discriminate])|].
    cbn. split; [repeat split; assumption|]. split; intros; discriminate.
  - destruct IV as (D & F & Q & G). unfold calculate, mbind, run_calc, never, K. cbn [o_data o_flag o_rng tick klass_te k_calc]. rewrite D, F.
    destruct TOT as [T _]. assert (V : val RNone = match of_res (f data RNone) with inr v => Some (val_of v) | inl _ => None end) by reflexivity.
    destruct (of_res (f data RNone)) as [e|pv] eqn:E; [congruence|].
    destruct pv as [x|ls|]; cbn; (split; [|split; intros; discriminate]); (split; [exact D|]); (split; [exact F|]); (split; [exact Q|]);
      [intros g EQ; rewrite V; exact EQ|intros g EQ; rewrite V; exact EQ|exact G].
  - unfold statistical_test, mbind. assert (HX : m = MUnknown \/ m <> MUnknown) by (destruct m; [right|right|left]; congruence).
    destruct HX as [->|Hm].
    + split; [|split; intros; congruence]. assert (E0 : match n with NInt _ => 0%nat | NFloat => 0%nat end = 0%nat) by (destruct n; reflexivity).
      rewrite ?E0, ?Nat.add_0_r.
      unfold statistical_test_values. destruct (pos_int n); [|exact IV]. unfold K. cbn [klass_te k_te test_te]. exact IV.
    + destruct n as [n|].
      2: { unfold statistical_test_values. cbn. destruct m; try congruence; rewrite Nat.add_0_r; (split; [exact IV|split; intros; discriminate]). }
      replace (match m with MUnknown => 0%nat | _ => Z.to_nat n end) with (Z.to_nat n) by (destruct m; congruence).
      destruct (Z.ltb_spec 0 n) as [Hn|Hn].
      * destruct (values_total n m k o IV Hm Hn) as (o1 & vs & E1 & V1 & I1). rewrite E1.
        destruct (global_total _ o1 I1) as (o2 & g & E2 & V2 & I2). rewrite E2.
        assert (LV : length vs = Z.to_nat n) by (apply (f_equal (@length _)) in V1; rewrite !map_length, seq_length in V1; exact V1).
        destruct (Nat.ltb_spec (length vs) 2) as [L|L]; cbn; (split; [exact I2|]); split.
        -- intros; discriminate.
        -- intros n' m' Q _ H2. injection Q as <- <-. lia.
        -- intros; discriminate.
        -- intros n' m' Q _ H2. injection Q as <- <-. exists g, vs. auto.
      * unfold statistical_test_values. cbn [pos_int]. rewrite (proj2 (Z.ltb_ge 0 n) Hn). cbn.
        replace (Z.to_nat n) with 0%nat by lia. rewrite Nat.add_0_r. split; [exact IV|]. split; [intros; discriminate|].
        intros n' m' Q _ H2. injection Q as <- <-. lia.
  - assert (HX : m = MUnknown \/ m <> MUnknown) by (destruct m; [right|right|left]; congruence).
    destruct HX as [->|Hm].
    + rewrite Nat.add_0_r. split; [exact IV|]. split; intros; congruence.
    + replace (match m with MUnknown => 0%nat | _ => 1%nat end) with 1%nat by (destruct m; congruence).
      destruct (values_total 1 m k o IV Hm ltac:(lia)) as (o1 & vs & E1 & V1 & I1).
      destruct (global_total _ o1 I1) as (o2 & g & E2 & V2 & I2).
      change (Z.to_nat 1) with 1%nat in *. destruct vs as [|v [|]]; try discriminate.
      assert (EE : effective_val never K pd bd m o = (o2, inr (g, v))).
      { unfold effective_val. change (negb (k_te K)) with false. cbv iota. unfold mbind. rewrite E1, E2. reflexivity. }
      rewrite EE. cbn [fst snd].
      split; [exact I2|]. split; [|intros; discriminate]. intros m' Q _. injection Q as <-. exists g, v.
      cbn in V1. rewrite Nat.add_0_r in V1. injection V1 as V1. auto.
Qed.
End TE.

(** ** Histories.  For every transfer entropy class, every history of calls (results, tests, effective values, with or
    without valid arguments): each effective value is the value of the object minus the value for one randomised
    source, drawn for this call only - the draws of earlier calls are never used again. *)
Theorem C89_fresh_surrogate_per_call f loc pd bd rows data r h :
  let val rnd := fl_of (f data rnd) in
  val RNone <> None -> (forall m q, m <> MUnknown -> val (surrogate pd bd rows m q) <> None) ->
  let '(o', as_) := run never (klass_te pd bd rows f loc) pd bd h (fresh data r) in
  length as_ = length h /\ o_data o' = data /\ o_flag o' = FOff /\ o_rng o' = (r + drawn h)%nat /\
  forall i c, nth_error h i = Some c -> exists a, nth_error as_ i = Some a /\
    let q := (r + drawn (firstn i h))%nat in
    (forall m, c = OpEffective m -> m <> MUnknown -> exists g v,
       val RNone = Some g /\ val (surrogate pd bd rows m q) = Some v /\ effective a = Some (fl_sub g v)) /\
    (forall n m, c = OpTest (NInt n) m -> m <> MUnknown -> (2 <= n)%Z -> exists g vs, a = inr (ATest g vs) /\
       val RNone = Some g /\ map Some vs = map (fun i => val (surrogate pd bd rows m (q + i))) (seq 0 (Z.to_nat n))).
Proof.
  intros val T0 T1.
  assert (X : forall h k o, o_data o = data -> o_flag o = FOff -> o_rng o = (r + k)%nat -> (forall g, o_glob o = Some g -> val RNone = Some g) ->
    let '(o', as_) := run never (klass_te pd bd rows f loc) pd bd h o in
    length as_ = length h /\ o_data o' = data /\ o_flag o' = FOff /\ o_rng o' = (r + k + drawn h)%nat /\
    forall i c, nth_error h i = Some c -> exists a, nth_error as_ i = Some a /\
      let q := (r + k + drawn (firstn i h))%nat in
      (forall m, c = OpEffective m -> m <> MUnknown -> exists g v,
         val RNone = Some g /\ val (surrogate pd bd rows m q) = Some v /\ effective a = Some (fl_sub g v)) /\
      (forall n m, c = OpTest (NInt n) m -> m <> MUnknown -> (2 <= n)%Z -> exists g vs, a = inr (ATest g vs) /\
         val RNone = Some g /\ map Some vs = map (fun i => val (surrogate pd bd rows m (q + i))) (seq 0 (Z.to_nat n)))).
  { clear h. induction h as [|c h IH]; intros k o D F Q G; cbn [run].
    - split; [reflexivity|]. split; [exact D|]. split; [exact F|]. split; [cbn; lia|]. intros [|i] c E; discriminate.
    - pose proof (step f loc pd bd rows data r (conj T0 T1) c k o (conj D (conj F (conj Q G)))) as S1.
      destruct (run_op never (klass_te pd bd rows f loc) pd bd c o) as [o1 a]. cbn [fst snd] in S1.
      destruct S1 as ((D1 & F1 & Q1 & G1) & (A1 & A2)).
      specialize (IH (k + draws c)%nat o1 D1 F1 Q1 G1). destruct (run never _ pd bd h o1) as [o2 as_].
      destruct IH as (L2 & D2 & F2 & Q2 & R2). split; [cbn; congruence|]. split; [exact D2|]. split; [exact F2|].
      split; [rewrite Q2; unfold drawn; cbn [map fold_right]; lia|].
      intros [|i] c' E.
      + injection E as <-. exists a. split; [reflexivity|]. cbn [firstn]. change (drawn []) with 0%nat. rewrite Nat.add_0_r. cbv zeta. split.
        * intros m Hc Hm. destruct (A1 m Hc Hm) as (g & v & -> & V1 & V2). exists g, v. split; [exact V1|]. split; [exact V2|reflexivity].
        * intros n m Hc Hm Hn. exact (A2 n m Hc Hm Hn).
      + cbn [nth_error] in E. destruct (R2 i c' E) as (a' & E' & B). exists a'. split; [exact E'|].
        cbv zeta in *. cbn [firstn]. replace (r + k + drawn (c :: firstn i h))%nat with (r + (k + draws c) + drawn (firstn i h))%nat by (unfold drawn; cbn [map fold_right]; lia).
        exact B. }
  pose proof (X h 0%nat (fresh data r) eq_refl eq_refl ltac:(cbn; lia) ltac:(intros g E; discriminate E)) as Y.
  destruct (run never _ pd bd h (fresh data r)) as [o' as_]. rewrite ?Nat.add_0_r in Y. exact Y.
Qed.
Print Assumptions C89_fresh_surrogate_per_call.

(** ** Discrete transfer entropy.  The effective value of a call with the permutation method is the transfer entropy
    minus the transfer entropy for the same source histories in another order; hence it never exceeds the transfer
    entropy and is never below it by more than what the destination's past leaves open. *)
Theorem C89_discrete_te b pd bd (xs ys : list Z) l k s r m :
  legal pd bd -> big_base b -> length ys = length xs -> (1 <= l)%nat -> (1 <= k)%nat -> (1 <= s)%nat ->
  (Nat.max k l * s < length xs)%nat -> small2 (length xs) -> m <> MUnknown ->
  exists te e sh',
    snd (run_op never (klass_te_discrete pd bd (te_rows (length xs) l k s) b (I l) (I k) (I s)) pd bd OpResult (fresh [A1 xs; A1 ys] r)) = inr (AGlob (Fin te)) /\
    effective (snd (run_op never (klass_te_discrete pd bd (te_rows (length xs) l k s) b (I l) (I k) (I s)) pd bd (OpEffective m) (fresh [A1 xs; A1 ys] r))) = Some (Fin e) /\
    te = CMI (te_df ys l k s) (te_sh xs l k s) (te_dh ys l k s) / unit_of b /\
    e = te - CMI (te_df ys l k s) sh' (te_dh ys l k s) / unit_of b /\
    (m = MPermute -> Permutation sh' (te_sh xs l k s)) /\
    (forall row, In row sh' -> In row (te_sh xs l k s)) /\ length sh' = length (te_sh xs l k s) /\
    te - (Ent (combine (te_df ys l k s) (te_dh ys l k s)) - Ent (te_dh ys l k s)) / unit_of b <= e <= te.
Proof.
  intros LG B Ld Hl Hk Hs Hd SM Hm. pose proof (big_valid b B) as V.
  set (N := te_rows (length xs) l k s). set (sh := te_sh xs l k s). set (df := te_df ys l k s). set (dh := te_dh ys l k s).
  pose proof (fun fg q => te_eval_ok b pd bd xs ys l k s fg q LG V Ld Hl Hk Hs Hd SM) as T. cbv zeta in T. fold N sh df dh in T.
  assert (Lsh : length sh = N) by (unfold sh, te_sh; rewrite flat_pasts_length, base_times_length; reflexivity).
  assert (Ldf : length df = N) by (unfold df, te_df; rewrite flat_presents_length, base_times_length, Ld; reflexivity).
  assert (Ldh : length dh = N) by (unfold dh, te_dh; rewrite flat_pasts_length, base_times_length, Ld; reflexivity).
  set (js := match m with MPermute => pd r N | _ => bd r N end).
  assert (Ljs : length js = N /\ Forall (fun j => (j < N)%nat) js).
  { destruct LG as [LP LB]. unfold js. destruct m; [|apply LB|congruence]. split; [rewrite (Permutation_length (LP r N)); apply seq_length|].
    apply Forall_forall. intros j Hj. apply (Permutation_in _ (LP r N)) in Hj. apply in_seq in Hj. lia. }
  set (sh' := map (fun j => nth j sh []) js).
  assert (VS : te_eval b (I l) (I k) (I s) [A1 xs; A1 ys] (surrogate pd bd N m r) = Ok (VNum (CMI df sh' dh / unit_of b))).
  { unfold sh', js. destruct m; [apply (T FPermute r)|apply (T FResample r)|congruence]. }
  pose proof (T FOff r) as V0. cbv iota in V0.
  exists (CMI df sh dh / unit_of b), (CMI df sh dh / unit_of b - CMI df sh' dh / unit_of b), sh'.
  split; [|split; [|split; [reflexivity|split; [reflexivity|split; [|split; [|split]]]]]].
  - cbn [run_op]. unfold mmap, mbind, result, global_val, mbind, read, calculate, mbind, run_calc, never, klass_te_discrete, klass_te.
    cbn [fresh o_glob o_data o_flag o_rng tick o_calls pred k_calc]. rewrite V0. reflexivity.
  - assert (T0 : fl_of (te_eval b (I l) (I k) (I s) [A1 xs; A1 ys] RNone) <> None) by (rewrite V0; discriminate).
    assert (T1 : forall m q, m <> MUnknown -> fl_of (te_eval b (I l) (I k) (I s) [A1 xs; A1 ys] (surrogate pd bd N m q)) <> None).
    { intros m' q Hm'. destruct m'; [pose proof (T FPermute q) as TT|pose proof (T FResample q) as TT|congruence]; cbv iota in TT; unfold surrogate; rewrite TT; discriminate. }
    pose proof (C89_fresh_surrogate_per_call (te_eval b (I l) (I k) (I s)) (te_eval_local b (I l) (I k) (I s)) pd bd N [A1 xs; A1 ys] r [OpEffective m] T0 T1) as C.
    unfold klass_te_discrete. cbn [run] in C. destruct (run_op never _ pd bd (OpEffective m) (fresh [A1 xs; A1 ys] r)) as [o' a]. cbn [snd].
    destruct C as (_ & _ & _ & _ & C). destruct (C 0%nat _ eq_refl) as (a' & Ea & C1 & _). injection Ea as <-.
    destruct (C1 m eq_refl Hm) as (g & v & Eg & Ev & ->). cbn [firstn] in Ev. change (drawn []) with 0%nat in Ev. rewrite Nat.add_0_r in Ev.
    rewrite V0 in Eg. rewrite VS in Ev. cbn in Eg, Ev. injection Eg as <-. injection Ev as <-. reflexivity.
  - intros ->. unfold sh', js. apply perm_by_index. rewrite Lsh. apply LG.
  - intros row Hr. unfold sh' in Hr. apply in_map_iff in Hr. destruct Hr as (j & <- & Hj). apply nth_In. rewrite Lsh.
    destruct Ljs as [_ F]. rewrite Forall_forall in F. apply F, Hj.
  - fold sh. rewrite Lsh. unfold sh'. rewrite map_length. apply Ljs.
  - assert (L' : length sh' = N) by (unfold sh'; rewrite map_length; apply Ljs).
    assert (0 <= CMI df sh' dh / unit_of b) by (apply big_div_nonneg; [exact B|]; apply CMI_nonneg; congruence).
    assert (CMI df sh' dh / unit_of b <= (Ent (combine df dh) - Ent dh) / unit_of b) by (apply big_div_le; [exact B|]; apply CMI_le_cond; congruence).
    lra.
Qed.
Print Assumptions C89_discrete_te.

(** a source that never changes has effective transfer entropy zero, whatever is drawn *)
Corollary C89_constant_source b pd bd (x : Z) n (ys : list Z) l k s r m :
  legal pd bd -> big_base b -> length ys = n -> (1 <= l)%nat -> (1 <= k)%nat -> (1 <= s)%nat ->
  (Nat.max k l * s < n)%nat -> small2 n -> m <> MUnknown ->
  effective (snd (run_op never (klass_te_discrete pd bd (te_rows n l k s) b (I l) (I k) (I s)) pd bd (OpEffective m) (fresh [A1 (repeat x n); A1 ys] r))) = Some (Fin 0).
Proof.
  intros LG B Ld Hl Hk Hs Hd SM Hm.
  destruct (C89_discrete_te b pd bd (repeat x n) ys l k s r m LG B) as (te & e & sh' & _ & E & Ete & Ee & _ & Hin & Hlen & _); rewrite ?repeat_length; try assumption.
  rewrite repeat_length in E. rewrite E. do 2 f_equal. rewrite Ee, Ete.
  assert (Y : forall p, In p (te_sh (repeat x n) l k s) -> p = repeat x l).
  { intros p Hp. unfold te_sh in Hp. rewrite repeat_length in Hp.
    assert (BT : forall t, In t (base_times n (Nat.max k l * s) s) -> (t < n)%nat) by (intros t Ht; rewrite base_times_In in Ht by exact Hs; tauto).
    rewrite flat_pasts_1d in Hp; [|rewrite repeat_length; exact BT|exact Hs].
    unfold pasts in Hp. apply in_map_iff in Hp. destruct Hp as (t & <- & Ht). specialize (BT t Ht). unfold past.
    transitivity (map (fun _ => x) (seq 0 l)); [|clear; generalize 0%nat; induction l as [|l IH]; intros q; [reflexivity|cbn; f_equal; apply IH]].
    apply map_ext_in. intros j Hj.
    apply (repeat_spec n x). apply nth_In. rewrite repeat_length. lia. }
  assert (Z1 : forall sh', (forall row, In row sh' -> In row (te_sh (repeat x n) l k s)) -> length sh' = length (te_sh (repeat x n) l k s) ->
     CMI (te_df ys l k s) sh' (te_dh ys l k s) = 0).
  { intros sh1 H1 L1. apply CMI_const_l.
    - rewrite L1. unfold te_df, te_sh. rewrite flat_presents_length, flat_pasts_length, !base_times_length, repeat_length. congruence.
    - unfold te_df, te_dh. rewrite flat_presents_length, flat_pasts_length. reflexivity.
    - intros p q Hp Hq. rewrite (Y p (H1 p Hp)), (Y q (H1 q Hq)). reflexivity. }
  rewrite !Z1; [unfold Rdiv; ring| | |auto|reflexivity]; [exact Hin|exact Hlen].
Qed.

(** ** Invalid calls, and objects without an effective value *)
Theorem C89_unknown_method_rejected K pd bd o : k_te K = true ->
  run_op never K pd bd (OpEffective MUnknown) o = (o, inl ValueError).
Proof. intros E. cbn [run_op]. unfold mmap, mbind, effective_val. rewrite E. cbn. unfold mbind, statistical_test_values. cbn. rewrite E. reflexivity. Qed.

(** mutual information objects have none *)
Theorem C89_only_transfer_entropies K pd bd o m : k_te K = false ->
  run_op never K pd bd (OpEffective m) o = (o, inl AttributeError).
Proof. intros E. cbn [run_op]. unfold mmap, mbind, effective_val. rewrite E. reflexivity. Qed.

(** ** Refuted for conditional transfer entropy, every approach and all data: the effective value is always 0, whatever
    the conditional transfer entropy is, because the source is not randomised *)
Theorem C89_cte_always_zero_refuted f loc pd bd data r m x : m <> MUnknown -> fl_of (f data) = Some (Fin x) ->
  effective (snd (run_op never (klass_cte f loc) pd bd (OpEffective m) (fresh data r))) = Some (Fin 0).
Proof.
  intros Hm E. unfold fl_of in E. destruct (of_res (f data)) as [e|pv] eqn:EF; [discriminate|]. injection E as E.
  assert (NB : pv <> PBad) by (intros ->; discriminate).
  assert (X : exists o', statistical_test_values never (klass_cte f loc) pd bd (NInt 1) m (fresh data r) = (o', inr [Fin x]) /\
        exists o2, global_val never (klass_cte f loc) o' = (o2, inr (Fin x))).
  { destruct m; [| |congruence];
    unfold statistical_test_values; cbn [pos_int]; change (0 <? 1)%Z with true; cbv iota; cbn [klass_cte k_te]; unfold test_te;
    change (Z.to_nat 1) with 1%nat; unfold mbind, upd, repeatM, mbind, run_calc, never, klass_cte, ret;
    cbn [o_data o_flag o_rng tick set_flag fresh k_calc o_calls pred]; rewrite EF; (eexists; split; [cbn; rewrite E; reflexivity|]);
    unfold global_val, mbind, read, calculate, mbind, run_calc, never;
    cbn [o_data o_flag o_rng tick set_flag set_rng fresh k_calc o_calls pred o_glob]; rewrite EF;
    (destruct pv as [y|ls|]; [| |congruence]); cbn in E |- *; rewrite E; eexists; reflexivity. }
  destruct X as (o' & E1 & o2 & E2).
  cbn [run_op]. unfold mmap, effective_val. change (negb (k_te (klass_cte f loc))) with false. cbv iota. unfold mbind. rewrite E1, E2.
  cbn. do 2 f_equal. lra.
Qed.
Print Assumptions C89_cte_always_zero_refuted.

(** ** Refuted: "calculates the effective value if not already done, otherwise returns the stored value".  Two calls on
    the same object answer differently when the generator's first two row orders do. *)
Definition ex_boot (q n : nat) : list nat := match q with O => repeat 0%nat n | _ => seq 0 n end.
Lemma ex_boot_legal : legal_boot ex_boot.
Proof.
  intros q n. destruct q; cbn [ex_boot].
  - split; [apply repeat_length|]. apply Forall_forall. intros j Hj. pose proof (repeat_spec _ _ _ Hj). subst j. destruct n; [destruct Hj|lia].
  - exact (id_boot_legal (S q) n).
Qed.
Lemma ex_boot_pair : legal id_draw ex_boot.
Proof. split; [intros q n; apply Permutation_refl|apply ex_boot_legal]. Qed.
Theorem C89_not_stored_refuted :
  let K := klass_te_discrete id_draw ex_boot (te_rows 5 1 1 1) BE (I 1) (I 1) (I 1) in
  let data := [A1 [0;0;0;1;0]; A1 [0;0;0;0;1]]%Z in
  exists a1 a2 e1 e2, snd (run never K id_draw ex_boot [OpEffective MBootstrap; OpEffective MBootstrap] (fresh data 0)) = [a1; a2] /\
    effective a1 = Some (Fin e1) /\ effective a2 = Some (Fin e2) /\ e2 = 0 /\ 0 < e1.
Proof.
  intros K data. set (xs := [0;0;0;1;0]%Z). set (ys := [0;0;0;0;1]%Z).
  assert (S5 : small2 5) by (unfold small2; lia).
  pose proof (fun fg q => te_eval_ok BE id_draw ex_boot xs ys 1 1 1 fg q ex_boot_pair Logic.I eq_refl ltac:(lia) ltac:(lia) ltac:(lia) ltac:(cbn; lia) S5) as T.
  cbv zeta in T. change (length xs) with 5%nat in T.
  set (N := te_rows 5 1 1 1) in *. set (sh := te_sh xs 1 1 1) in *. set (df := te_df ys 1 1 1) in *. set (dh := te_dh ys 1 1 1) in *.
  assert (T0 : fl_of (te_eval BE (I 1) (I 1) (I 1) data RNone) <> None) by (unfold data; fold xs ys; rewrite (T FOff 0%nat); discriminate).
  assert (T1 : forall m q, m <> MUnknown -> fl_of (te_eval BE (I 1) (I 1) (I 1) data (surrogate id_draw ex_boot N m q)) <> None).
  { intros m' q Hm'. unfold data. fold xs ys. destruct m'; [pose proof (T FPermute q) as TT|pose proof (T FResample q) as TT|congruence]; cbv iota in TT; unfold surrogate; rewrite TT; discriminate. }
  pose proof (C89_fresh_surrogate_per_call (te_eval BE (I 1) (I 1) (I 1)) (te_eval_local BE (I 1) (I 1) (I 1)) id_draw ex_boot N data 0 [OpEffective MBootstrap; OpEffective MBootstrap] T0 T1) as C.
  unfold K, klass_te_discrete. destruct (run never _ _ _ _ _) as [o' as_]. cbn [snd]. destruct C as (L & _ & _ & _ & C).
  destruct as_ as [|a1 [|a2 [|]]]; try discriminate.
  destruct (C 0%nat _ eq_refl) as (a & Ea & C1 & _). injection Ea as <-.
  destruct (C1 MBootstrap eq_refl ltac:(discriminate)) as (g & v & Eg & Ev & E1).
  destruct (C 1%nat _ eq_refl) as (a' & Ea' & C2 & _). injection Ea' as <-.
  destruct (C2 MBootstrap eq_refl ltac:(discriminate)) as (g' & v' & Eg' & Ev' & E2).
  unfold data in *. fold xs ys in Eg, Ev, Eg', Ev'.
  pose proof (T FOff 0%nat) as V0. cbv iota in V0. rewrite V0 in Eg, Eg'.
  pose proof (T FResample 0%nat) as V1. cbv iota in V1. cbn [drawn firstn map fold_right draws Nat.add surrogate] in Ev, Ev'. rewrite V1 in Ev.
  pose proof (T FResample 1%nat) as V2. cbv iota in V2. rewrite V2 in Ev'.
  cbn [fl_of of_res val_of] in Eg, Eg', Ev, Ev'. unfold fl_of in Eg, Eg', Ev, Ev'. cbn [of_res val_of] in Eg, Eg', Ev, Ev'.
  assert (IS : forall x y : fl, Some x = Some y -> x = y) by congruence.
  apply IS in Eg, Eg', Ev, Ev'. subst g g' v v'. cbn [fl_sub] in E1, E2.
  assert (SID : map (fun j => nth j sh []) (seq 0 N) = sh) by reflexivity.
  assert (SC : CMI df (map (fun j => nth j sh []) (repeat 0%nat N)) dh = 0).
  { apply CMI_const_l; [reflexivity|reflexivity|]. cbn. intros x y Hx Hy. intuition congruence. }
  exists a1, a2. eexists. eexists. split; [reflexivity|]. split; [exact E1|]. split; [exact E2|].
  change (ex_boot 1 N) with (seq 0 N) in *. change (ex_boot 0 N) with (repeat 0%nat N). rewrite SID, SC.
  split; [ring|]. replace (CMI df sh dh / unit_of BE - 0 / unit_of BE) with (CMI df sh dh) by (cbn; field).
  assert (CD : forall x y, In x dh -> In y dh -> x = y) by (cbn; intros x y Hx Hy; intuition congruence).
  assert (ESH : sh = df) by reflexivity. rewrite ESH.
  unfold CMI. rewrite (Ent_partition (combine df dh) df) by (apply const_pair_partition; [reflexivity|exact CD]).
  rewrite (Ent_partition (combine (combine df df) dh) (combine df df)) by (apply const_pair_partition; [reflexivity|exact CD]).
  rewrite (proj2 (Ent_zero_iff dh ltac:(discriminate)) CD).
  pose proof (MI_self df) as MS. unfold MI in MS.
  destruct (Rle_lt_or_eq_dec 0 (Ent df) (Ent_nonneg df)) as [P|P]; [lra|exfalso].
  pose proof (proj1 (Ent_zero_iff df ltac:(discriminate)) (eq_sym P) [0]%Z [1]%Z) as Q.
  assert ([0]%Z = [1]%Z) by (apply Q; cbn; auto). discriminate.
Qed.
Print Assumptions C89_not_stored_refuted.

(** the hypotheses of the theorems above hold for this data, too *)
Example C89_example : legal id_draw ex_boot /\ length [0;0;0;0;1]%Z = length [0;0;0;1;0]%Z /\ (Nat.max 1 1 * 1 < length [0;0;0;1;0]%Z)%nat /\ small2 (length [0;0;0;1;0]%Z).
Proof. split; [exact ex_boot_pair|]. split; [reflexivity|]. split; [cbn; lia|]. unfold small2. cbn. lia. Qed.
