(** Property theorems: significance tests (C33-C35) and result caching (C39).

    Histories ([run], SpecObj) are arbitrary lists of calls on one object; [irq] says which
    [_calculate] calls the user interrupts, [never] none; [pd]/[bd] are the draws of the generator. *)
From Coq Require Import Reals Lra Lia List ZArith Arith Bool Permutation.
From Verif Require Import Res RSum Spec SpecBase SpecTE Info Info2 Ord MBase MData MEntropy MMI MTE MGeneric MObj SpecObj PBase PEntropy PCoo PMI PMI2 PMI3 PCMI PMI4 PCMI2 PMI5 PMI6 PropsMI PTE PTE2 PropsTE PObj PObj2 PObj3.
Import ListNotations.
Local Open Scope R_scope.

(** ** C39 *)
(** For every estimator class (even one whose [_calculate] is random), every history of [result],
    [global_val], [local_vals], [statistical_test] and [effective_val] calls, and all interruptions
    and failures: all global values ever reported are equal, and so are all local values. *)
Theorem C39_results_stable irq K pd bd data r h :
  ~ In OpCalculate h ->
  let as_ := snd (run irq K pd bd h (fresh data r)) in
  (forall a b g g', In a as_ -> In b as_ -> glob_of a = Some g -> glob_of b = Some g' -> g = g') /\
  (forall a b l l', In a as_ -> In b as_ -> loc_of a = Some l -> loc_of b = Some l' -> l = l').
Proof.
  intros NC as_. pose proof (run_reports irq K pd bd h (fresh data r) NC) as R.
  unfold as_. destruct (run irq K pd bd h (fresh data r)) as [o' l]. cbn [snd].
  destruct R as (_ & HG & HL); [intros l0 E; discriminate E|].
  split; intros a b g g' Ha Hb Ea Eb; [pose proof (HG _ _ Ha Ea)|pose proof (HL _ _ Ha Ea)];
    [pose proof (HG _ _ Hb Eb)|pose proof (HL _ _ Hb Eb)]; congruence.
Qed.
Print Assumptions C39_results_stable.

(** [_calculate] runs at most once more than there are failing calls; in particular at most once
    when nothing fails *)
Theorem C39_computed_once irq K pd bd data r h :
  Forall (fun c => c = OpResult \/ c = OpGlobal \/ c = OpLocal) h ->
  let '(o', as_) := run irq K pd bd h (fresh data r) in
  (o_calls o' <= 1 + length (filter failed as_))%nat.
Proof.
  intros F. pose proof (run_calls irq K pd bd h (fresh data r) F) as R.
  destruct (run irq K pd bd h (fresh data r)) as [o' as_]. exact R.
Qed.
Print Assumptions C39_computed_once.

(** a rejected or failed estimation leaves nothing behind *)
Theorem C39_failure_not_cached irq K data r c :
  (c = OpResult \/ c = OpGlobal \/ c = OpCalculate) -> forall pd bd o' e,
  run_op irq K pd bd c (fresh data r) = (o', inl e) -> o_glob o' = None /\ o_loc o' = None.
Proof.
  intros Hc pd bd o' e E. unfold run_op, mmap, mbind in E.
  destruct Hc as [->|[->| ->]]; unfold result, global_val, calculate, mbind, read, run_calc in E;
    cbn [fresh o_glob o_data o_flag o_rng tick o_calls pred] in E;
    (destruct (irq 0%nat); [injection E as <- _; split; reflexivity|]);
    destruct (k_calc K data FOff r) as [r' [x|v]]; [injection E as <- _; split; reflexivity| |injection E as <- _; split; reflexivity| |injection E as <- _; split; reflexivity|];
    destruct v; cbn in E; try discriminate E; injection E as <- _; split; reflexivity.
Qed.

(** an estimation that returns an array: the global value is its mean, the local values the array *)
Theorem C39_local_array_mean K pd bd data r r' ls : k_calc K data FOff r = (r', inr (PArr ls)) ->
  snd (run never K pd bd [OpResult; OpLocal; OpGlobal] (fresh data r)) =
  [inr (AGlob (np_mean ls)); inr (ALoc ls); inr (AGlob (np_mean ls))].
Proof.
  intros E. unfold run, run_op, mmap, mbind, result, local_vals, global_val, calculate, mbind, read, run_calc, never, upd, ret.
  cbn [fresh o_glob o_data o_flag o_rng tick o_calls pred]. rewrite E. reflexivity.
Qed.

(** Explicit [calculate()] calls recompute: for a class whose [_calculate] depends on the generator
    (e.g. KSG adds noise), results are not stable then. *)
Definition noisy_klass : klass :=
  mkKlass false (fun _ _ r => (S r, inr (PNum (Fin (INR r))))) (fun _ _ r => (r, inl NotImplementedError)).
Theorem C39_recalculation_unstable_refuted :
  ~ (forall irq K pd bd data r h a b g g', let as_ := snd (run irq K pd bd h (fresh data r)) in
     In a as_ -> In b as_ -> glob_of a = Some g -> glob_of b = Some g' -> g = g').
Proof.
  intros H. specialize (H never noisy_klass (fun _ _ => []) (fun _ _ => []) [] 0%nat [OpResult; OpCalculate; OpResult]
    (inr (AGlob (Fin (INR 0)))) (inr (AGlob (Fin (INR 1)))) (Fin (INR 0)) (Fin (INR 1))). cbv zeta in H.
  assert (Fin (INR 0) = Fin (INR 1)) as Q by (apply H; [left; reflexivity|right; right; left; reflexivity|reflexivity|reflexivity]).
  injection Q as Q. simpl in Q. lra.
Qed.

(** ** C34 *)
(** Histories of any calls, including tests and [calculate()], without interruption, for a class whose
    surrogate evaluations do not raise ([calm]) and whose value with the flags off does not depend on
    the generator ([pure]): data and flags are as constructed, and every reported value is that of
    an untested object. *)
Theorem C34_tests_leave_estimator_unchanged K pd bd data r h :
  calm K pd bd data -> pure K data ->
  let '(o', as_) := run never K pd bd h (fresh data r) in
  o_data o' = data /\ o_flag o' = FOff /\
  (forall a g, In a as_ -> glob_of a = Some g -> In (inr (AGlob g)) (snd (run never K pd bd [OpResult] (fresh data r)))) /\
  (forall a l, In a as_ -> loc_of a = Some l -> In (inr (ALoc l)) (snd (run never K pd bd [OpLocal] (fresh data r)))).
Proof.
  intros C P. pose proof (run_clean K pd bd data h (fresh data r) P C) as R.
  destruct (run never K pd bd h (fresh data r)) as [o' as_].
  destruct R as ((D & F & _) & HG & HL).
  - intros l E; discriminate E.
  - split; [reflexivity|]. split; [reflexivity|]. split; intros ? E; discriminate E.
  - intros E; cbn in E; congruence.
  - split; [exact D|]. split; [exact F|]. destruct (P r) as [P1 P2]. destruct (P (fst (k_calc K data FOff r))) as [_ P3]. split.
    + intros a g Ha E. specialize (HG a g Ha E). unfold G0 in HG. rewrite <- P1 in HG.
      unfold run, run_op, mmap, mbind, result, global_val, calculate, mbind, read, run_calc, never, upd, ret.
      cbn [fresh o_glob o_data o_flag o_rng tick o_calls pred].
      destruct (k_calc K data FOff r) as [r' [e|v]]; cbn in HG; [discriminate|].
      destruct v; cbn; [injection HG as ->|injection HG as ->|discriminate HG]; left; reflexivity.
    + intros a l Ha E. specialize (HL a l Ha E). unfold L0 in HL. rewrite <- P1 in HL.
      unfold run, run_op, mmap, mbind, local_vals, global_val, calculate, mbind, read, run_calc, never, upd, ret.
      cbn [fresh o_glob o_data o_flag o_rng tick o_calls pred].
      destruct (k_calc K data FOff r) as [r' [e|v]]; cbn in HL, P3; [discriminate|]. rewrite <- P3 in HL.
      destruct v; cbn.
      * destruct (k_extract K data FOff r') as [r2 [e|ls]]; cbn in HL; [discriminate|]. injection HL as ->. left. reflexivity.
      * injection HL as ->. left. reflexivity.
      * discriminate HL.
Qed.
Print Assumptions C34_tests_leave_estimator_unchanged.

Lemma take_rows_A1 js (xs : list Z) : take_rows js (A1 xs) = A1 (map (fun j => nth j xs 0%Z) js). Proof. reflexivity. Qed.

Lemma mi_global_1d b xs ys : big_base b -> length xs = length ys -> xs <> [] -> small2 (length xs) ->
  mi_global b None [A1 xs; A1 ys] = Ok (MI xs ys / unit_of b).
Proof.
  intros B L NE S. rewrite <- (mi2_api b xs ys B L NE S). unfold mi_discrete. rewrite mi_init_2 by exact L. reflexivity.
Qed.

Definition legal (pd bd : nat -> nat -> list nat) : Prop := legal_perm pd /\ legal_boot bd.
Lemma draw_length pd bd m r n : legal pd bd -> length (draw pd bd m r n) = n.
Proof.
  intros [P B]. unfold draw. destruct m; [rewrite (Permutation_length (P r n)); apply seq_length| |]; apply B.
Qed.

(** the hypotheses hold for the discrete MI estimator on any two arrays *)
Theorem C34_discrete_mi b pd bd (xs ys : list Z) : big_base b -> length xs = length ys -> xs <> [] -> small2 (length xs) ->
  legal pd bd -> calm (klass_mi_discrete b) pd bd [A1 xs; A1 ys] /\ pure (klass_mi_discrete b) [A1 xs; A1 ys].
Proof.
  intros B L NE S LG. split; [|intros r; split; reflexivity].
  unfold calm. cbn [klass_mi_discrete klass_mi k_te]. intros x y E m r r' e. injection E as <- <-.
  cbn [k_calc klass_mi_discrete klass_mi snd arr_len]. rewrite take_rows_A1.
  set (xs' := map _ _). assert (L' : length xs' = length xs) by (unfold xs'; rewrite map_length; apply draw_length; exact LG).
  rewrite mi_global_1d; [discriminate|exact B|congruence| |rewrite L'; exact S].
  intros Q. rewrite Q in L'. destruct xs; [congruence|discriminate].
Qed.

(** the embedded rows of a discrete TE object, and the value for a given source history *)
Definition te_sh (xs : list Z) (l k s : nat) : list (list Z) := flat_pasts (A1 xs) s l (base_times (length xs) (Nat.max k l * s) s).
Definition te_dh (ys : list Z) (l k s : nat) : list (list Z) := flat_pasts (A1 ys) s k (base_times (length ys) (Nat.max k l * s) s).
Definition te_df (ys : list Z) (l k s : nat) : list (list Z) := flat_presents (A1 ys) (base_times (length ys) (Nat.max k l * s) s).
Definition te_rows (n l k s : nat) : nat := nrows n (Nat.max k l * s) s.

Lemma te_eval_ok b pd bd (xs ys : list Z) l k s fg r :
  legal pd bd -> valid_base b -> length ys = length xs -> (1 <= l)%nat -> (1 <= k)%nat -> (1 <= s)%nat ->
  (Nat.max k l * s < length xs)%nat -> small2 (length xs) ->
  let N := te_rows (length xs) l k s in
  let sh := te_sh xs l k s in
  te_eval b (I l) (I k) (I s) [A1 xs; A1 ys]
    match fg with FOff => RNone | FPermute => RPermute (pd r N) | FResample => RResample (bd r N) end =
  Ok (VNum (CMI (te_df ys l k s)
     match fg with FOff => sh | FPermute => map (fun j => nth j sh []) (pd r N) | FResample => map (fun j => nth j sh []) (bd r N) end
     (te_dh ys l k s) / unit_of b)).
Proof.
  intros [LP LB] V Ld Hl Hk Hs Hd SM N sh0. unfold te_eval.
  assert (FP : Forall (fun j => (j < N)%nat) (pd r N)).
  { apply Forall_forall. intros j Hj. apply (Permutation_in _ (LP r N)) in Hj. apply in_seq in Hj. lia. }
  assert (FB : Forall (fun j => (j < N)%nat) (bd r N)) by apply LB.
  rewrite (te_obs_ok (A1 xs) (A1 ys) l k s (length xs) Hl Hk Hs eq_refl Ld); [|destruct fg; discriminate|exact Hd|destruct fg; [exact Logic.I|exact FP|exact FB]].
  cbn [bind]. unfold te_dh, te_df. rewrite Ld. fold (te_sh xs l k s). fold sh0.
  set (dh := flat_pasts (A1 ys) s k _). set (df := flat_presents (A1 ys) _).
  assert (NP : (0 < N)%nat) by (apply nrows_pos; assumption).
  assert (L1 : length dh = N) by (unfold dh; rewrite flat_pasts_length, base_times_length; reflexivity).
  assert (L2 : length df = N) by (unfold df; rewrite flat_presents_length, base_times_length; reflexivity).
  assert (L0' : length sh0 = N) by (unfold sh0, te_sh; rewrite flat_pasts_length, base_times_length; reflexivity).
  assert (SN : small2 (length df)) by (rewrite L2; apply small_rows; assumption).
  assert (NE : df <> []) by (intros Q; rewrite Q in L2; simpl in L2; lia).
  assert (X : forall sh', length sh' = N -> rmap VNum (te_form b None sh' dh df) = Ok (VNum (CMI df sh' dh / unit_of b))).
  { intros sh' L'. destruct (te_form_ok b None sh' dh df V Logic.I) as [E _]; [congruence|congruence|exact NE|exact SN|].
    unfold rmap. rewrite E. cbn [bind]. rewrite Rplus_0_r. reflexivity. }
  destruct fg; apply X; [exact L0'|rewrite map_length, (Permutation_length (LP r N)); apply seq_length|rewrite map_length; apply LB].
Qed.

(** ... and for the discrete TE estimator *)
Theorem C34_discrete_te b pd bd (xs ys : list Z) l k s :
  legal pd bd -> valid_base b -> length ys = length xs -> (1 <= l)%nat -> (1 <= k)%nat -> (1 <= s)%nat ->
  (Nat.max k l * s < length xs)%nat -> small2 (length xs) ->
  let K := klass_te_discrete pd bd (te_rows (length xs) l k s) b (I l) (I k) (I s) in
  calm K pd bd [A1 xs; A1 ys] /\ pure K [A1 xs; A1 ys].
Proof.
  intros LG V Ld Hl Hk Hs Hd SM K. split; [|intros r; split; reflexivity].
  unfold calm. cbn [K klass_te_discrete klass_te k_te]. intros fg r e.
  assert (E := te_eval_ok b pd bd xs ys l k s fg r LG V Ld Hl Hk Hs Hd SM). cbv zeta in E.
  unfold K, klass_te_discrete, klass_te. cbn [k_calc snd]. rewrite E. discriminate.
Qed.

(** An interruption (Ctrl-C) during a test leaves the shuffled data in place: the next [result()]
    is the value of shuffled data, and nothing signals it. *)
Definition swap_draw (r n : nat) : list nat := if Nat.eqb n 4 then [0; 2; 1; 3]%nat else seq 0 n.
Lemma swap_legal : legal_perm swap_draw.
Proof.
  intros r n. unfold swap_draw. destruct (Nat.eqb_spec n 4) as [->|]; [|apply Permutation_refl].
  simpl. constructor. apply perm_swap.
Qed.

Lemma MI_0011 : 0 < MI [0;0;1;1]%Z [0;0;1;1]%Z.
Proof.
  rewrite MI_self. destruct (Rle_lt_or_eq_dec 0 (Ent [0;0;1;1]%Z) (Ent_nonneg _)) as [?|E]; [assumption|exfalso].
  symmetry in E. pose proof (proj1 (Ent_zero_iff [0;0;1;1]%Z ltac:(discriminate)) E) as E'. clear E. rename E' into E. specialize (E 0%Z 1%Z ltac:(simpl; auto) ltac:(simpl; auto)). lia.
Qed.
Lemma MI_0101 : MI [0;1;0;1]%Z [0;0;1;1]%Z = 0.
Proof.
  apply MI_zero_iff; [reflexivity|discriminate|]. intros x y.
  assert (C : forall v, count [0;1;0;1]%Z v = if Z.eq_dec v 0 then 2%nat else if Z.eq_dec v 1 then 2%nat else 0%nat).
  { intros v. destruct (Z.eq_dec v 0) as [->|N0]; [reflexivity|]. destruct (Z.eq_dec v 1) as [->|N1]; [reflexivity|].
    apply count_occ_not_In. simpl. intuition. }
  assert (C' : forall v, count [0;0;1;1]%Z v = if Z.eq_dec v 0 then 2%nat else if Z.eq_dec v 1 then 2%nat else 0%nat).
  { intros v. destruct (Z.eq_dec v 0) as [->|N0]; [reflexivity|]. destruct (Z.eq_dec v 1) as [->|N1]; [reflexivity|].
    apply count_occ_not_In. simpl. intuition. }
  rewrite C, C'. destruct (Z.eq_dec x 0) as [->|X0], (Z.eq_dec y 0) as [->|Y0];
    try destruct (Z.eq_dec x 1) as [->|X1]; try destruct (Z.eq_dec y 1) as [->|Y1]; try reflexivity;
    (replace (count _ _) with 0%nat; [reflexivity|symmetry; apply count_occ_not_In; simpl; intros Q; intuition congruence]).
Qed.

Lemma interrupted_run f loc g : f [A1 [0;1;0;1]; A1 [0;0;1;1]]%Z = Ok (VNum g) ->
  snd (run (fun n => Nat.eqb n 0) (klass_mi f loc) swap_draw swap_draw [OpTest (NInt 2) MPermute; OpResult] (fresh [A1 [0;0;1;1]; A1 [0;0;1;1]]%Z 0)) =
  [inl KeyboardInterrupt; inr (AGlob (Fin g))].
Proof.
  intros E.
  cbv. rewrite E. reflexivity.
Qed.

Theorem C34_interrupted_test_refuted :
  let irq := fun n => Nat.eqb n 0 in
  let K := klass_mi_discrete BE in
  let data := [A1 [0;0;1;1]; A1 [0;0;1;1]]%Z in
  exists g g', g <> g' /\
    snd (run irq K swap_draw swap_draw [OpTest (NInt 2) MPermute; OpResult] (fresh data 0)) = [inl KeyboardInterrupt; inr (AGlob g)] /\
    snd (run never K swap_draw swap_draw [OpResult] (fresh data 0)) = [inr (AGlob g')].
Proof.
  intros irq K data. exists (Fin 0), (Fin (MI [0;0;1;1]%Z [0;0;1;1]%Z)).
  assert (S4 : small2 4) by (unfold small2; lia).
  split; [|split].
  - intros Q. injection Q as Q. pose proof MI_0011. lra.
  - pose proof (mi_global_1d BE [0;1;0;1]%Z [0;0;1;1]%Z Logic.I eq_refl ltac:(discriminate) S4) as E.
    rewrite MI_0101 in E. replace (0 / unit_of BE) with 0 in E by (simpl; field).
    unfold irq, K, klass_mi_discrete, data. apply interrupted_run. cbv beta. rewrite E. reflexivity.
  - pose proof (mi_global_1d BE [0;0;1;1]%Z [0;0;1;1]%Z Logic.I eq_refl ltac:(discriminate) S4) as E.
    replace (MI [0;0;1;1]%Z [0;0;1;1]%Z / unit_of BE) with (MI [0;0;1;1]%Z [0;0;1;1]%Z) in E by (simpl; field).
    unfold run, run_op, mmap, mbind, result, global_val, calculate, mbind, read, run_calc, never, K, klass_mi_discrete, klass_mi, data. cbn [k_calc fresh o_glob o_data o_flag o_rng tick].
    rewrite E. reflexivity.
Qed.

(** for transfer entropy the randomisation flags stay set *)
Theorem C34_interrupted_te_test_refuted pd bd rows f loc data r n m irq : irq 0%nat = true -> m <> MUnknown -> (0 < n)%Z ->
  let '(o', as_) := run irq (klass_te pd bd rows f loc) pd bd [OpTest (NInt n) m] (fresh data r) in
  as_ = [inl KeyboardInterrupt] /\ o_flag o' <> FOff.
Proof.
  intros Q Hm Hn. unfold run, run_op, mmap, mbind, statistical_test, statistical_test_values. cbn [pos_int].
  rewrite (proj2 (Z.ltb_lt 0 n) Hn). cbn [k_te klass_te]. unfold test_te.
  assert (E : exists k, Z.to_nat n = S k) by (exists (pred (Z.to_nat n)); lia). destruct E as [k ->].
  destruct m; [| |congruence]; unfold mbind, upd; cbn [repeatM]; unfold mbind, run_calc;
    cbn [o_data o_flag o_rng tick o_calls pred fresh set_flag]; rewrite Q; (split; [reflexivity|discriminate]).
Qed.

(** ** C33: what the surrogates are *)
Lemma take_rows_perm js a : Permutation js (seq 0 (arr_len a)) -> reordering a (take_rows js a).
Proof.
  intros P. unfold reordering. destruct a as [xs|rs]; cbn [take_rows arr_rows arr_len] in *.
  - apply Permutation_map. apply Permutation_sym. eapply Permutation_trans; [apply Permutation_map, P|].
    rewrite <- (list_as_map 0%Z xs (length xs) eq_refl). apply Permutation_refl.
  - apply Permutation_sym. eapply Permutation_trans; [apply Permutation_map, P|].
    rewrite <- (list_as_map [] rs (length rs) eq_refl). apply Permutation_refl.
Qed.
Lemma take_rows_boot js a : length js = arr_len a -> Forall (fun j => (j < arr_len a)%nat) js -> redraw a (take_rows js a).
Proof.
  intros L F. rewrite Forall_forall in F. unfold redraw. destruct a as [xs|rs]; cbn [take_rows arr_rows arr_len] in *; rewrite ?map_length; (split; [exact L|]).
  - intros r Hr. apply in_map_iff in Hr. destruct Hr as (v & <- & Hv). apply in_map_iff in Hv. destruct Hv as (j & <- & Hj).
    apply (in_map (fun x => [x])). apply nth_In. apply F, Hj.
  - intros r Hr. apply in_map_iff in Hr. destruct Hr as (j & <- & Hj). apply nth_In. apply F, Hj.
Qed.

(** MI and CMI of every class that reads its data: the [i]-th test value is the measure of the
    [i]-th draw of rows of the first variable paired with the untouched second variable. *)
Theorem C33_mi_surrogates f loc pd bd x y r n m o' g vs : legal pd bd ->
  run_op never (klass_mi f loc) pd bd (OpTest (NInt n) m) (fresh [x; y] r) = (o', inr (ATest g vs)) ->
  length vs = Z.to_nat n /\
  forall i, (i < length vs)%nat -> exists x',
    x' = take_rows ((match m with MPermute => pd | _ => bd end) (r + i)%nat (arr_len x)) x /\
    (m = MPermute -> reordering x x') /\ (m = MBootstrap -> redraw x x') /\
    fl_of (f [x'; y]) = Some (nth i vs NonFin).
Proof.
  intros [LP LB] E. cbn [run_op] in E. unfold mmap, statistical_test, mbind in E.
  destruct (statistical_test_values never (klass_mi f loc) pd bd (NInt n) m (fresh [x; y] r)) as [o1 [e|ws]] eqn:E1; [discriminate|].
  destruct (global_val never (klass_mi f loc) o1) as [o2 [e|g2]]; [discriminate|].
  destruct (Nat.ltb (length ws) 2); [discriminate|]. injection E as _ _ ->. rename E1 into E.
  unfold statistical_test_values in E. cbn [pos_int] in E. destruct (Z.ltb_spec 0 n) as [Hn|]; [|discriminate].
  cbn [k_te klass_mi] in E. unfold mbind at 1, read in E. cbn [fresh o_data length Nat.eqb] in E.
  unfold test_mi, mbind at 1, upd in E.
  assert (X : m <> MUnknown /\ exists o2, repeatM (Z.to_nat n) (mi_surrogate never (klass_mi f loc) pd bd m) (set_orig (fresh [x; y] r) (Some [x; y])) = (o2, inr vs)).
  { destruct m; [| |discriminate]; (split; [discriminate|]); unfold mbind, ret in E; cbn [fresh o_data] in E;
      match type of E with context [repeatM ?k ?q ?st] => destruct (repeatM k q st) as [o3 [e|us]] eqn:E3; [discriminate|] end;
      exists o3; injection E as _ ->; first [reflexivity|exact E3]. }
  destruct X as (Hm & o3 & E3).
  apply (mi_surrogates_exact _ _ _ _ x y) in E3; [|reflexivity]. destruct E3 as (_ & _ & _ & _ & E4).
  assert (LV : length vs = Z.to_nat n) by (apply (f_equal (@length _)) in E4; rewrite !map_length, seq_length in E4; exact E4).
  split; [exact LV|]. intros i Hi. eexists. split; [reflexivity|].
  split; [|split].
  - intros ->. apply take_rows_perm, LP.
  - intros ->. apply take_rows_boot; apply LB.
  - apply (f_equal (fun l => nth i l None)) in E4.
    rewrite (nth_indep _ None (Some NonFin)) in E4 by (rewrite map_length; exact Hi). rewrite (map_nth Some) in E4.
    rewrite E4. rewrite LV in Hi.
    set (F := fun i => fl_of _).
    rewrite (nth_indep _ None (F 0%nat)) by (rewrite map_length, seq_length; exact Hi). rewrite map_nth, seq_nth by exact Hi.
    unfold F. cbn [set_orig fresh o_rng]. unfold draw. destruct m; [reflexivity|reflexivity|congruence].
Qed.
Print Assumptions C33_mi_surrogates.

(** TE of every class: the [i]-th test value is computed from the [i]-th draw of source-history rows *)
Theorem C33_te_surrogates f loc pd bd rows data r n m o' g vs : m <> MUnknown ->
  run_op never (klass_te pd bd rows f loc) pd bd (OpTest (NInt n) m) (fresh data r) = (o', inr (ATest g vs)) ->
  length vs = Z.to_nat n /\
  forall i, (i < length vs)%nat ->
    fl_of (f data (match m with MPermute => RPermute (pd (r + i)%nat rows) | _ => RResample (bd (r + i)%nat rows) end)) = Some (nth i vs NonFin).
Proof.
  intros Hm E. cbn [run_op] in E. unfold mmap, statistical_test, mbind in E.
  destruct (statistical_test_values never (klass_te pd bd rows f loc) pd bd (NInt n) m (fresh data r)) as [o1 [e|ws]] eqn:E1; [discriminate|].
  destruct (global_val never _ o1) as [o2 [e|g2]]; [discriminate|].
  destruct (Nat.ltb (length ws) 2); [discriminate|]. injection E as _ _ ->. rename E1 into E.
  unfold statistical_test_values in E. cbn [pos_int] in E. destruct (Z.ltb_spec 0 n) as [Hn|]; [|discriminate].
  cbn [k_te klass_te] in E. unfold test_te in E.
  set (fg := match m with MPermute => FPermute | _ => FResample end).
  assert (X : exists o2 us, repeatM (Z.to_nat n) (run_calc never (klass_te pd bd rows f loc)) (set_flag (fresh data r) fg) = (o2, inr us) /\ vs = map val_of us).
  { unfold fg. destruct m; [| |congruence]; unfold mbind, upd, ret in E;
      match type of E with context [repeatM ?k ?q ?st] => destruct (repeatM k q st) as [o3 [e|us]] eqn:E3; [discriminate|] end;
      exists o3, us; (split; [first [exact E3|reflexivity]|injection E as _ <-; reflexivity]). }
  destruct X as (o3 & us & E3 & ->).
  apply (te_calcs_exact f loc pd bd rows fg m) in E3; [|unfold fg; destruct m; [left|right|congruence]; auto|reflexivity].
  destruct E3 as (_ & _ & _ & E4).
  assert (LV : length us = Z.to_nat n) by (apply (f_equal (@length _)) in E4; rewrite !map_length, seq_length in E4; exact E4).
  rewrite map_length. split; [exact LV|]. intros i Hi.
  apply (f_equal (fun l => nth i l None)) in E4. rewrite <- (map_map val_of Some) in E4.
  rewrite (nth_indep _ None (Some NonFin)) in E4 by (rewrite !map_length; exact Hi). rewrite (map_nth Some) in E4.
  rewrite E4. rewrite LV in Hi. set (F := fun i => fl_of _).
  rewrite (nth_indep _ None (F 0%nat)) by (rewrite map_length, seq_length; exact Hi). rewrite map_nth, seq_nth by exact Hi.
  unfold F, rand_of. cbn [set_flag fresh o_rng o_data]. destruct m; [reflexivity|reflexivity|congruence].
Qed.

(** For the discrete TE: each permutation test value is the TE with the source histories in another
    order, destination history and future untouched. *)
Theorem C33_discrete_te_surrogates b pd bd (xs ys : list Z) l k s r n o' g vs :
  legal pd bd -> valid_base b -> length ys = length xs -> (1 <= l)%nat -> (1 <= k)%nat -> (1 <= s)%nat ->
  (Nat.max k l * s < length xs)%nat -> small2 (length xs) ->
  run_op never (klass_te_discrete pd bd (te_rows (length xs) l k s) b (I l) (I k) (I s)) pd bd
    (OpTest (NInt n) MPermute) (fresh [A1 xs; A1 ys] r) = (o', inr (ATest g vs)) ->
  length vs = Z.to_nat n /\ Forall (fun v => exists sh', Permutation sh' (te_sh xs l k s) /\
    v = Fin (CMI (te_df ys l k s) sh' (te_dh ys l k s) / unit_of b)) vs.
Proof.
  intros LG V Ld Hl Hk Hs Hd SM E. apply C33_te_surrogates in E; [|discriminate]. destruct E as [LV HV]. split; [exact LV|].
  apply Forall_forall. intros v Hv. apply (In_nth _ _ NonFin) in Hv. destruct Hv as (i & Hi & <-).
  specialize (HV i Hi).
  pose proof (te_eval_ok b pd bd xs ys l k s FPermute (r + i) LG V Ld Hl Hk Hs Hd SM) as T. cbv zeta in T. cbv iota in T.
  rewrite T in HV. cbn in HV. injection HV as <-.
  eexists. split; [|reflexivity]. apply perm_by_index. unfold te_sh. rewrite flat_pasts_length, base_times_length. apply LG.
Qed.
Print Assumptions C33_discrete_te_surrogates.

(** Refuted for CTE, for every approach and all data: the randomisation flags never reach the
    computation, so every test value equals the observed value, the p-value is 0 and the effective
    value is 0. *)
Theorem C33_cte_not_randomised_refuted f loc pd bd data r n m o' g vs : m <> MUnknown ->
  run_op never (klass_cte f loc) pd bd (OpTest (NInt n) m) (fresh data r) = (o', inr (ATest g vs)) ->
  Forall (fun v => v = g) vs.
Proof.
  intros Hm E. cbn [run_op] in E. unfold mmap, statistical_test, mbind in E.
  destruct (statistical_test_values never (klass_cte f loc) pd bd (NInt n) m (fresh data r)) as [o1 [e|ws]] eqn:E1; [discriminate|].
  destruct (global_val never _ o1) as [o2 [e|g2]] eqn:EG; [discriminate|].
  destruct (Nat.ltb (length ws) 2); [discriminate|]. injection E as _ -> ->. rename E1 into E.
  unfold statistical_test_values in E. cbn [pos_int] in E. destruct (Z.ltb_spec 0 n) as [Hn|]; [|discriminate].
  cbn [k_te klass_cte] in E. unfold test_te in E.
  assert (X : exists fg o3 us, repeatM (Z.to_nat n) (run_calc never (klass_cte f loc)) (set_flag (fresh data r) fg) = (o3, inr us) /\
     vs = map val_of us /\ o1 = set_flag o3 FOff).
  { destruct m; [exists FPermute|exists FResample|congruence]; unfold mbind, upd, ret in E;
      match type of E with context [repeatM ?k ?q ?st] => destruct (repeatM k q st) as [o3 [e|us]] eqn:E3; [discriminate|] end;
      exists o3, us; (split; [first [exact E3|reflexivity]|injection E as <- <-; split; reflexivity]). }
  destruct X as (fg & o3 & us & E3 & -> & ->).
  assert (Q : o_data o3 = data /\ o_glob o3 = None /\ Forall (fun p => inr p = of_res (f data)) us).
  { clear E EG. revert E3. generalize (set_flag (fresh data r) fg) (eq_refl : o_data (set_flag (fresh data r) fg) = data)
      (eq_refl : o_glob (set_flag (fresh data r) fg) = None). revert us. induction (Z.to_nat n) as [|k IH]; intros us o D G; cbn [repeatM].
    - unfold ret. intros Q. injection Q as <- <-. auto.
    - unfold mbind. rewrite (eq_refl : run_calc never (klass_cte f loc) o = (set_rng (tick o) (o_rng o), of_res (f (o_data o)))).
      rewrite D. destruct (of_res (f data)) as [e|pv] eqn:EP; [discriminate|].
      destruct (repeatM k _ _) as [o4 [e|us']] eqn:E4; [discriminate|]. unfold ret. intros Q. injection Q as <- <-.
      destruct (IH us' (set_rng (tick o) (o_rng o)) D G E4) as (A1 & A2 & A3). split; [exact A1|]. split; [exact A2|]. constructor; [reflexivity|exact A3]. }
  destruct Q as (D3 & G3 & F3).
  unfold global_val, mbind, read, calculate, mbind, run_calc, never in EG. cbn [o_glob set_flag] in EG. rewrite G3 in EG.
  cbn [o_data o_flag o_rng tick set_flag k_calc klass_cte] in EG. rewrite D3 in EG.
  destruct (of_res (f data)) as [e|pv] eqn:EP; [discriminate|].
  assert (GV : val_of pv = g) by (destruct pv; cbn in EG; try discriminate EG; injection EG as _ <-; reflexivity).
  apply Forall_forall. intros v Hv. apply in_map_iff in Hv. destruct Hv as (p & <- & Hp).
  rewrite Forall_forall in F3. specialize (F3 p Hp). injection F3 as ->. exact GV.
Qed.
Print Assumptions C33_cte_not_randomised_refuted.

(** Refuted for ordinal MI and CMI, all data: [_calculate] uses the symbols computed in the
    constructor, so the shuffled data are never looked at. *)
Theorem C33_ordinal_mi_not_randomised_refuted v loc pd bd x y r n m o' g vs :
  run_op never (klass_mi_precomputed v loc) pd bd (OpTest (NInt n) m) (fresh [x; y] r) = (o', inr (ATest g vs)) ->
  Forall (fun w => w = g) vs.
Proof.
  intros E.
  assert (E' : run_op never (klass_mi (fun _ => v) (fun _ => loc)) pd bd (OpTest (NInt n) m) (fresh [x; y] r) = (o', inr (ATest g vs))) by exact E.
  clear E. rename E' into E. pose proof E as E0.
  cbn [run_op] in E. unfold mmap, statistical_test, mbind in E.
  set (K := klass_mi (fun _ => v) (fun _ => loc)) in *.
  destruct (statistical_test_values never K pd bd (NInt n) m (fresh [x; y] r)) as [o1 [e|ws]] eqn:E1; [discriminate|].
  destruct (global_val never K o1) as [o2 [e|g2]] eqn:EG; [discriminate|].
  destruct (Nat.ltb (length ws) 2); [discriminate|]. injection E as _ -> ->.
  pose proof (tri_values never K pd bd (NInt n) m (fresh [x; y] r)) as _.
  assert (GV : forall o g', o_glob o = None -> snd (global_val never K o) = inr g' -> fl_of v = Some g').
  { intros o g' G. unfold global_val, mbind, read, calculate, mbind, run_calc, never. rewrite G.
    cbn [o_data o_flag o_rng tick k_calc K klass_mi]. unfold fl_of. destruct (of_res v) as [e|pv]; [discriminate|].
    destruct pv; cbn; intros Q; try discriminate Q; injection Q as <-; reflexivity. }
  assert (G1 : o_glob o1 = None).
  { unfold statistical_test_values in E1. cbn [pos_int] in E1. destruct (Z.ltb_spec 0 n) as [Hn|]; [|discriminate].
    cbn [k_te K klass_mi] in E1. unfold mbind at 1, read in E1. cbn [fresh o_data length Nat.eqb] in E1.
    unfold test_mi, mbind at 1, upd in E1.
    destruct m; [| |discriminate]; unfold mbind, ret in E1; cbn [fresh o_data] in E1;
      (match type of E1 with context [repeatM ?k ?q ?st] => destruct (repeatM k q st) as [o3 [e|us]] eqn:E3; [discriminate|] end);
      apply (mi_surrogates_exact _ _ _ _ x y) in E3; try reflexivity; destruct E3 as (A1 & A2 & _);
      rewrite A1 in E1; injection E1 as <- _; cbn [set_data o_glob]; rewrite A2; reflexivity. }
  assert (GV' : fl_of v = Some g) by (apply (GV o1); [exact G1|rewrite EG; reflexivity]).
  destruct m; [| |].
  3: { unfold statistical_test_values in E1. cbn [pos_int] in E1. destruct (Z.ltb_spec 0 n); discriminate. }
  all: unfold statistical_test_values in E1; cbn [pos_int] in E1; destruct (Z.ltb_spec 0 n) as [Hn|]; [|discriminate];
    cbn [k_te K klass_mi] in E1; unfold mbind at 1, read in E1; cbn [fresh o_data length Nat.eqb] in E1;
    unfold test_mi, mbind at 1, upd in E1; unfold mbind, ret in E1; cbn [fresh o_data] in E1;
    (match type of E1 with context [repeatM ?k ?q ?st] => destruct (repeatM k q st) as [o3 [e|us]] eqn:E3; [discriminate|] end);
    apply (mi_surrogates_exact _ _ _ _ x y) in E3; try reflexivity; destruct E3 as (_ & _ & _ & _ & A5);
    injection E1 as _ ->; apply Forall_forall; intros w Hw; apply (in_map Some) in Hw; rewrite A5 in Hw;
    apply in_map_iff in Hw; destruct Hw as (i & Q & _); rewrite GV' in Q; injection Q as <-; reflexivity.
Qed.

(** the statistic such a test reports: p = 0 and no t-score *)
Theorem C33_degenerate_test_p_zero g (vs : list R) : (2 <= length vs)%nat -> Forall (fun v => v = g) vs ->
  exists t, stat_result g vs = Ok t /\ t_p t = 0 /\ t_score t = None.
Proof.
  intros L F. destruct (stat_result_ok g vs L) as (t & E & _ & _ & _ & P & _ & _ & _ & S & _). exists t. split; [exact E|].
  rewrite Forall_forall in F. split.
  - rewrite P. replace (filter _ vs) with (@nil R); [simpl; unfold Rdiv; ring|]. symmetry. clear -F.
    induction vs as [|v vs IH]; [reflexivity|]. simpl. rewrite (F v (or_introl eq_refl)).
    destruct (Rlt_dec g g); [lra|]. apply IH. intros w Hw. apply F. right. exact Hw.
  - apply S. intros v w Hv Hw. rewrite (F v Hv), (F w Hw). reflexivity.
Qed.

(** ** C35: test results *)
Theorem C35_result_well_formed obs (vs : list R) : (2 <= length vs)%nat ->
  exists t, stat_result obs vs = Ok t /\ t_values t = vs /\ t_observed t = obs /\
    t_p t = INR (length (filter (fun v => if Rlt_dec obs v then true else false) vs)) / INR (length vs) /\
    0 <= t_p t <= 1 /\
    (forall lo hi, (forall v, In v vs -> lo <= v <= hi) -> lo <= t_mean t <= hi) /\
    (t_score t = None <-> (forall v w, In v vs -> In w vs -> v = w)) /\
    (forall z, t_score t = Some z -> z * t_std t = obs - t_mean t).
Proof.
  intros L. destruct (stat_result_ok obs vs L) as (t & E & V & O & M & P & P01 & S0 & SS & TS & TV).
  exists t. split; [exact E|]. split; [exact V|]. split; [exact O|]. split; [exact P|]. split; [exact P01|].
  split; [|split; [exact TS|rewrite M; exact TV]].
  intros lo hi H. rewrite M. apply mean_bounds; [destruct vs; [simpl in L; lia|discriminate]|exact H].
Qed.
Print Assumptions C35_result_well_formed.

(** requests for at least two tests succeed; a single test (although "positive integer" is all that is
    required) always ends in ValueError *)
Theorem C35_requests K pd bd data r n m : calm K pd bd data -> pure K data ->
  (k_te K = true \/ length data = 2%nat) -> m <> MUnknown -> G0 K data <> None ->
  ((2 <= n)%Z -> exists g vs, snd (run_op never K pd bd (OpTest (NInt n) m) (fresh data r)) = inr (ATest g vs) /\ length vs = Z.to_nat n) /\
  (n = 1%Z -> snd (run_op never K pd bd (OpTest (NInt n) m) (fresh data r)) = inl ValueError) /\
  ((n <= 0)%Z -> snd (run_op never K pd bd (OpTest (NInt n) m) (fresh data r)) = inl ValueError).
Proof.
  intros C P HD Hm HG.
  assert (X : (0 < n)%Z -> exists o1 vs, statistical_test_values never K pd bd (NInt n) m (fresh data r) = (o1, inr vs) /\ length vs = Z.to_nat n /\
     o_data o1 = data /\ o_flag o1 = FOff).
  { intros Hn. pose proof (values_restore K pd bd data (NInt n) m (fresh data r) C eq_refl eq_refl) as VR.
    assert (Y : exists o1 vs, statistical_test_values never K pd bd (NInt n) m (fresh data r) = (o1, inr vs) /\ length vs = Z.to_nat n).
    { unfold statistical_test_values. cbn [pos_int]. rewrite (proj2 (Z.ltb_lt 0 n) Hn). destruct (k_te K) eqn:Kt.
      - unfold test_te. assert (Z1 : forall fg, exists o' vs, repeatM (Z.to_nat n) (run_calc never K) (set_flag (fresh data r) fg) = (o', inr vs) /\ length vs = Z.to_nat n).
        { intros fg. destruct (calcs_run K pd bd fg (Z.to_nat n) (set_flag (fresh data r) fg)) as (o' & vs & E & L & _); [exact C|exact Kt|reflexivity|].
          exists o', vs. split; assumption. }
        destruct m; [destruct (Z1 FPermute) as (o' & vs & E & L)|destruct (Z1 FResample) as (o' & vs & E & L)|congruence];
          unfold mbind, upd; rewrite E; (do 2 eexists; split; [reflexivity|rewrite map_length; exact L]).
      - destruct HD as [HD|HD]; [congruence|]. destruct data as [|x [|y [|]]]; try discriminate.
        unfold mbind at 1, read. cbn [fresh o_data length Nat.eqb]. unfold test_mi.
        destruct (surrogates_run K pd bd x y m (Z.to_nat n) (set_orig (fresh [x; y] r) (Some [x; y])) Kt C eq_refl eq_refl) as (o' & vs & E & L & _).
        destruct m; [| |congruence]; unfold mbind, upd; cbn [fresh o_data]; cbn [fresh] in E; rewrite E; (do 2 eexists; split; [reflexivity|exact L]). }
    destruct Y as (o1 & vs & E & L). rewrite E in VR. destruct VR as (D1 & F1 & _). exists o1, vs. auto. }
  assert (GV : forall o, o_data o = data -> o_flag o = FOff -> exists o2 g, global_val never K o = (o2, inr g)).
  { intros o D F. unfold global_val, mbind, read. destruct (o_glob o) as [x|]; [do 2 eexists; reflexivity|].
    unfold calculate, mbind, run_calc, never. cbn [o_data o_flag o_rng tick]. rewrite D, F.
    destruct (P (o_rng o)) as [P1 _]. unfold G0 in HG. rewrite <- P1 in HG.
    destruct (k_calc K data FOff (o_rng o)) as [r' [e|v]]; cbn in HG; [congruence|].
    destruct v; cbn; [do 2 eexists; reflexivity|do 2 eexists; reflexivity|congruence]. }
  split; [|split].
  - intros Hn. destruct X as (o1 & vs & E & L & D1 & F1); [lia|]. destruct (GV o1 D1 F1) as (o2 & g & EG).
    exists g, vs. cbn [run_op]. unfold mmap, statistical_test, mbind. rewrite E, EG.
    destruct (Nat.ltb_spec (length vs) 2); [lia|]. split; [reflexivity|exact L].
  - intros ->. destruct X as (o1 & vs & E & L & D1 & F1); [lia|]. destruct (GV o1 D1 F1) as (o2 & g & EG).
    cbn [run_op]. unfold mmap, statistical_test, mbind. rewrite E, EG.
    destruct (Nat.ltb_spec (length vs) 2); [reflexivity|]. change (Z.to_nat 1) with 1%nat in L. lia.
  - intros Hn. cbn [run_op]. unfold mmap, statistical_test, mbind, statistical_test_values. cbn [pos_int].
    destruct (Z.ltb_spec 0 n); [lia|reflexivity].
Qed.
Print Assumptions C35_requests.

(** ** The hypotheses above are met: four observations, a draw that swaps two rows *)
Definition id_draw (r n : nat) : list nat := seq 0 n.
Lemma id_boot_legal : legal_boot id_draw.
Proof. intros r n. split; [apply seq_length|]. apply Forall_forall. intros j Hj. apply in_seq in Hj. lia. Qed.
Lemma ex_legal : legal swap_draw id_draw.
Proof. split; [apply swap_legal|apply id_boot_legal]. Qed.

Example C33_C34_C35_mi_example : let K := klass_mi_discrete BE in let d := [A1 [0;0;1;1]; A1 [0;0;1;1]]%Z in
  calm K swap_draw id_draw d /\ pure K d /\ G0 K d <> None /\
  exists o' g vs, run_op never K swap_draw id_draw (OpTest (NInt 3) MPermute) (fresh d 0) = (o', inr (ATest g vs)) /\ length vs = 3%nat.
Proof.
  intros K d. assert (S4 : small2 4) by (unfold small2; lia).
  destruct (C34_discrete_mi BE swap_draw id_draw [0;0;1;1]%Z [0;0;1;1]%Z Logic.I eq_refl ltac:(discriminate) S4 ex_legal) as [C P].
  assert (G : G0 K d <> None).
  { unfold G0, K, d, klass_mi_discrete, klass_mi. cbn [k_calc snd].
    rewrite (mi_global_1d BE [0;0;1;1]%Z [0;0;1;1]%Z Logic.I eq_refl ltac:(discriminate) S4). discriminate. }
  split; [exact C|]. split; [exact P|]. split; [exact G|].
  destruct (C35_requests K swap_draw id_draw d 0%nat 3 MPermute C P (or_intror eq_refl) ltac:(discriminate) G) as (R & _).
  destruct (R ltac:(lia)) as (g & vs & E & L).
  destruct (run_op never K swap_draw id_draw (OpTest (NInt 3) MPermute) (fresh d 0)) as [o' a]. cbn [snd] in E. subst a.
  exists o', g, vs. split; [reflexivity|exact L].
Qed.

Example C33_C34_C35_te_example : let K := klass_te_discrete swap_draw id_draw (te_rows 5 1 1 1) BE (I 1) (I 1) (I 1) in let d := [A1 [0;0;1;1;0]; A1 [0;1;1;0;1]]%Z in
  calm K swap_draw id_draw d /\ pure K d /\ G0 K d <> None /\
  exists o' g vs, run_op never K swap_draw id_draw (OpTest (NInt 3) MBootstrap) (fresh d 0) = (o', inr (ATest g vs)) /\ length vs = 3%nat.
Proof.
  intros K d. assert (S5 : small2 5) by (unfold small2; lia).
  destruct (C34_discrete_te BE swap_draw id_draw [0;0;1;1;0]%Z [0;1;1;0;1]%Z 1 1 1 ex_legal Logic.I eq_refl ltac:(lia) ltac:(lia) ltac:(lia) ltac:(simpl; lia) S5) as [C P].
  assert (G : G0 K d <> None).
  { assert (E := te_eval_ok BE swap_draw id_draw [0;0;1;1;0]%Z [0;1;1;0;1]%Z 1 1 1 FOff 0 ex_legal Logic.I eq_refl ltac:(lia) ltac:(lia) ltac:(lia) ltac:(simpl; lia) S5).
    cbv zeta iota in E. unfold G0, K, d, klass_te_discrete, klass_te. cbn [k_calc snd]. rewrite E. discriminate. }
  split; [exact C|]. split; [exact P|]. split; [exact G|].
  destruct (C35_requests K swap_draw id_draw d 0%nat 3 MBootstrap C P (or_introl eq_refl) ltac:(discriminate) G) as (R & _).
  destruct (R ltac:(lia)) as (g & vs & E & L).
  destruct (run_op never K swap_draw id_draw (OpTest (NInt 3) MBootstrap) (fresh d 0)) as [o' a]. cbn [snd] in E. subst a.
  exists o', g, vs. split; [reflexivity|exact L].
Qed.
