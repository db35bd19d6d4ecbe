(** Property theorems: consistency of the discrete estimators under replication of the data (C86). *)
From Coq Require Import Reals Lra Lia List ZArith Arith Bool Permutation.
From Coquelicot Require Import Rbar Lim_seq.
From Verif Require Import Res RSum Spec SpecGamma SpecEst SpecInput SpecRepl Info Info2 MBase MData MEntropy MMI MGeneric MEst SpecBase PBase PEntropy PCoo PMI PMI2 PMI3 PMI4 PGeneric PGeneric2 PropsGeneric PLog PEst PEst2 PEst3 PEst4 PEst5 PEst6 PropsEst PropsInv PRepl.
Import ListNotations.
Local Open Scope R_scope.

Lemma rep_map {A B} (f : A -> B) m xs : rep m (map f xs) = map f (rep m xs).
Proof. induction m as [|m IH]; [reflexivity|]. unfold rep in *. simpl. rewrite map_app, IH. reflexivity. Qed.
Lemma rep_len {A} m (xs : list A) : length (rep m xs) = (m * length xs)%nat.
Proof. induction m as [|m IH]; [reflexivity|]. unfold rep in *. simpl. rewrite app_length, IH. reflexivity. Qed.
Lemma copies_rows m a : arr_rows (copies m a) = rep m (arr_rows a).
Proof. destruct a; simpl; [symmetry; apply rep_map|reflexivity]. Qed.
Lemma copies_len m a : arr_len (copies m a) = (m * arr_len a)%nat.
Proof. destruct a; simpl; apply rep_len. Qed.
Lemma input_copies_size m i : input_size (input_copies m i) = (m * input_size i)%nat.
Proof. destruct i as [a|[|a l]]; simpl; [apply copies_len|lia|apply copies_len]. Qed.

Lemma rep_joint m n (cols : list (list (list Z))) : List.Forall (fun c => length c = n) cols ->
  map (fun t => concat (map (fun c => nth t (rep m c) []) cols)) (seq 0 (m * n)) =
  rep m (map (fun t => concat (map (fun c => nth t c []) cols)) (seq 0 n)).
Proof.
  intros F. rewrite Forall_forall in F. induction m as [|m IH]; [reflexivity|].
  change (rep (S m) ?l) with (l ++ rep m l). rewrite <- IH. cbn [Nat.mul]. rewrite seq_app, map_app. f_equal.
  - apply map_ext_in. intros t Ht. apply in_seq in Ht. f_equal. apply map_ext_in. intros c Hc.
    change (rep (S m) c) with (c ++ rep m c). apply app_nth1. rewrite (F c Hc). lia.
  - assert (SH : forall k a, seq (n + a) k = map (fun t => (n + t)%nat) (seq a k)).
    { induction k as [|k IHk]; intros a; simpl; [reflexivity|]. f_equal. rewrite <- IHk. f_equal. lia. }
    replace (0 + n)%nat with (n + 0)%nat by lia. rewrite SH, map_map. apply map_ext. intros t. f_equal. apply map_ext_in. intros c Hc.
    change (rep (S m) c) with (c ++ rep m c). rewrite app_nth2 by (rewrite (F c Hc); lia). f_equal. rewrite (F c Hc). lia.
Qed.

Lemma sample_copies m i : SpecInput.usable i -> sample (input_copies m i) = rep m (sample i).
Proof.
  intros [Hn F]. destruct i as [a|cols]; [apply copies_rows|].
  unfold sample. rewrite input_copies_size. cbn [input_copies]. set (n := input_size (ETuple cols)) in *.
  pose proof (rep_joint m n (map arr_rows cols)) as J. unfold sample in J.
  transitivity (map (fun t => concat (map (fun c => nth t (rep m c) []) (map arr_rows cols))) (seq 0 (m * n))).
  - apply map_ext. intros t. f_equal. rewrite !map_map. apply map_ext. intros c. rewrite copies_rows. reflexivity.
  - rewrite J.
    + f_equal. apply map_ext. intros t. f_equal. rewrite map_map. reflexivity.
    + rewrite Forall_forall in *. intros c Hc. apply in_map_iff in Hc. destruct Hc as (x & <- & Hx). rewrite arr_rows_length. apply F, Hx.
Qed.

Lemma copies_usable m i : SpecInput.usable i -> SpecInput.usable (input_copies (S m) i).
Proof.
  intros [Hn F]. split; [rewrite input_copies_size; nia|]. destruct i as [a|cols]; [exact Logic.I|].
  cbn [input_copies]. change (ETuple (map (copies (S m)) cols)) with (input_copies (S m) (ETuple cols)).
  rewrite input_copies_size. rewrite Forall_forall in *. intros c Hc. apply in_map_iff in Hc. destruct Hc as (x & <- & Hx).
  rewrite copies_len, (F x Hx). reflexivity.
Qed.

(** the value on m+1 copies is [h m] and the sequence h converges to the plug-in entropy of the data *)
Definition consistent (e : est) (b : base) (i : einput) : Prop :=
  exists h, (forall m, entropy_of e b (input_copies (S m) i) = Ok (h m)) /\ Un_cv h (Ent (sample i) / unit_of b).

Lemma consistent_from e b i (F : list (list Z) -> R) : SpecInput.usable i ->
  (forall j, SpecInput.usable j -> entropy_of e b j = Ok (F (sample j) / unit_of b)) ->
  is_lim_seq (fun m => F (rep (S m) (sample i))) (Ent (sample i)) -> consistent e b i.
Proof.
  intros U C L. exists (fun m => F (rep (S m) (sample i)) / unit_of b). split.
  - intros m. rewrite C by (apply copies_usable; exact U). rewrite sample_copies by exact U. reflexivity.
  - apply is_lim_seq_Reals. unfold Rdiv. apply is_lim_seq_mult'; [exact L|apply is_lim_seq_const].
Qed.

Theorem C86_entropy_consistent b i a : valid_base b -> 0 < a -> SpecInput.usable i ->
  List.Forall (fun e => consistent e b i)
    [est_discrete; est_mm; est_shrink; est_zhang; est_chao_shen; est_cwj; est_bonachela; est_grassberger; est_bayes (AlphaNum a) None].
Proof.
  intros V Ha U. pose proof (sample_ne i U) as NE. repeat apply List.Forall_cons; [| | | | | | | | |apply List.Forall_nil].
  - apply (consistent_from _ _ _ Ent); [exact U|intros j W; apply discrete_closed; assumption|].
    apply (is_lim_seq_ext (fun _ => Ent (sample i))); [intros m; symmetry; apply rep_Ent; try exact NE; lia|apply is_lim_seq_const].
  - apply (consistent_from _ _ _ (fun xs => Ent xs + (INR (nvals xs) - 1) / (2 * INR (length xs)))); [exact U| |apply mm_lim; exact NE].
    intros j W. rewrite est_mm_closed by assumption. rewrite (sample_length j W). reflexivity.
  - apply (consistent_from _ _ _ ShrinkH); [exact U|intros j W; apply C43_shrink_closed_form; assumption|apply shrink_lim; exact NE].
  - apply (consistent_from _ _ _ ZhangH); [exact U|intros j W; apply C46_zhang_closed_form; assumption|apply zhang_lim; exact NE].
  - apply (consistent_from _ _ _ ChaoShenH); [exact U|intros j W; apply C47_chao_shen_closed_form; assumption|apply chao_shen_lim; exact NE].
  - apply (consistent_from _ _ _ ChaoWangJostH); [exact U|intros j W; apply C48_cwj_closed_form; assumption|apply cwj_lim; exact NE].
  - apply (consistent_from _ _ _ BonachelaH); [exact U|intros j W; apply C49_bonachela_closed_form; assumption|apply bonachela_lim; exact NE].
  - apply (consistent_from _ _ _ GrassbergerH); [exact U|intros j W; apply C49_grassberger_closed_form; assumption|apply grassberger_lim; exact NE].
  - apply (consistent_from _ _ _ (fun xs => BayesH a (INR (nvals xs)) xs)); [exact U|intros j W; apply C45_bayes_closed_form; assumption|apply bayes_lim; assumption].
Qed.
Print Assumptions C86_entropy_consistent.

(** the plug-in value itself does not change at all *)
Theorem C86_discrete_exact b i m : valid_base b -> SpecInput.usable i -> (0 < m)%nat ->
  entropy_of est_discrete b (input_copies m i) = entropy_of est_discrete b i.
Proof.
  intros V U Hm. destruct m as [|m]; [lia|]. pose proof (copies_usable m i U) as W.
  rewrite !discrete_closed by assumption. rewrite sample_copies by exact U. rewrite rep_Ent by lia; reflexivity.
Qed.

(** Miller-Madow: the bias term falls exactly as 1/m *)
Theorem C86_miller_madow_rate b i m : valid_base b -> SpecInput.usable i -> (0 < m)%nat ->
  exists h hm, entropy_of est_mm b i = Ok h /\ entropy_of est_mm b (input_copies m i) = Ok hm /\
    hm - Ent (sample i) / unit_of b = (h - Ent (sample i) / unit_of b) / INR m.
Proof.
  intros V U Hm. destruct m as [|m]; [lia|]. pose proof (copies_usable m i U) as W.
  eexists. eexists. split; [apply est_mm_closed; assumption|]. split; [apply est_mm_closed; assumption|].
  rewrite sample_copies by exact U. rewrite rep_Ent by lia. rewrite rep_nvals by lia.
  rewrite input_copies_size, mult_INR.
  assert (INR (S m) <> 0) by (apply not_0_INR; lia). assert (INR (input_size i) <> 0) by (apply not_0_INR; destruct U; lia).
  pose proof (unit_neq0 b V). field. auto.
Qed.

(** ANSB: the value grows without bound *)
Theorem C86_ansb_diverges b i : big_base b -> SpecInput.usable i ->
  exists h, (forall m, entropy_ansb None b (input_copies (S (S m)) i) = Ok (h m)) /\ cv_infty h.
Proof.
  intros B U. pose proof (sample_ne i U) as NE. pose proof (big_unit b B) as P.
  exists (fun m => AnsbH (rep (S (S m)) (sample i)) / unit_of b). split.
  - intros m. rewrite C49_ansb_closed_form by (auto using big_valid, copies_usable).
    rewrite sample_copies by exact U. rewrite rep_nvals by lia. rewrite input_copies_size, <- (sample_length i U).
    assert (L : (nvals (sample i) <= length (sample i))%nat).
    { unfold nvals, distinct. apply NoDup_incl_length; [apply NoDup_nodup|]. intros v Hv. apply nodup_In in Hv. exact Hv. }
    destruct (sample i) as [|r l]; [congruence|]. cbn [length] in *.
    rewrite (proj2 (Nat.ltb_lt _ _)); [reflexivity|nia].
  - intros M. pose proof (ansb_diverges (sample i) NE) as D. apply (is_lim_seq_incr_1 (fun m => AnsbH (rep (S m) (sample i)))) in D.
    apply is_lim_seq_spec in D. destruct (D (M * unit_of b)) as [N0 HN]. exists N0. intros m Hm. specialize (HN m Hm). cbv beta in HN.
    apply (Rmult_lt_reg_r (unit_of b)); [exact P|]. unfold Rdiv. rewrite Rmult_assoc, Rinv_l by lra. lra.
Qed.
Theorem C86_ansb_consistent_refuted b i : big_base b -> SpecInput.usable i -> ~ consistent (est_ansb None) b i.
Proof.
  intros B U (h & E & L). destruct (C86_ansb_diverges b i B U) as (g & G & D).
  destruct (L 1 ltac:(lra)) as [n1 H1]. destruct (D (Ent (sample i) / unit_of b + 1)) as [n2 H2].
  set (m := (n1 + n2)%nat). specialize (H1 (S m) ltac:(unfold m; lia)). specialize (H2 m ltac:(unfold m; lia)).
  pose proof (G m) as Gm. pose proof (E (S m)) as Em. unfold entropy_ansb in Gm. rewrite Em in Gm.
  assert (EQ : h (S m) = g m) by congruence. rewrite EQ in H1. unfold R_dist in H1. apply Rabs_def2 in H1. lra.
Qed.
Print Assumptions C86_ansb_consistent_refuted.

(** mutual information of any number of variables and any of the approaches: convergence to the plug-in MI *)
Theorem C86_mi_consistent b a vars n : valid_base b -> 0 < a -> (2 <= length vars)%nat -> (0 < n)%nat ->
  List.Forall (fun x => arr_len x = n) vars ->
  List.Forall (fun e => exists v, (forall m, gen_mi e b (Some 0%Z) (map (copies (S m)) vars) = Ok (v m)) /\
     Un_cv (fun m => value_global (v m)) ((sumf (fun x => Ent (arr_rows x)) vars - Ent (sample (ETuple vars))) / unit_of b)) (approaches a).
Proof.
  intros V Ha H2 Hn F. pose proof (approaches_good b a V Ha) as G. rewrite Forall_forall in *.
  assert (NV : vars <> []) by (intros ->; simpl in H2; lia).
  assert (UT : SpecInput.usable (ETuple vars)) by (apply (usable_tup n); [exact Hn|exact NV|rewrite Forall_forall; exact F]).
  intros e He. destruct (G e He) as [HL _].
  assert (CE : forall i, SpecInput.usable i -> consistent e b i).
  { intros i U. pose proof (C86_entropy_consistent b i a V Ha U) as X. rewrite Forall_forall in X. apply X.
    unfold approaches in He. simpl in *. tauto. }
  assert (X : forall m, exists v, gen_mi e b (Some 0%Z) (map (copies (S m)) vars) = Ok v /\
    (forall (g : arr -> R) t, (forall x, In x vars -> entropy_of e b (input_copies (S m) (EArr x)) = Ok (g x)) ->
       entropy_of e b (input_copies (S m) (ETuple vars)) = Ok t -> value_global v = sumf g vars - t)).
  { intros m. destruct (C25_mi_from_entropies e b (map (copies (S m)) vars) (S m * n) HL) as (H & v & A1 & A2 & A3 & A4 & _);
      [rewrite map_length; exact H2| |nia|].
    - rewrite Forall_forall. intros x Hx. apply in_map_iff in Hx. destruct Hx as (y & <- & Hy). rewrite copies_len, (F y Hy). reflexivity.
    - exists v. split; [exact A3|]. intros g t Hg Ht. rewrite A4. cbn [input_copies] in Ht. rewrite A2 in Ht.
      apply Ok_eq in Ht. rewrite Ht. f_equal. rewrite sumf_map. apply sumf_ext. intros x Hx. apply Ok_eq.
      rewrite <- (A1 (copies (S m) x)) by (apply in_map; exact Hx). apply Hg, Hx. }
  assert (GE : exists g : arr -> nat -> R, forall x, In x vars -> (forall m, entropy_of e b (input_copies (S m) (EArr x)) = Ok (g x m)) /\
      Un_cv (g x) (Ent (arr_rows x) / unit_of b)).
  { assert (NX : forall x m, In x vars -> exists r, entropy_of e b (input_copies (S m) (EArr x)) = Ok r).
    { intros x m Hx. destruct (CE (EArr x)) as (h & E & _); [apply usable_arr; rewrite (F x Hx); exact Hn|]. exists (h m). apply E. }
    exists (fun x m => match entropy_of e b (input_copies (S m) (EArr x)) with Ok r => r | _ => 0 end). intros x Hx.
    destruct (CE (EArr x)) as (h & E & L); [apply usable_arr; rewrite (F x Hx); exact Hn|]. split.
    - intros m. rewrite (E m). reflexivity.
    - intros eps Heps. destruct (L eps Heps) as [N0 HN]. exists N0. intros m Hm. rewrite (E m). apply HN, Hm. }
  destruct GE as [g Hg]. destruct (CE (ETuple vars) UT) as (t & Et & Lt).
  exists (fun m => match gen_mi e b (Some 0%Z) (map (copies (S m)) vars) with Ok v => v | _ => VNum 0 end).
  assert (Y : forall m, exists v, gen_mi e b (Some 0%Z) (map (copies (S m)) vars) = Ok v /\ value_global v = sumf (fun x => g x m) vars - t m).
  { intros m. destruct (X m) as (v & E & K). exists v. split; [exact E|]. apply (K (fun x => g x m)); [intros x Hx; apply Hg, Hx|apply Et]. }
  split.
  - intros m. destruct (Y m) as (v & E & _). rewrite E. reflexivity.
  - apply is_lim_seq_Reals. apply (is_lim_seq_ext (fun m => sumf (fun x => g x m) vars - t m)).
    + intros m. destruct (Y m) as (v & E & K). rewrite E, K. reflexivity.
    + replace ((sumf (fun x => Ent (arr_rows x)) vars - Ent (sample (ETuple vars))) / unit_of b)
        with (sumf (fun x => Ent (arr_rows x) / unit_of b) vars - Ent (sample (ETuple vars)) / unit_of b).
      * apply is_lim_seq_minus'; [|apply is_lim_seq_Reals; exact Lt]. apply (lim_sumf (fun m x => g x m)).
        intros x Hx. apply is_lim_seq_Reals. apply Hg, Hx.
      * unfold Rdiv. rewrite sumf_scal_r. ring.
Qed.
Print Assumptions C86_mi_consistent.

(** a concrete case: (3,3,5) twice over is (3,3,5,3,3,5), and the pair ((3,3,5),(1,2,2)) meets the hypotheses *)
Example C86_example :
  input_copies 2 (EArr (A1 [3; 3; 5]%Z)) = EArr (A1 [3; 3; 5; 3; 3; 5]%Z) /\
  List.Forall (fun x => arr_len x = 3%nat) [A1 [3; 3; 5]%Z; A1 [1; 2; 2]%Z] /\
  nvals (sample (ETuple [A1 [3; 3; 5]%Z; A1 [1; 2; 2]%Z])) = 3%nat.
Proof. split; [reflexivity|]. split; [repeat constructor|reflexivity]. Qed.
