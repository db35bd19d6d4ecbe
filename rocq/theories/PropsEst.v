(** Property theorems: bias-corrected entropy estimators (C06 rest, C25 instances, C43-C49, C55-C57).

    [sample i] (SpecInput) is the list of rows an input denotes, [usable i] says the input has at
    least one row and its columns have the same length.  The closed forms (SpecEst) are in nats. *)
From Coq Require Import Reals Lra Lia List ZArith Arith Bool Permutation Sorted String.
From Verif Require Import Res RSum Spec SpecGamma SpecEst SpecInput Info Info2 Gibbs Ord MBase MData MEntropy MMI MTE MGeneric MEst SpecBase PBase PEntropy PCoo PMI PMI2 PMI3 PCMI PMI4 PCMI2 PMI5 PMI6 PTE PTE2 PGeneric PLog PEst PEst2 PEst3 PEst4 PEst5 PEst6.
Import ListNotations.
Local Open Scope R_scope.
Local Notation length := List.length.

Ltac closed_form L Q :=
  intros; eapply (entropy_of_closed _ _ _ _ _); [intros; apply L; assumption|intros ? SP; apply Q, equi_partition, SP|assumption].

Lemma nonneg_unit b x : big_base b -> 0 <= x -> 0 <= x / unit_of b.
Proof. intros B H. pose proof (Rinv_0_lt_compat _ (big_unit b B)). unfold Rdiv. apply Rmult_le_pos; lra. Qed.
Lemma le_unit b x y : big_base b -> x <= y -> x / unit_of b <= y / unit_of b.
Proof. intros B H. pose proof (Rinv_0_lt_compat _ (big_unit b B)). unfold Rdiv. apply Rmult_le_compat_r; lra. Qed.
Lemma unit_inj b x y : valid_base b -> x / unit_of b = y / unit_of b -> x = y.
Proof.
  intros V E. pose proof (unit_neq0 b V) as U. apply (Rmult_eq_reg_r (/ unit_of b)); [exact E|].
  apply Rinv_neq_0_compat; exact U.
Qed.

(** the plug-in estimator through the same interface *)
Lemma discrete_closed b i : valid_base b -> usable i -> entropy_of est_discrete b i = Ok (Ent (sample i) / unit_of b).
Proof.
  intros V U. destruct (usable_data i U) as (xs & E & NE & SP & _). unfold entropy_of. rewrite E. cbn [bind].
  rewrite (proj1 (discrete_lawful_on b xs V NE)). f_equal. f_equal. symmetry.
  apply equi_Ent; [apply equi_partition, SP|apply sample_ne, U].
Qed.

(** ** C46 Zhang *)
Theorem C46_zhang_closed_form b i : valid_base b -> usable i ->
  entropy_zhang b i = Ok (ZhangH (sample i) / unit_of b).
Proof. closed_form zhang_global @equi_zhang. Qed.
Print Assumptions C46_zhang_closed_form.

Theorem C46_zhang_nonneg b i : big_base b -> usable i -> exists h, entropy_zhang b i = Ok h /\ 0 <= h.
Proof.
  intros B U. eexists. split; [apply C46_zhang_closed_form; auto using big_valid|].
  apply nonneg_unit; [exact B|apply zhang_nonneg].
Qed.

Theorem C46_zhang_constant b (v : Z) n : valid_base b -> (0 < n)%nat -> entropy_zhang b (EArr (A1 (repeat v n))) = Ok 0.
Proof.
  intros V Hn. rewrite C46_zhang_closed_form; [|exact V|split; [simpl; rewrite repeat_length; exact Hn|exact Logic.I]].
  cbn [sample arr_rows]. f_equal. replace (map (fun x => [x]) (repeat v n)) with (repeat [v] n).
  - rewrite zhang_constant. unfold Rdiv. ring.
  - clear. induction n; simpl; congruence.
Qed.

(** non-trivial example: in (3,3,5) the value is 2/3 (1/2) + 1/3 (1 + 1/2) = 5/6 *)
Example C46_example : entropy_zhang BE (EArr (A1 [3; 3; 5]%Z)) = Ok (5 / 6).
Proof.
  rewrite C46_zhang_closed_form; [|exact Logic.I|split; [simpl; lia|exact Logic.I]].
  f_equal. unfold ZhangH, bycount, sample, arr_rows.
  change (distinct (map (fun x => [x]) [3; 3; 5]%Z)) with [[3]; [5]]%Z. cbn [sumf].
  change (count (map (fun x : Z => [x]) [3; 3; 5]%Z) [3]%Z) with 2%nat.
  change (count (map (fun x : Z => [x]) [3; 3; 5]%Z) [5]%Z) with 1%nat. cbn [length map Nat.sub]. rewrite ?harm_S. unfold harm. cbn [seq sumf]. simpl. field.
Qed.

(** ** C06, Zhang and Grassberger *)
Lemma local_lawful e b i xs h : make_data i = Ok (dd_of xs) -> length xs = input_size i ->
  lawful_on e b xs h ->
  (exists ls, local_of e b i = Ok ls /\ length ls = input_size i /\ mean ls = h) \/
  (local_of e b i = Raise UnsupportedOperation \/ local_of e b i = Raise TheoreticalInconsistencyError).
Proof.
  intros E L [_ [(ls & E1 & E2 & E3)|[E1|E1]]]; unfold local_of; rewrite E; cbn [bind];
    [left; exists ls; repeat split; [exact E1|congruence|exact E3]|right; left; exact E1|right; right; exact E1].
Qed.

Theorem C06_zhang_local_mean b i : valid_base b -> usable i ->
  exists ls h, local_of est_zhang b i = Ok ls /\ entropy_zhang b i = Ok h /\
    length ls = input_size i /\ mean ls = h.
Proof.
  intros V U. destruct (usable_data i U) as (xs & E & NE & SP & L).
  assert (Q : exists ls, e_local est_zhang b (dd_of xs) = Ok ls /\ length ls = length xs /\ mean ls = ZhangH xs / unit_of b).
  { destruct (zhang_lawful_on b xs V NE) as [_ [H|H]]; [exact H|exfalso].
    unfold e_local in H. cbn [e_calc e_extract est_zhang] in H. rewrite zhang_ok, zhang_local_ok in H by assumption.
    unfold rmap in H. cbn [bind] in H. destruct H; discriminate. }
  destruct Q as (ls & E1 & E2 & E3). exists ls, (ZhangH xs / unit_of b).
  unfold local_of, entropy_zhang, entropy_of. rewrite E. cbn [bind].
  split; [exact E1|]. split; [apply zhang_global; assumption|]. split; [congruence|exact E3].
Qed.

Theorem C06_grassberger_local_mean b i : valid_base b -> usable i ->
  exists ls h, local_of est_grassberger b i = Ok ls /\ entropy_grassberger b i = Ok h /\
    length ls = input_size i /\ mean ls = h.
Proof.
  intros V U. destruct (usable_data i U) as (xs & E & NE & SP & L).
  exists (map (fun x => grassberger_local xs x / unit_of b) xs), (GrassbergerH xs / unit_of b).
  unfold local_of, entropy_grassberger, entropy_of. rewrite E. cbn [bind]. split; [|split; [|split]].
  - unfold e_local. cbn [e_calc est_grassberger]. rewrite grassberger_ok by assumption. reflexivity.
  - apply grassberger_global; assumption.
  - rewrite map_length. exact L.
  - apply mean_scaled.
Qed.

(** ** C43 shrinkage *)
Theorem C43_shrink_closed_form b i : valid_base b -> usable i ->
  entropy_shrink b i = Ok (ShrinkH (sample i) / unit_of b).
Proof. closed_form shrink_global @equi_shrink. Qed.
Print Assumptions C43_shrink_closed_form.

Theorem C43_shrink_is_distribution i : usable i ->
  0 <= shrink_intensity (sample i) <= 1 /\
  (forall v, In v (sample i) -> 0 < shrunk (sample i) v) /\
  sumf (shrunk (sample i)) (distinct (sample i)) = 1.
Proof.
  intros U. pose proof (sample_ne i U). split; [apply intensity_bounds; assumption|].
  split; [intros; apply shrunk_pos; assumption|apply shrunk_sum; assumption].
Qed.

Theorem C43_shrink_between b i : big_base b -> usable i ->
  exists h s, entropy_of est_discrete b i = Ok h /\ entropy_shrink b i = Ok s /\
    h <= s <= ln (INR (nvals (sample i))) / unit_of b.
Proof.
  intros B U. pose proof (sample_ne i U). exists (Ent (sample i) / unit_of b), (ShrinkH (sample i) / unit_of b).
  split; [apply discrete_closed; auto using big_valid|]. split; [apply C43_shrink_closed_form; auto using big_valid|].
  split; apply le_unit; try exact B; [apply shrink_ge_Ent|apply shrink_le_lnK]; assumption.
Qed.

(** ** C44: shrinkage local values do not average to the shrinkage entropy, and shrinkage MI is
    computed from those means *)
Theorem C44_shrink_local_mean_below b i : big_base b -> usable i ->
  exists ls h, local_of est_shrink b i = Ok ls /\ entropy_shrink b i = Ok h /\
    length ls = input_size i /\ mean ls <= h /\
    (mean ls = h <-> shrink_intensity (sample i) = 1).
Proof.
  intros B U. pose proof (big_valid b B) as V. destruct (usable_data i U) as (xs & E & NE & SP & L).
  pose proof (equi_partition _ _ SP) as Q.
  exists (map (fun x => - (ln (shrunk xs x) / unit_of b)) xs), (ShrinkH xs / unit_of b).
  unfold local_of, entropy_shrink, entropy_of. rewrite E. cbn [bind].
  split; [apply shrink_loc_same; assumption|]. split; [apply shrink_global; assumption|].
  split; [rewrite map_length; exact L|].
  rewrite shrink_local_mean_ok. destruct (shrink_mean_le xs NE) as [H1 H2].
  split; [apply le_unit; assumption|]. rewrite (equi_intensity _ _ Q), <- H2.
  split; [apply unit_inj, V|intros ->; reflexivity].
Qed.

Theorem C44_shrink_local_values_refuted : ~ (forall b i ls h, valid_base b -> usable i ->
  local_of est_shrink b i = Ok ls -> entropy_shrink b i = Ok h -> mean ls = h).
Proof.
  intros H. pose (i := EArr (A1 nine_one)).
  assert (U : usable i) by (split; [simpl; lia|exact Logic.I]).
  destruct (C44_shrink_local_mean_below BE i Logic.I U) as (ls & h & E1 & E2 & _ & _ & E3).
  apply (nine_one_intensity). pose proof (proj1 E3 (H BE i ls h Logic.I U E1 E2)) as X. rewrite <- X. symmetry.
  apply equi_intensity, equi_partition. apply singletons_partition.
Qed.

Theorem C44_shrink_mi_refuted : ~ (forall b x y v hx hy hxy, valid_base b ->
  length x = length y -> x <> [] ->
  gen_mi est_shrink b (Some 0%Z) [A1 x; A1 y] = Ok v ->
  entropy_shrink b (EArr (A1 x)) = Ok hx -> entropy_shrink b (EArr (A1 y)) = Ok hy ->
  entropy_shrink b (ETuple [A1 x; A1 y]) = Ok hxy ->
  value_global v = hx + hy - hxy).
Proof.
  intros H. set (x := nine_one).
  assert (NE : x <> []) by discriminate.
  assert (UJ : usable (ETuple [A1 x; A1 x])) by (split; [simpl; lia|repeat constructor]).
  assert (U1 : usable (EArr (A1 x))) by (split; [simpl; lia|exact Logic.I]).
  destruct (usable_data _ UJ) as (zs & EZ & NZ & SPZ & LZ).
  pose proof (C43_shrink_closed_form BE _ Logic.I U1) as Hx.
  pose proof (C43_shrink_closed_form BE _ Logic.I UJ) as Hxy.
  pose proof (equi_partition _ _ (joint_self_partition x)) as QJ.
  pose proof (equi_partition _ _ (singletons_partition x)) as Q1.
  pose proof (equi_trans _ _ _ (equi_sym _ _ (equi_partition _ _ SPZ)) QJ) as QZ.
  change (sample (EArr (A1 x))) with (map (fun v => [v]) x) in Hx.
  rewrite (equi_shrink _ _ Q1) in Hx. rewrite (equi_shrink _ _ QJ) in Hxy.
  assert (M : forall j, In j ([EArr (A1 x); EArr (A1 x)] ++ [ETuple [A1 x; A1 x]]) ->
     exists xs, make_data j = Ok (dd_of xs) /\ length xs = 10%nat /\
       lawful_on est_shrink_loc BE xs (shrink_local_mean x / unit_of BE)).
  { intros j [<-|[<-|[<-|[]]]].
    - exists x. split; [apply from_data_dd; exact NE|]. split; [reflexivity|]. apply shrink_loc_lawful; [exact Logic.I|exact NE].
    - exists x. split; [apply from_data_dd; exact NE|]. split; [reflexivity|]. apply shrink_loc_lawful; [exact Logic.I|exact NE].
    - exists zs. split; [exact EZ|]. split; [exact LZ|].
      rewrite <- (equi_shrink_lm _ _ QZ). apply shrink_loc_lawful; [exact Logic.I|exact NZ]. }
  destruct (from_entropies_ok est_shrink_loc BE [EArr (A1 x); EArr (A1 x)] [ETuple [A1 x; A1 x]] 10
     (fun _ => shrink_local_mean x / unit_of BE)) as (v & Ev & Vv & _); [discriminate|lia|exact M|].
  rewrite <- (shrink_from_entropies BE _ _ 10) in Ev.
  2: exact Logic.I. 2: lia. 2: { intros j Hj. destruct (M j Hj) as (w & ? & ? & _). exists w. tauto. }
  assert (G : gen_mi est_shrink BE (Some 0%Z) [A1 x; A1 x] = Ok v) by (rewrite <- Ev; reflexivity).
  pose proof (H BE x x v _ _ _ Logic.I eq_refl NE G Hx Hx Hxy) as F. rewrite Vv in F. cbn [sumf unit_of] in F.
  destruct (shrink_mean_le x NE) as [_ I1]. apply nine_one_intensity. apply I1. fold x. lra.
Qed.
Print Assumptions C44_shrink_mi_refuted.

(** ** C45 Bayes *)
Theorem C45_bayes_closed_form b i a : valid_base b -> usable i -> 0 < a ->
  entropy_bayes (AlphaNum a) None b i = Ok (BayesH a (INR (nvals (sample i))) (sample i) / unit_of b).
Proof.
  intros V U Ha. eapply (entropy_of_closed _ _ (fun xs => BayesH a (INR (nvals xs)) xs) (fun xs => BayesH a (INR (nvals xs)) xs));
    [|intros xs SP|exact U].
  - intros xs NE. apply (bayes_lawful_on b a xs V Ha NE).
  - rewrite (equi_nvals _ _ (equi_partition _ _ SP)). apply equi_bayes, equi_partition, SP.
Qed.

Theorem C45_bayes_is_distribution b i a : big_base b -> usable i -> 0 < a ->
  (forall v, In v (sample i) -> 0 < posterior a (INR (nvals (sample i))) (sample i) v) /\
  sumf (posterior a (INR (nvals (sample i))) (sample i)) (distinct (sample i)) = 1 /\
  exists h, entropy_bayes (AlphaNum a) None b i = Ok h /\ 0 <= h <= ln (INR (nvals (sample i))) / unit_of b.
Proof.
  intros B U Ha. pose proof (sample_ne i U) as NE.
  assert (P0 : 0 <= INR (nvals (sample i))) by apply pos_INR.
  split; [intros; apply posterior_pos; assumption|].
  split; [apply posterior_sum1; auto|].
  eexists. split; [apply C45_bayes_closed_form; auto using big_valid|].
  destruct (bayes_bounds (sample i) NE a Ha). split; [apply nonneg_unit; assumption|apply le_unit; assumption].
Qed.
Print Assumptions C45_bayes_is_distribution.

(** with an explicit number of categories [K]: the probabilities sum to one only for the observed number *)
Theorem C45_bayes_explicit_K b i a K : valid_base b -> usable i -> 0 < a -> (0 <= K)%Z ->
  entropy_bayes (AlphaNum a) (Some K) b i = Ok (BayesH a (IZR K) (sample i) / unit_of b) /\
  (sumf (posterior a (IZR K) (sample i)) (distinct (sample i)) = 1 <-> K = Z.of_nat (nvals (sample i))).
Proof.
  intros V U Ha HK. pose proof (sample_ne i U) as NE. apply IZR_le in HK as HK'. split.
  - eapply (entropy_of_closed _ _ (BayesH a (IZR K)) (BayesH a (IZR K))); [|intros xs SP; apply equi_bayes, equi_partition, SP|exact U].
    intros xs NX. apply e_global_num. rewrite (bayes_ok b xs (AlphaNum a) (Some K) a); auto.
  - rewrite posterior_sum1 by assumption. rewrite INR_IZR_INZ. split; [apply eq_IZR|intros ->; reflexivity].
Qed.

(** the documented prior names, and what they stand for *)
Theorem C45_named_priors b i s : valid_base b -> usable i ->
  let K := INR (nvals (sample i)) in let N := INR (input_size i) in
  (lower s = "jeffrey"%string -> entropy_bayes (AlphaStr s) None b i = entropy_bayes (AlphaNum (1 / 2)) None b i) /\
  (lower s = "laplace"%string -> entropy_bayes (AlphaStr s) None b i = entropy_bayes (AlphaNum 1) None b i) /\
  (lower s = "sch-grass"%string -> entropy_bayes (AlphaStr s) None b i = entropy_bayes (AlphaNum (1 / K)) None b i) /\
  (s = "min-max"%string -> entropy_bayes (AlphaStr s) None b i = entropy_bayes (AlphaNum (sqrt N / K)) None b i).
Proof.
  intros V U K N. destruct (usable_data i U) as (xs & E & NE & SP & L).
  pose proof (equi_nvals _ _ (equi_partition _ _ SP)) as EK.
  unfold entropy_bayes, entropy_of. rewrite E. cbn [bind].
  unfold e_global. cbn [e_calc est_bayes]. unfold bayes_simple, bayes_probs. cbn [bayes_K].
  rewrite dd_N_of, dd_K_of.
  assert (KN : (Z.of_nat (nvals xs) =? 0)%Z = false) by (apply Z.eqb_neq; pose proof (nvals_pos xs NE); lia).
  repeat split; intros Hs; unfold get_alpha.
  - rewrite Hs. reflexivity.
  - rewrite Hs. reflexivity.
  - rewrite Hs. cbn. rewrite KN. unfold K. rewrite EK, <- INR_IZR_INZ. reflexivity.
  - rewrite Hs. cbn. rewrite KN. unfold K, N. rewrite EK, <- L, <- !INR_IZR_INZ. reflexivity.
Qed.

Theorem C45_unknown_prior_rejected b i s : usable i ->
  ~ In (lower s) ["jeffrey"; "laplace"; "sch-grass"; "min-max"]%string ->
  entropy_bayes (AlphaStr s) None b i = Raise ValueError.
Proof.
  intros U NI. destruct (usable_data i U) as (xs & E & _). unfold entropy_bayes, entropy_of. rewrite E. cbn [bind].
  unfold e_global. cbn [e_calc est_bayes]. unfold bayes_simple, bayes_probs, get_alpha.
  destruct (existsb _ _) eqn:X; [|reflexivity]. exfalso. apply NI. apply existsb_exists in X.
  destruct X as (t & Ht & Q). apply String.eqb_eq in Q. congruence.
Qed.

(** "min-max" passes the case-insensitive check but is then compared case-sensitively *)
Theorem C45_prior_names_case_insensitive_refuted : ~ (forall b i s t, valid_base b -> usable i ->
  lower s = lower t -> entropy_bayes (AlphaStr s) None b i = entropy_bayes (AlphaStr t) None b i).
Proof.
  intros H. assert (U : usable (EArr (A1 [0%Z]))) by (split; [simpl; lia|exact Logic.I]).
  pose proof (H BE _ "Min-Max"%string "min-max"%string Logic.I U eq_refl) as X.
  destruct (C45_named_priors BE _ "min-max"%string Logic.I U) as (_ & _ & _ & Y).
  rewrite (Y eq_refl) in X. rewrite C45_bayes_closed_form in X; [|exact Logic.I|exact U|].
  - vm_compute in X. discriminate.
  - unfold nvals. change (sample (EArr (A1 [0%Z]))) with [[0%Z]]. cbn. rewrite sqrt_1. lra.
Qed.

(** ** C47 Chao-Shen *)
Theorem C47_chao_shen_closed_form b i : valid_base b -> usable i ->
  entropy_chao_shen b i = Ok (ChaoShenH (sample i) / unit_of b).
Proof. closed_form cs_global @equi_cs. Qed.

Theorem C47_chao_shen_finite_nonneg b i : big_base b -> usable i ->
  (exists h, entropy_chao_shen b i = Ok h /\ 0 <= h) /\
  0 < cs_coverage (sample i) <= 1 /\
  (forall v, In v (sample i) ->
     0 < 1 - (1 - cs_coverage (sample i) * (INR (count (sample i) v) / INR (input_size i))) ^ input_size i <= 1).
Proof.
  intros B U. pose proof (sample_ne i U) as NE. split; [|split].
  - eexists. split; [apply C47_chao_shen_closed_form; auto using big_valid|]. apply nonneg_unit; [exact B|apply chao_shen_nonneg; exact NE].
  - apply cs_coverage_bounds; exact NE.
  - intros v Hv. rewrite <- (sample_length i U). apply cs_inclusion; [|destruct (sample i); [congruence|simpl; lia]].
    apply cs_adjusted; assumption.
Qed.
Print Assumptions C47_chao_shen_finite_nonneg.

(** ** C48 Chao-Wang-Jost *)
Theorem C48_cwj_closed_form b i : valid_base b -> usable i ->
  entropy_cwj b i = Ok (ChaoWangJostH (sample i) / unit_of b).
Proof. closed_form cwj_global @equi_cwj. Qed.

Theorem C48_cwj_bounds b i : big_base b -> usable i ->
  0 < cwj_coverage (sample i) <= 1 /\
  exists h, entropy_cwj b i = Ok h /\
    0 <= bycount (fun n => INR n / INR (input_size i) * (psi (input_size i) - psi n)) (sample i) / unit_of b <= h.
Proof.
  intros B U. pose proof (sample_ne i U) as NE. split; [apply cwj_coverage_bounds; exact NE|].
  eexists. split; [apply C48_cwj_closed_form; auto using big_valid|].
  rewrite <- (sample_length i U), cwj_first. split; [apply nonneg_unit; [exact B|apply zhang_nonneg]|].
  apply le_unit; [exact B|apply cwj_ge_zhang; exact NE].
Qed.
Print Assumptions C48_cwj_bounds.

(** ** C49 Bonachela, ANSB, Grassberger *)
Theorem C49_bonachela_closed_form b i : valid_base b -> usable i ->
  entropy_bonachela b i = Ok (BonachelaH (sample i) / unit_of b).
Proof. closed_form bonachela_global @equi_bonachela. Qed.

Theorem C49_ansb_closed_form b i : valid_base b -> usable i ->
  entropy_ansb None b i = if Nat.ltb (nvals (sample i)) (input_size i) then Ok (AnsbH (sample i) / unit_of b) else NonFinite.
Proof.
  intros V U. destruct (usable_data i U) as (xs & E & NE & SP & L). unfold entropy_ansb, entropy_of. rewrite E. cbn [bind].
  rewrite ansb_global by assumption. pose proof (equi_partition _ _ SP) as Q.
  rewrite (equi_nvals _ _ Q), (equi_ansb _ _ Q), L. reflexivity.
Qed.

Theorem C49_ansb_positive b i : big_base b -> usable i -> (nvals (sample i) < input_size i)%nat ->
  exists h, entropy_ansb None b i = Ok h /\ 0 < h.
Proof.
  intros B U H. eexists. split; [rewrite C49_ansb_closed_form by (auto using big_valid); rewrite (proj2 (Nat.ltb_lt _ _) H); reflexivity|].
  unfold Rdiv. apply Rmult_lt_0_compat; [apply ansb_pos; [apply sample_ne; exact U|rewrite (sample_length i U); exact H]|].
  apply Rinv_0_lt_compat, big_unit, B.
Qed.

Theorem C49_grassberger_closed_form b i : valid_base b -> usable i ->
  entropy_grassberger b i = Ok (GrassbergerH (sample i) / unit_of b).
Proof. closed_form grassberger_global @equi_grassberger. Qed.

Theorem C49_grassberger_local_values b (xs : list Z) : valid_base b -> xs <> [] ->
  local_of est_grassberger b (EArr (A1 xs)) =
  Ok (map (fun x => (ln (INR (length xs)) - psi (count xs x) - (-1) ^ count xs x / INR (count xs x + 1)) / unit_of b) xs).
Proof.
  intros V NE. unfold local_of. replace (make_data (EArr (A1 xs))) with (Ok (dd_of xs)) by (symmetry; apply from_data_dd; exact NE).
  cbn [bind]. unfold e_local. cbn [e_calc est_grassberger]. rewrite grassberger_ok by assumption. reflexivity.
Qed.
Print Assumptions C49_ansb_closed_form.

(** ** C25: lawful estimators, so the MI/CMI/TE/CTE combination theorems of PropsGeneric apply to them *)
Theorem C25_estimators_lawful b a : valid_base b -> 0 < a ->
  Forall (fun e => lawful e b) [est_zhang; est_chao_shen; est_cwj; est_bonachela; est_grassberger; est_bayes (AlphaNum a) None].
Proof.
  intros V Ha. repeat constructor; intros xs NE; eexists;
    [apply zhang_lawful_on|apply cs_lawful_on|apply cwj_lawful_on|apply bonachela_lawful_on|apply grassberger_lawful_on|apply bayes_lawful_on]; assumption.
Qed.

(** ** C55: invariance.  [renamed i j]: the rows of [j] are, in some order, those of [i] under an
    injective renaming. *)
Definition renamed (i j : einput) : Prop :=
  exists f : list Z -> list Z, (forall x y, In x (sample i) -> In y (sample i) -> f x = f y -> x = y) /\
    Permutation (map f (sample i)) (sample j).

Lemma renamed_equi i j : renamed i j -> equi (sample i) (sample j).
Proof.
  intros (f & Hf & P). eapply (equi_trans _ (map f (sample i))); [apply equi_partition, map_inj_partition, Hf|apply equi_perm, P].
Qed.

Lemma est_mm_closed b i : valid_base b -> usable i ->
  entropy_of est_mm b i = Ok ((Ent (sample i) + (INR (nvals (sample i)) - 1) / (2 * INR (input_size i))) / unit_of b).
Proof.
  intros V U. destruct (usable_data i U) as (xs & E & NE & SP & L). unfold entropy_of. rewrite E. cbn [bind].
  rewrite (proj1 (mm_lawful_on b xs V NE)). pose proof (equi_partition _ _ SP) as Q.
  f_equal. f_equal. rewrite (equi_Ent _ _ Q (sample_ne i U)), (equi_nvals _ _ Q), <- L. reflexivity.
Qed.

Lemma counts_only_equi b i j a : valid_base b -> usable i -> usable j -> equi (sample i) (sample j) -> 0 < a ->
  Forall (fun e => entropy_of e b i = entropy_of e b j)
    [est_discrete; est_mm; est_shrink; est_zhang; est_chao_shen; est_cwj; est_bonachela; est_grassberger;
     est_ansb None; est_bayes (AlphaNum a) None].
Proof.
  intros V U W Q Ha.
  assert (L : input_size i = input_size j) by (rewrite <- (sample_length i U), <- (sample_length j W); apply equi_len, Q).
  pose proof (equi_nvals _ _ Q) as K.
  repeat constructor.
  - rewrite !discrete_closed by assumption. rewrite (equi_Ent _ _ Q (sample_ne i U)). reflexivity.
  - rewrite !est_mm_closed by assumption. rewrite (equi_Ent _ _ Q (sample_ne i U)), L, K. reflexivity.
  - fold entropy_shrink. rewrite !C43_shrink_closed_form by assumption. rewrite (equi_shrink _ _ Q). reflexivity.
  - fold entropy_zhang. rewrite !C46_zhang_closed_form by assumption. rewrite (equi_zhang _ _ Q). reflexivity.
  - fold entropy_chao_shen. rewrite !C47_chao_shen_closed_form by assumption. rewrite (equi_cs _ _ Q). reflexivity.
  - fold entropy_cwj. rewrite !C48_cwj_closed_form by assumption. rewrite (equi_cwj _ _ Q). reflexivity.
  - fold entropy_bonachela. rewrite !C49_bonachela_closed_form by assumption. rewrite (equi_bonachela _ _ Q). reflexivity.
  - fold entropy_grassberger. rewrite !C49_grassberger_closed_form by assumption. rewrite (equi_grassberger _ _ Q). reflexivity.
  - pose proof (C49_ansb_closed_form b i V U) as A1. pose proof (C49_ansb_closed_form b j V W) as A2.
    unfold entropy_ansb in A1, A2. rewrite A1, A2, K, L, (equi_ansb _ _ Q). reflexivity.
  - pose proof (C45_bayes_closed_form b i a V U Ha) as A1. pose proof (C45_bayes_closed_form b j a V W Ha) as A2.
    unfold entropy_bayes in A1, A2. rewrite A1, A2, K, (equi_bayes _ _ Q). reflexivity.
Qed.

Theorem C55_counts_only b i j a : valid_base b -> usable i -> usable j -> renamed i j -> 0 < a ->
  Forall (fun e => entropy_of e b i = entropy_of e b j)
    [est_discrete; est_mm; est_shrink; est_zhang; est_chao_shen; est_cwj; est_bonachela; est_grassberger;
     est_ansb None; est_bayes (AlphaNum a) None].
Proof. intros V U W R Ha. apply counts_only_equi; try assumption. apply renamed_equi, R. Qed.
Print Assumptions C55_counts_only.

(** the hypothesis on a concrete pair: (4,4,7) against (1,-2,-2) *)
Example C55_example : renamed (EArr (A1 [4; 4; 7]%Z)) (EArr (A1 [1; -2; -2]%Z)).
Proof.
  exists (fun r => if list_eq_dec Z.eq_dec r [4]%Z then [-2]%Z else [1]%Z). split.
  - intros x y [<-|[<-|[<-|[]]]] [<-|[<-|[<-|[]]]]; simpl; intros Q; try reflexivity; discriminate Q.
  - simpl. apply Permutation_sym, (Permutation_cons_append [[-2]; [-2]]%Z [1]%Z).
Qed.

(** ** C56: non-negativity *)
Theorem C56_entropy_nonneg b i a e : big_base b -> usable i -> 0 < a ->
  In e [est_discrete; est_mm; est_shrink; est_zhang; est_chao_shen; est_cwj; est_bonachela; est_bayes (AlphaNum a) None] ->
  exists h, entropy_of e b i = Ok h /\ 0 <= h.
Proof.
  intros B U Ha Hin. pose proof (big_valid b B) as V. pose proof (sample_ne i U) as NE.
  assert (H0 : 0 <= Ent (sample i)) by apply Ent_nonneg.
  destruct Hin as [<-|[<-|[<-|[<-|[<-|[<-|[<-|[<-|[]]]]]]]]].
  - eexists. split; [apply discrete_closed; assumption|apply nonneg_unit; assumption].
  - eexists. split; [apply est_mm_closed; assumption|apply nonneg_unit; [exact B|]].
    assert (0 <= (INR (nvals (sample i)) - 1) / (2 * INR (input_size i))); [|lra].
    destruct U as [HN _]. apply lt_0_INR in HN. pose proof (nvals_pos _ NE) as KP. apply (le_INR 1) in KP. simpl in KP.
    unfold Rdiv. apply Rmult_le_pos; [lra|]. left. apply Rinv_0_lt_compat. lra.
  - eexists. split; [apply C43_shrink_closed_form; assumption|apply nonneg_unit; [exact B|]].
    pose proof (shrink_ge_Ent _ NE). lra.
  - apply C46_zhang_nonneg; assumption.
  - apply C47_chao_shen_finite_nonneg; assumption.
  - destruct (C48_cwj_bounds b i B U) as (_ & h & E & H1). exists h. split; [exact E|lra].
  - eexists. split; [apply C49_bonachela_closed_form; assumption|apply nonneg_unit; [exact B|apply bonachela_nonneg]].
  - destruct (C45_bayes_is_distribution b i a B U Ha) as (_ & _ & h & E & H1 & _). exists h. split; assumption.
Qed.
Print Assumptions C56_entropy_nonneg.

(** Grassberger's estimator is non-negative when every count is odd ... *)
Theorem C56_grassberger_odd b (xs : list Z) : big_base b -> xs <> [] ->
  (forall x, In x xs -> Nat.odd (count xs x) = true) ->
  exists h, entropy_grassberger b (EArr (A1 xs)) = Ok h /\ 0 <= h.
Proof.
  intros B NE O. pose proof (big_valid b B) as V. exists (GrassbergerH xs / unit_of b). split.
  - unfold entropy_grassberger, entropy_of. replace (make_data (EArr (A1 xs))) with (Ok (dd_of xs)) by (symmetry; apply from_data_dd; exact NE).
    apply grassberger_global; assumption.
  - apply nonneg_unit; [exact B|]. apply grassberger_odd_nonneg. intros x Hx. apply Nat.odd_spec, O, Hx.
Qed.

(** ... but negative for every constant array of even length *)
Theorem C56_grassberger_negative_refuted b (v : Z) k : big_base b -> (0 < k)%nat ->
  exists h, entropy_grassberger b (EArr (A1 (repeat v (2 * k)))) = Ok h /\ h < 0.
Proof.
  intros B Hk. pose proof (big_valid b B) as V. set (xs := repeat v (2 * k)).
  assert (NE : xs <> []) by (unfold xs; destruct k; [lia|discriminate]).
  exists (GrassbergerH xs / unit_of b). split.
  - unfold entropy_grassberger, entropy_of. replace (make_data (EArr (A1 xs))) with (Ok (dd_of xs)) by (symmetry; apply from_data_dd; exact NE).
    apply grassberger_global; assumption.
  - pose proof (grassberger_even_constant v k Hk) as G. fold xs in G.
    pose proof (Rinv_0_lt_compat _ (big_unit b B)). unfold Rdiv. apply Ropp_lt_cancel. rewrite Ropp_0, Ropp_mult_distr_l.
    apply Rmult_lt_0_compat; lra.
Qed.

(** ** C57: ordering of the corrections *)
Theorem C57_corrections_raise_entropy b i : big_base b -> usable i ->
  exists h mm z c, entropy_of est_discrete b i = Ok h /\ entropy_of est_mm b i = Ok mm /\
    entropy_zhang b i = Ok z /\ entropy_cwj b i = Ok c /\ h <= mm /\ h <= z <= c.
Proof.
  intros B U. pose proof (big_valid b B) as V. pose proof (sample_ne i U) as NE.
  do 4 eexists. split; [apply discrete_closed; assumption|]. split; [apply est_mm_closed; assumption|].
  split; [apply C46_zhang_closed_form; assumption|]. split; [apply C48_cwj_closed_form; assumption|].
  split; [|split]; apply le_unit; try exact B.
  - assert (0 <= (INR (nvals (sample i)) - 1) / (2 * INR (input_size i))); [|lra].
    destruct U as [HN _]. apply lt_0_INR in HN. pose proof (nvals_pos _ NE) as KP. apply (le_INR 1) in KP. simpl in KP.
    unfold Rdiv. apply Rmult_le_pos; [lra|]. left. apply Rinv_0_lt_compat. lra.
  - apply zhang_ge_Ent; exact NE.
  - apply cwj_ge_zhang; exact NE.
Qed.
Print Assumptions C57_corrections_raise_entropy.
