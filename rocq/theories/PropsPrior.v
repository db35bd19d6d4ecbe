(** Property theorems: names in any case (C40, C45), and the Bayesian cross-entropy and divergences with named priors and a
    given number of categories (C99, C27, C28). *)
From Coq Require Import Reals Lra Lia List ZArith Arith Bool String Ascii.
From Verif Require Import Res RSum Spec SpecDiv SpecBase SpecEst SpecInput SpecCross SpecName SpecDisp Info Info2 Ord MBase MData MEntropy MMI MTE MGeneric MEst MDiv MDisp PBase PEst PEst2 PEst4 PDiv PDiv2 PropsEst PropsDiv PropsDiv2 PropsCross PropsDisp.
Import ListNotations.
Local Open Scope R_scope.

(** ** names *)
Lemma lower_capital c d : capital_of c d -> lower_char c = lower_char d.
Proof.
  intros [->|I]; [reflexivity|]. unfold letters in I.
  repeat (destruct I as [E|I]; [injection E as <- <-; reflexivity|]). destruct I.
Qed.
Lemma lower_written : forall s t, written s t -> lower s = lower t.
Proof.
  unfold written. induction s as [|c s IH]; intros [|d t] W; inversion W; subst; [reflexivity|].
  cbn [lower]. f_equal; [apply lower_capital; assumption|apply IH; assumption].
Qed.

(** a measure or approach name may be written in any mixture of cases *)
Theorem C40_any_case {D} m m' a a' : written m m' -> written a a' ->
  get_estimator_class (D := D) (AStr m) (AStr a) = get_estimator_class (D := D) (AStr m') (AStr a').
Proof. intros Wm Wa. apply C40_case_insensitive; apply lower_written; assumption. Qed.
(** so every documented name, however capitalised, gives the class of its family *)
Theorem C40_documented_names {D} m m' a a' M f : In m' (measure_names M) -> In f families -> In a' (approach_names M f) ->
  written m m' -> written a a' -> get_estimator_class (D := D) (AStr m) (AStr a) = Ok (class_of M f).
Proof.
  intros Im If Ia Wm Wa. rewrite (C40_any_case m m' a a' Wm Wa). apply C40_classes. exists M, f.
  assert (Q : forallb (fun M => forallb (fun s => String.eqb (lower s) s) (measure_names M ++ List.concat (map (approach_names M) families))%list) measures = true)
    by (vm_compute; reflexivity).
  rewrite forallb_forall in Q. specialize (Q M (measures_all M)). rewrite forallb_forall in Q.
  assert (L : lower m' = m') by (apply String.eqb_eq, Q, in_or_app; left; exact Im).
  assert (L' : lower a' = a').
  { apply String.eqb_eq, Q, in_or_app. right. apply in_concat. exists (approach_names M f). split; [apply in_map; exact If|exact Ia]. }
  rewrite L, L'. auto.
Qed.
Print Assumptions C40_documented_names.
Example C40_any_case_example : written "Chao_Shen" "chao_shen" /\ written "ENTROPY" "entropy".
Proof.
  split; repeat (constructor; [first [left; reflexivity|right; unfold letters; cbn; tauto]|]); constructor.
Qed.

(** the prior names too, "min-max" excepted (see C45_prior_names_case_insensitive_refuted) *)
Theorem C45_prior_any_case s t Kp b i : In t ["jeffrey"; "laplace"; "sch-grass"]%string -> written s t ->
  entropy_bayes (AlphaStr s) Kp b i = entropy_bayes (AlphaStr t) Kp b i.
Proof.
  intros It W. apply lower_written in W. unfold entropy_bayes, entropy_of. destruct (make_data i) as [d| |]; [|reflexivity|reflexivity]. cbn [bind].
  assert (G : forall K N, get_alpha (AlphaStr s) K N = get_alpha (AlphaStr t) K N).
  { intros K N. unfold get_alpha. rewrite W. cbn in It. decompose [or] It; try contradiction; subst t; cbn in W |- *; reflexivity. }
  unfold e_global, est_bayes. cbn [e_calc]. unfold bayes_simple, bayes_probs. rewrite G. reflexivity.
Qed.

(** ** the Bayesian cross-entropy *)
Lemma cat_nonneg Kp (xs : list Z) : (forall k, Kp = Some k -> (0 <= k)%Z) -> 0 <= categories Kp xs.
Proof. intros P. destruct Kp as [k|]; cbn; [apply IZR_le, P; reflexivity|apply pos_INR]. Qed.
Lemma cat_bayes_K Kp (xs : list Z) : IZR (bayes_K Kp (dd_of xs)) = categories Kp xs.
Proof. destruct Kp as [k|]; [reflexivity|]. cbn [bayes_K categories]. rewrite dd_K_of, <- INR_IZR_INZ. reflexivity. Qed.

Lemma alpha_of_name name K N x : stands_for name (IZR K) (IZR N) x -> (1 <= K)%Z -> get_alpha (AlphaStr name) K N = Ok x.
Proof.
  intros SF HK. assert (E : (K =? 0)%Z = false) by (apply Z.eqb_neq; lia).
  unfold stands_for in SF. decompose [or and] SF; subst; cbn; rewrite ?E; reflexivity.
Qed.
Lemma name_pos name K N x : stands_for name K N x -> 0 < K -> 0 < N -> 0 < x.
Proof.
  intros SF HK HN. unfold stands_for in SF. decompose [or and] SF; subst; try lra.
  - apply Rdiv_lt_0_compat; lra.
  - apply Rdiv_lt_0_compat; [apply sqrt_lt_R0; exact HN|exact HK].
Qed.

Lemma posterior_list al Kp (xs : list Z) : 0 < al -> (forall k, Kp = Some k -> (0 <= k)%Z) -> xs <> [] ->
  mapM (fun c => np_div (IZR c + al) (IZR (dd_N (dd_of xs)) + IZR (bayes_K Kp (dd_of xs)) * al)) (dd_counts (dd_of xs)) =
  Ok (map (posterior al (categories Kp xs) xs) (unique xs)).
Proof.
  intros Ha HK NE. rewrite dd_counts_of, dd_N_of, cat_bayes_K. apply mapM_map_ok. intros v _. rewrite <- !INR_IZR_INZ. apply np_div_ok.
  pose proof (inr_len_pos xs NE). pose proof (cat_nonneg Kp xs HK).
  assert (0 <= categories Kp xs * al) by (apply Rmult_le_pos; lra). lra.
Qed.

Lemma bayes_cross_value b a Kp ap aq (ps qs : list Z) : valid_base b -> ps <> [] -> qs <> [] -> (forall k, Kp = Some k -> (0 <= k)%Z) ->
  get_alpha a (bayes_K Kp (dd_of ps)) (dd_N (dd_of ps)) = Ok ap -> get_alpha a (bayes_K Kp (dd_of qs)) (dd_N (dd_of qs)) = Ok aq -> 0 < ap -> 0 < aq ->
  cross_bayes a Kp b (A1 ps) (A1 qs) =
  Ok (shared_sum (posterior ap (categories Kp ps) ps) (posterior aq (categories Kp qs) qs) ps qs / unit_of b).
Proof.
  intros V NP NQ HK Ep Eq Pp Pq. unfold cross_bayes, cross_of. rewrite !make_1d by assumption. cbn [bind]. unfold bayes_cross. cbv zeta.
  rewrite Ep, Eq. cbn [bind].
  rewrite (posterior_list ap Kp ps Pp HK NP), (posterior_list aq Kp qs Pq HK NQ). cbn [bind dd_uniq dd_of].
  rewrite common_case.
  2:{ intros E. unfold cross_sum. rewrite E. cbn. f_equal. unfold sumR. simpl. lra. }
  rewrite cross_sum_ok; [|exact V|intros v Hv; apply posterior_pos; auto; apply cat_nonneg; exact HK].
  rewrite common_sum. reflexivity.
Qed.

(** a named prior is resolved for each sample from its own number of values and its own length *)
Theorem C99_bayes_named_prior b name ap aq (ps qs : list Z) : valid_base b -> ps <> [] -> qs <> [] ->
  stands_for name (INR (nvals ps)) (INR (List.length ps)) ap -> stands_for name (INR (nvals qs)) (INR (List.length qs)) aq ->
  cross_bayes (AlphaStr name) None b (A1 ps) (A1 qs) =
  Ok (shared_sum (posterior ap (INR (nvals ps)) ps) (posterior aq (INR (nvals qs)) qs) ps qs / unit_of b).
Proof.
  intros V NP NQ Sp Sq. pose proof (nvals_pos ps NP) as Kp. pose proof (nvals_pos qs NQ) as Kq.
  apply (bayes_cross_value b (AlphaStr name) None ap aq); try assumption; try discriminate.
  - cbn [bayes_K]. rewrite dd_K_of, dd_N_of. apply alpha_of_name; [rewrite <- !INR_IZR_INZ; exact Sp|lia].
  - cbn [bayes_K]. rewrite dd_K_of, dd_N_of. apply alpha_of_name; [rewrite <- !INR_IZR_INZ; exact Sq|lia].
  - apply (name_pos _ _ _ _ Sp); [apply lt_0_INR; lia|apply inr_len_pos; exact NP].
  - apply (name_pos _ _ _ _ Sq); [apply lt_0_INR; lia|apply inr_len_pos; exact NQ].
Qed.
Print Assumptions C99_bayes_named_prior.

(** a given number of categories is used for both samples *)
Theorem C99_bayes_explicit_K b a K (ps qs : list Z) : valid_base b -> 0 < a -> (0 <= K)%Z -> ps <> [] -> qs <> [] ->
  cross_bayes (AlphaNum a) (Some K) b (A1 ps) (A1 qs) = Ok (shared_sum (posterior a (IZR K) ps) (posterior a (IZR K) qs) ps qs / unit_of b).
Proof.
  intros V Ha HK NP NQ. apply (bayes_cross_value b (AlphaNum a) (Some K) a a); try assumption; try reflexivity.
  intros k E. injection E as <-. exact HK.
Qed.
Theorem C99_bayes_named_prior_explicit_K b name K ap aq (ps qs : list Z) : valid_base b -> (1 <= K)%Z -> ps <> [] -> qs <> [] ->
  stands_for name (IZR K) (INR (List.length ps)) ap -> stands_for name (IZR K) (INR (List.length qs)) aq ->
  cross_bayes (AlphaStr name) (Some K) b (A1 ps) (A1 qs) = Ok (shared_sum (posterior ap (IZR K) ps) (posterior aq (IZR K) qs) ps qs / unit_of b).
Proof.
  intros V HK NP NQ Sp Sq. assert (PK : 0 < IZR K) by (apply IZR_lt; lia).
  apply (bayes_cross_value b (AlphaStr name) (Some K) ap aq); try assumption.
  - intros k E. injection E as <-. lia.
  - cbn [bayes_K]. rewrite dd_N_of. apply alpha_of_name; [rewrite <- INR_IZR_INZ; exact Sp|exact HK].
  - cbn [bayes_K]. rewrite dd_N_of. apply alpha_of_name; [rewrite <- INR_IZR_INZ; exact Sq|exact HK].
  - apply (name_pos _ _ _ _ Sp); [exact PK|apply inr_len_pos; exact NP].
  - apply (name_pos _ _ _ _ Sq); [exact PK|apply inr_len_pos; exact NQ].
Qed.

(** ** Kullback-Leibler divergence with a named prior: cross-entropy minus the entropy of the first sample with its own concentration *)
Theorem C27_kld_bayes_named_prior b name ap aq (ps qs : list Z) : valid_base b -> ps <> [] -> qs <> [] ->
  stands_for name (INR (nvals ps)) (INR (List.length ps)) ap -> stands_for name (INR (nvals qs)) (INR (List.length qs)) aq ->
  kld_bayes (AlphaStr name) None b (A1 ps) (A1 qs) =
  Ok ((shared_sum (posterior ap (INR (nvals ps)) ps) (posterior aq (INR (nvals qs)) qs) ps qs - BayesH ap (INR (nvals ps)) ps) / unit_of b).
Proof.
  intros V NP NQ Sp Sq. pose proof (nvals_pos ps NP) as Kp. unfold kld_bayes, kld_of.
  change (cross_of (bayes_cross (AlphaStr name) None)) with (cross_bayes (AlphaStr name) None).
  rewrite (C99_bayes_named_prior b name ap aq) by assumption. cbn [bind]. unfold simple_of. rewrite make_1d by exact NP. cbn [bind].
  rewrite (bayes_ok b ps (AlphaStr name) None ap); [|exact V|exact NP| | |].
  - cbn [bayes_K bind]. rewrite dd_K_of, <- INR_IZR_INZ. f_equal. field. apply unit_neq0. exact V.
  - cbn [bayes_K]. rewrite dd_K_of. apply alpha_of_name; [rewrite <- !INR_IZR_INZ; exact Sp|lia].
  - apply (name_pos _ _ _ _ Sp); [apply lt_0_INR; lia|apply inr_len_pos; exact NP].
  - cbn [bayes_K]. rewrite dd_K_of. lia.
Qed.
Print Assumptions C27_kld_bayes_named_prior.
Theorem C27_kld_bayes_explicit_K b a K (ps qs : list Z) : valid_base b -> 0 < a -> (0 <= K)%Z -> ps <> [] -> qs <> [] ->
  kld_bayes (AlphaNum a) (Some K) b (A1 ps) (A1 qs) =
  Ok ((shared_sum (posterior a (IZR K) ps) (posterior a (IZR K) qs) ps qs - BayesH a (IZR K) ps) / unit_of b).
Proof.
  intros V Ha HK NP NQ. unfold kld_bayes, kld_of.
  change (cross_of (bayes_cross (AlphaNum a) (Some K))) with (cross_bayes (AlphaNum a) (Some K)).
  rewrite C99_bayes_explicit_K by assumption. cbn [bind]. unfold simple_of. rewrite make_1d by exact NP. cbn [bind].
  rewrite (bayes_ok b ps (AlphaNum a) (Some K) a); [|exact V|exact NP|reflexivity|exact Ha|exact HK].
  cbn [bayes_K bind]. f_equal. field. apply unit_neq0. exact V.
Qed.

(** ** Jensen-Shannon divergence with a named prior: each sample's posterior uses its own concentration *)
Theorem C28_jsd_bayes_named_prior b name (al : list Z -> R) (ds : list (list Z)) : valid_base b -> ds <> [] -> Forall (fun c => c <> []) ds ->
  (forall c, In c ds -> stands_for name (INR (nvals c)) (INR (List.length c)) (al c)) ->
  let ps := map (fun c => (unique c, restrict (unique c) (posterior (al c) (INR (nvals c)) c))) ds in
  jsd_bayes (AlphaStr name) None b (map A1 ds) = Ok (PJSD ps / unit_of b) /\
  (big_base b -> 0 <= PJSD ps / unit_of b <= ln (INR (List.length ds)) / unit_of b) /\
  (PJSD ps = 0 <-> forall d e v, In d ps -> In e ps -> snd d v = snd e v).
Proof.
  intros V NE F SF.
  apply (jsd_probs_ok b (bayes_probs (AlphaStr name) None) (fun c => posterior (al c) (INR (nvals c)) c)); try assumption. intros c Hc.
  rewrite Forall_forall in F. pose proof (F c Hc) as Nc. pose proof (nvals_pos c Nc) as Kc. specialize (SF c Hc).
  assert (Pa : 0 < al c) by (apply (name_pos _ _ _ _ SF); [apply lt_0_INR; lia|apply inr_len_pos; exact Nc]).
  split; [|split; [intros v Hv; apply posterior_pos; auto; apply pos_INR|apply posterior_sum1; auto; apply pos_INR]].
  unfold bayes_probs. cbv zeta. rewrite (alpha_of_name name (bayes_K None (dd_of c)) (dd_N (dd_of c)) (al c)).
  - cbn [bind]. apply (posterior_list (al c) None c Pa); [discriminate|exact Nc].
  - cbn [bayes_K]. rewrite dd_K_of, dd_N_of, <- !INR_IZR_INZ. exact SF.
  - cbn [bayes_K]. rewrite dd_K_of. lia.
Qed.
Print Assumptions C28_jsd_bayes_named_prior.

(** a concrete case: 1, 1, 2 against 1, 2, 3, 3 with the "sch-grass" prior: concentrations 1/2 and 1/3 *)
Example C99_named_prior_example : let ps := [1; 1; 2]%Z in let qs := [1; 2; 3; 3]%Z in
  stands_for "sch-grass" (INR (nvals ps)) (INR (List.length ps)) (1 / 2) /\ stands_for "sch-grass" (INR (nvals qs)) (INR (List.length qs)) (1 / 3) /\
  posterior (1 / 2) (INR (nvals ps)) ps 1%Z = 5 / 8 /\ posterior (1 / 3) (INR (nvals qs)) qs 1%Z = 4 / 15.
Proof.
  cbn zeta. assert (E1 : nvals [1; 1; 2]%Z = 2%nat) by reflexivity. assert (E2 : nvals [1; 2; 3; 3]%Z = 3%nat) by reflexivity. rewrite E1, E2.
  split; [right; right; left; split; [reflexivity|simpl; lra]|]. split; [right; right; left; split; [reflexivity|simpl; lra]|].
  split; unfold posterior, count; simpl; lra.
Qed.
