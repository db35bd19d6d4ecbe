(** Property theorems: divergences of the Bayes and ordinal approaches (C27, C28 continued). *)
From Coq Require Import Reals Lra Lia List ZArith Arith Bool Permutation.
From Verif Require Import Res RSum Spec SpecDiv SpecBase SpecEst Info Info2 Gibbs Ord MBase MData MEntropy MMI MTE MGeneric MEst SpecOrd MOrd MDiv PBase PEntropy PEst PEst2 PEst4 PMI5 POrd POrd2 POrd3 PDiv PDiv2 PropsOrd PropsDiv.
Import ListNotations.
Local Open Scope R_scope.

(** ** Bayes: the divergence of the two posterior distributions *)
Lemma restrict_in (U : list Z) f v : In v U -> restrict U f v = f v.
Proof. intros I. unfold restrict. destruct (in_dec eq_dec v U); [reflexivity|contradiction]. Qed.

Theorem C27_kld_bayes b a (ps qs : list Z) : valid_base b -> 0 < a -> ps <> [] -> incl ps qs ->
  let p := restrict (unique ps) (posterior a (INR (nvals ps)) ps) in
  let q := restrict (unique qs) (posterior a (INR (nvals qs)) qs) in
  kld_bayes (AlphaNum a) None b (A1 ps) (A1 qs) = Ok (PKL (unique ps) p q / unit_of b) /\
  is_pmf (unique ps) p /\ is_pmf (unique qs) q /\
  (big_base b -> 0 <= PKL (unique ps) p q / unit_of b) /\
  (PKL (unique ps) p q = 0 <-> forall v, p v = q v).
Proof.
  intros V Ha NP I p q. assert (NQ : qs <> []) by (destruct ps as [|x r]; [congruence|intros ->; destruct (I x (or_introl eq_refl))]).
  pose proof (incl_unique ps qs I) as IU. pose proof (unit_neq0 b V) as UN.
  assert (PP : forall xs : list Z, xs <> [] -> is_pmf (unique xs) (restrict (unique xs) (posterior a (INR (nvals xs)) xs))).
  { intros xs NE. apply restrict_pmf; [exact NE| |].
    - intros v Hv. apply posterior_pos; auto. apply pos_INR.
    - apply posterior_sum1; auto. apply pos_INR. }
  assert (Pp : is_pmf (unique ps) p) by (apply PP; exact NP). assert (Pq : is_pmf (unique qs) q) by (apply PP; exact NQ).
  split; [|split; [exact Pp|split; [exact Pq|split]]].
  - unfold kld_bayes, kld_of, cross_of, simple_of. rewrite !make_1d by assumption. cbn [bind].
    unfold bayes_cross, bayes_simple. cbn [get_alpha bind bayes_K dd_uniq dd_of].
    pose proof (bayes_probs_ok a ps Ha NP) as B1. pose proof (bayes_probs_ok a qs Ha NQ) as B2.
    rewrite B1. unfold bayes_probs in B1, B2. cbn [get_alpha bind bayes_K] in B1, B2. rewrite B1, B2. cbn [bind].
    rewrite <- (restrict_map (unique ps)), <- (restrict_map (unique qs)). fold p. fold q.
    rewrite common_case.
    2:{ intros E. unfold cross_sum. rewrite E. cbn. f_equal. unfold sumR. simpl. lra. }
    rewrite cross_sum_ok; [|exact V|apply Pq]. cbn [bind].
    rewrite plogp_ok; [|exact V|].
    2:{ apply Forall_forall. intros y Hy. apply in_map_iff in Hy. destruct Hy as (v & <- & Hv). apply Pp, Hv. }
    cbn [bind]. f_equal.
    replace (EntVec (map p (unique ps))) with (PEnt (unique ps) p) by (unfold EntVec, PEnt; rewrite sumf_map; reflexivity).
    rewrite <- (code_kl_incl (unique ps) (unique qs) p q (unique_NoDup ps) IU).
    rewrite <- code_kl; [field; exact UN|apply unique_NoDup|apply Pp|apply Pq].
  - intros B. apply big_div_nonneg; [exact B|]. apply (PKL_nonneg _ (unique qs)); assumption.
  - apply (PKL_zero _ (unique qs)); assumption.
Qed.
Print Assumptions C27_kld_bayes.

(** ** Relabelling *)
Section Relabel.
Context {A B : Type} `{EqDec A} `{EqDec B}.

Lemma count_relabel (f : A -> B) xs v : (forall x, In x xs -> f x = f v -> x = v) -> count (map f xs) (f v) = count xs v.
Proof.
  intros I. unfold count. induction xs as [|x xs IH]; [reflexivity|]. cbn [map].
  assert (IHl : count_occ eq_dec (map f xs) (f v) = count_occ eq_dec xs v) by (apply IH; intros y Hy; apply I; right; exact Hy).
  destruct (eq_dec x v) as [->|N].
  - rewrite !count_occ_cons_eq by reflexivity. rewrite IHl. reflexivity.
  - rewrite !count_occ_cons_neq; [exact IHl|exact N|]. intros E. apply N, I; [left; reflexivity|exact E].
Qed.

Lemma distinct_relabel (f : A -> B) xs : (forall x y, In x xs -> In y xs -> f x = f y -> x = y) ->
  Permutation (distinct (map f xs)) (map f (distinct xs)).
Proof.
  intros I. apply NoDup_Permutation; [apply NoDup_nodup| |].
  - assert (G : forall l, incl l xs -> NoDup l -> NoDup (map f l)).
    { induction l as [|k l IH]; intros J ND; [constructor|]. inversion ND; subst. cbn [map]. constructor.
      - intros Hk. apply in_map_iff in Hk. destruct Hk as (k' & E & Hk'). apply I in E; [subst; contradiction|apply J; right; exact Hk'|apply J; left; reflexivity].
      - apply IH; [intros y Hy; apply J; right; exact Hy|assumption]. }
    apply G; [intros k Hk; apply (distinct_In xs k), Hk|apply NoDup_nodup].
  - intros y. rewrite distinct_In, !in_map_iff. split; intros (x & E & Hx); exists x; (split; [exact E|]); apply (distinct_In xs x); exact Hx.
Qed.

Lemma KL_relabel (f : A -> B) xs ys : (forall x y, In x (xs ++ ys) -> In y (xs ++ ys) -> f x = f y -> x = y) ->
  KL (map f xs) (map f ys) = KL xs ys.
Proof.
  intros I. unfold KL. rewrite (sumf_perm _ _ _ (distinct_relabel f xs ltac:(intros; apply I; try (apply in_or_app; left); assumption))).
  rewrite sumf_map. apply sumf_ext. intros v Hv. rewrite (distinct_In xs v) in Hv. unfold prob. rewrite !map_length.
  rewrite !count_relabel; [reflexivity| |]; intros x Hx E; apply I; try exact E; apply in_or_app; auto.
Qed.

Lemma JSD_relabel (f : A -> B) ds : (forall x y, f x = f y -> x = y) -> JSD (map (map f) ds) = JSD ds.
Proof.
  intros I. unfold JSD, Rminus. rewrite map_length. f_equal.
  - f_equal. rewrite <- concat_map. rewrite (sumf_perm _ _ _ (distinct_relabel f (concat ds) ltac:(intros; apply I; assumption))).
    rewrite sumf_map. apply sumf_ext. intros v _.
    assert (E : mixprob (map (map f) ds) (f v) = mixprob ds v).
    { unfold mixprob. rewrite sumf_map, map_length. f_equal. apply sumf_ext. intros d _. unfold prob. rewrite map_length, count_relabel; [reflexivity|].
      intros x _ E. apply I, E. }
    rewrite E. reflexivity.
  - f_equal. f_equal. rewrite sumf_map. apply sumf_ext. intros d _. apply Ent_map_inj. intros x y _ _ E. apply I, E.
Qed.
End Relabel.

(** ** Ordinal *)
Section OrdDiv.
Context {T : Type} `{Cmp T}.

(** When the windows of the first series have no ties and all of its patterns occur in the second, the
    ordinal divergence is the KL divergence of the ordinal patterns: non-negative, and zero exactly for
    equal pattern frequencies. *)
Theorem C27_kld_ordinal (k : kind T) b x0 (xs ys : list T) d s : legal_kind k -> valid_base b -> (1 <= d <= 20)%nat -> (1 <= s)%nat ->
  ((d - 1) * s < length xs)%nat -> ((d - 1) * s < length ys)%nat -> no_ties x0 xs d s ->
  let px := patterns (k_df k) x0 xs d s in let py := patterns (k_df k) x0 ys d s in incl px py ->
  kld_ordinal k b xs ys (Z.of_nat d) (Z.of_nat s) = Ok (KL px py / unit_of b) /\
  (big_base b -> 0 <= KL px py / unit_of b) /\
  (KL px py = 0 <-> forall p, prob px p = prob py p).
Proof.
  intros LK V Hd Hs LX LY NT px py I.
  assert (LU : legal_kind (unstable k)) by (intros w; apply LK).
  assert (NX : px <> []) by (intros E; apply (f_equal (@length _)) in E; unfold px in E; rewrite patterns_length in E; simpl in E; lia).
  assert (NY : py <> []) by (intros E; apply (f_equal (@length _)) in E; unfold py in E; rewrite patterns_length in E; simpl in E; lia).
  assert (PX : forall zs, map (fun w => lehmer (argsort (unstable k) w)) (windows x0 zs d s) = map lehmer (patterns (k_df k) x0 zs d s))
    by (intros zs; unfold patterns; rewrite map_map; reflexivity).
  assert (PERM : forall zs p, In p (patterns (k_df k) x0 zs d s) -> is_perm d p).
  { intros zs p Hp. unfold patterns in Hp. apply in_map_iff in Hp. destruct Hp as (w & <- & Hw). pose proof (windows_In_length x0 zs d s w Hw) as <-. apply (LK w). }
  assert (INJ : forall p q, In p (px ++ py) -> In q (px ++ py) -> lehmer p = lehmer q -> p = q).
  { intros p q Hp Hq. apply lehmer_inj. apply in_app_or in Hp, Hq.
    assert (P1 : is_perm d p) by (destruct Hp as [Hp|Hp]; eapply PERM, Hp).
    assert (P2 : is_perm d q) by (destruct Hq as [Hq|Hq]; eapply PERM, Hq).
    unfold is_perm in P1, P2. rewrite P1, P2. reflexivity. }
  assert (EE : Ent (map (eff_sort k d s) (windows x0 xs d s)) = Ent (map lehmer px)).
  { transitivity (Ent px).
    - f_equal. unfold px, patterns. apply map_ext_in. intros w Hw. unfold no_ties in NT. rewrite Forall_forall in NT.
      apply (C31_pattern_unique w); [apply NT, Hw|apply eff_sort_sorts; exact LK|apply LK].
    - symmetry. apply Ent_map_inj. intros p q Hp Hq. apply INJ; apply in_or_app; auto. }
  split.
  - unfold kld_ordinal, cross_entropy_ordinal. rewrite ord_init_ok by lia. cbn [bind].
    rewrite (symbolize_int_ok (unstable k) x0) by assumption. cbn [bind].
    rewrite (symbolize_int_ok (unstable k) x0) by assumption. cbn [bind]. rewrite !PX. fold px. fold py.
    assert (MX : map lehmer px <> []) by (destruct px; [congruence|discriminate]).
    assert (MY : map lehmer py <> []) by (destruct py; [congruence|discriminate]).
    rewrite !from_data_dd by assumption. cbn [bind].
    rewrite (entropy_ordinal_ok k b x0) by (assumption || lia). rewrite EE.
    rewrite discrete_cross_ok by assumption. cbn [bind]. f_equal.
    rewrite <- (KL_relabel lehmer px py INJ), <- KL_PKL_unique.
    assert (IU : incl (unique (map lehmer px)) (unique (map lehmer py))).
    { apply incl_unique. intros c Hc. apply in_map_iff in Hc. destruct Hc as (p & <- & Hp). apply in_map, I, Hp. }
    rewrite <- (code_kl_incl _ _ _ _ (unique_NoDup _) IU), <- code_kl; [|apply unique_NoDup|intros v Hv; apply prob_pos, unique_In, Hv|intros v Hv; apply prob_pos, unique_In, Hv].
    rewrite Ent_PEnt_unique. pose proof (unit_neq0 b V). field. assumption.
  - assert (P1 := prob_pmf_distinct px NX). assert (P2 := prob_pmf_distinct py NY).
    assert (IU : incl (distinct px) (distinct py)).
    { intros p Hp. rewrite (distinct_In px p) in Hp. apply (distinct_In py p), I, Hp. }
    split.
    + intros B. apply big_div_nonneg; [exact B|]. exact (PKL_nonneg _ _ _ _ P1 P2 IU).
    + exact (PKL_zero _ _ _ _ P1 P2 IU).
Qed.
Print Assumptions C27_kld_ordinal.

(** ** Jensen-Shannon divergence of ordinal patterns *)
(** the labels the code gives to patterns of dimension 3 (the two cyclic ones swapped) *)
Definition relab (l : list nat) : list nat :=
  if list_eq_dec Nat.eq_dec l [1; 2; 0]%nat then [2; 0; 1]%nat
  else if list_eq_dec Nat.eq_dec l [2; 0; 1]%nat then [1; 2; 0]%nat else l.
Lemma relab_inv l : relab (relab l) = l.
Proof.
  unfold relab. destruct (list_eq_dec Nat.eq_dec l [1; 2; 0]%nat) as [->|N1]; [reflexivity|].
  destruct (list_eq_dec Nat.eq_dec l [2; 0; 1]%nat) as [->|N2]; [reflexivity|].
  destruct (list_eq_dec Nat.eq_dec l [1; 2; 0]%nat); [contradiction|]. destruct (list_eq_dec Nat.eq_dec l [2; 0; 1]%nat); [contradiction|reflexivity].
Qed.
Lemma num3_relab k : valid3 k -> num3 k = relab (pat3 k).
Proof. intros [V1 V2]. destruct k as [[[] []] []]; try reflexivity; congruence. Qed.

Definition code_label (d s : nat) (l : list nat) : list nat := if (s =? 1)%nat && (d =? 3)%nat then relab l else l.
Lemma code_label_inj d s x y : code_label d s x = code_label d s y -> x = y.
Proof.
  unfold code_label. destruct ((s =? 1)%nat && (d =? 3)%nat); [|auto]. intros E. rewrite <- (relab_inv x), E. apply relab_inv.
Qed.

Lemma est_probs_pats k x0 (xs : list T) d s : (2 <= d)%nat -> (1 <= s)%nat -> ((d - 1) * s < length xs)%nat ->
  exists dict ps, est_probs k xs (Z.of_nat d) (Z.of_nat s) = Ok (dict, ps) /\ is_dist dict ps /\
    ps = map (code_label d s) (patterns (eff_sort k d s) x0 xs d s).
Proof.
  intros Hd Hs L. unfold est_probs, eff_sort, code_label, patterns.
  destruct (Nat.eqb_spec s 1) as [->|Ns].
  - destruct (Nat.eqb_spec d 2) as [->|N2]; [|destruct (Nat.eqb_spec d 3) as [->|N3]].
    + cbn [orb andb Z.of_nat]. change ((2 =? 2)%Z && (1 =? 1)%Z)%bool with true. cbv iota.
      exists (fst (est_dim2 xs)), (snd (est_dim2 xs)). split; [destruct (est_dim2 xs); reflexivity|].
      split; [apply est_dim2_dict; simpl in L; lia|]. rewrite (est_dim2_pats x0). change ((2 =? 3)%nat) with false. cbn [andb]. rewrite map_id. reflexivity.
    + change (Z.of_nat 3) with 3%Z. change (Z.of_nat 1) with 1%Z. cbn [Z.eqb Pos.eqb andb orb]. cbv iota.
      destruct (est_dim3_ok xs) as (dict & E & D); [simpl in L; lia|]. exists dict, (map num3 (keys3 xs)). split; [exact E|]. split; [exact D|].
      rewrite windows_3. unfold keys3. rewrite !map_map. apply map_ext. intros [[x y] z]. rewrite argsort_rev_3. apply num3_relab, key3_valid.
    + destruct (Z.eqb_spec (Z.of_nat d) 2); [lia|]. destruct (Z.eqb_spec (Z.of_nat d) 3); [lia|]. cbn [andb orb].
      rewrite (symbolize_ok k x0) by lia. cbn [bind]. do 2 eexists. split; [reflexivity|].
      split; [|rewrite map_id; reflexivity].
      replace (IZR (Z.of_nat (length xs) - (Z.of_nat d - 1) * Z.of_nat 1)) with (INR (length (map (argsort k) (windows x0 xs d 1)))); [apply is_dist_counter|].
      rewrite map_length, windows_length, INR_IZR_INZ. f_equal. lia.
  - destruct (Z.eqb_spec (Z.of_nat s) 1); [lia|]. rewrite !andb_false_r. cbn [andb].
    rewrite (symbolize_ok k x0) by lia. cbn [bind]. do 2 eexists. split; [reflexivity|].
    split; [|rewrite map_id; reflexivity].
    replace (IZR (Z.of_nat (length xs) - (Z.of_nat d - 1) * Z.of_nat s)) with (INR (length (map (argsort k) (windows x0 xs d s)))); [apply is_dist_counter|].
    rewrite map_length, windows_length, INR_IZR_INZ. f_equal. nia.
Qed.

(** When every series is longer than one window, the ordinal Jensen-Shannon divergence is that of the
    ordinal patterns of some legal sort (the same for all series). *)
Theorem C28_jsd_ordinal (k : kind T) b x0 (vars : list (list T)) d s : legal_kind k -> valid_base b -> (2 <= d)%nat -> (1 <= s)%nat ->
  vars <> [] -> (forall xs, In xs vars -> ((d - 1) * s + 1 < length xs)%nat) ->
  exists p, sorting p /\
  let ds := map (fun xs => patterns p x0 xs d s) vars in
  jsd_ordinal k b vars (Z.of_nat d) (Z.of_nat s) = Ok (JSD ds / unit_of b) /\
  (big_base b -> 0 <= JSD ds / unit_of b <= ln (INR (length vars)) / unit_of b) /\
  (JSD ds = 0 <-> forall u v q, In u ds -> In v ds -> prob u q = prob v q).
Proof.
  intros LK V Hd Hs NE L. exists (eff_sort k d s). split; [intros w; apply eff_sort_sorts; exact LK|]. intros ds.
  assert (ND : ds <> []) by (unfold ds; destruct vars; [congruence|discriminate]).
  assert (F : Forall (fun c => c <> []) ds).
  { apply Forall_forall. intros c Hc. apply in_map_iff in Hc. destruct Hc as (xs & <- & Hx). intros E. apply (f_equal (@length _)) in E.
    rewrite patterns_length in E. specialize (L xs Hx). simpl in E. lia. }
  destruct (JSD_facts ds ND F) as [[J0 J1] JZ]. split; [|split; [|exact JZ]].
  2:{ intros B. replace (length vars) with (length ds) by (unfold ds; apply map_length). split; [apply big_div_nonneg|apply big_div_le]; assumption. }
  rewrite <- (JSD_relabel (code_label d s)) by apply code_label_inj. rewrite JSD_PJSD.
  set (cs := map (map (code_label d s)) ds).
  assert (R : exists rs, mapM (fun xs => ord_simple k b xs (Z.of_nat d) (Z.of_nat s)) vars = Ok rs /\
     map fst rs = map (fun e => PEnt (fst e) (snd e) / unit_of b) (map (fun c => (distinct c, prob c)) cs) /\
     Forall2 dict_of (map (fun r : R * option odist => match snd r with Some o => fst o | None => [([0%nat], 1)] end) rs) (map (fun c => (distinct c, prob c)) cs)).
  { unfold cs, ds. clear -L V Hd Hs LK. induction vars as [|xs vars IH]; [exists []; repeat split; constructor|].
    destruct IH as (rs & E & M & F2); [intros ys Hy; apply L; right; exact Hy|].
    specialize (L xs (or_introl eq_refl)).
    destruct (est_probs_pats k x0 xs d s Hd Hs ltac:(clear -L; lia)) as (dict & ps & E1 & D & EP).
    cbn [mapM]. unfold ord_simple at 1.
    destruct (Z.eqb_spec (Z.of_nat d) 1); [lia|]. destruct (Z.eqb_spec ((Z.of_nat d - 1) * Z.of_nat s + 1) (Z.of_nat (length xs))) as [Q|_].
    { exfalso. clear -Q L Hd. nia. }
    rewrite E1. cbn [bind fst]. rewrite (is_dist_plogp b dict ps V D). cbn [bind]. rewrite E. cbn [bind].
    eexists. split; [reflexivity|]. cbn [map fst snd]. rewrite <- EP. split; [rewrite M; reflexivity|]. constructor; [|exact F2].
    destruct D as [D1 D2]. split; [exact D1|]. intros q v. cbn [fst snd]. rewrite D2. rewrite (distinct_In ps q). tauto. }
  destruct R as (rs & E & M & F2). unfold jsd_ordinal.
  rewrite (mapM_ok _ (fun _ => tt)) by (intros xs Hx; specialize (L xs Hx); apply ord_init_ok; lia). cbn [bind]. rewrite E. cbn [bind].
  rewrite M. apply jsd_of_ok; [exact V|unfold cs, ds; destruct vars; [congruence|discriminate]|exact F2|].
  intros e He. apply in_map_iff in He. destruct He as (c & <- & Hc). cbn [fst snd]. apply prob_pmf_distinct.
  unfold cs in Hc. apply in_map_iff in Hc. destruct Hc as (c' & <- & Hc'). rewrite Forall_forall in F. specialize (F c' Hc'). destruct c'; [congruence|discriminate].
Qed.
Print Assumptions C28_jsd_ordinal.
End OrdDiv.

(** With ties the entropy and the cross-entropy use different sorts: the divergence of a series from
    itself is negative (dimension 2, numpy's insertion sort for short windows keeps ties in order). *)
Theorem C27_kld_ordinal_self_refuted : let k := mkKind (@argsort_stable Z _) false in legal_kind k /\
  exists v, kld_ordinal k BE [0; 0; 1; 2]%Z [0; 0; 1; 2]%Z 2 1 = Ok v /\ v < 0.
Proof.
  intros k. assert (LK : legal_kind k) by apply stable_legal. split; [exact LK|].
  pose proof (entropy_ordinal_ok k BE 0%Z [0; 0; 1; 2]%Z 2 1 LK Logic.I ltac:(lia) ltac:(lia) ltac:(simpl; lia)) as E.
  assert (C : cross_entropy_ordinal k BE [0; 0; 1; 2]%Z [0; 0; 1; 2]%Z 2 1 = discrete_cross BE (dd_of [0; 0; 0]%Z) (dd_of [0; 0; 0]%Z)) by reflexivity.
  unfold kld_ordinal. rewrite C, discrete_cross_ok by (exact Logic.I || discriminate). cbn [bind].
  change (Z.of_nat 2) with 2%Z in E. change (Z.of_nat 1) with 1%Z in E. rewrite E. cbn [bind]. eexists. split; [reflexivity|].
  replace (map (eff_sort k 2 1) (windows 0%Z [0; 0; 1; 2]%Z 2 1)) with ([[1; 0]; [0; 1]; [0; 1]]%nat) by (vm_compute; reflexivity).
  change (common (unique [0; 0; 0]%Z) (unique [0; 0; 0]%Z)) with [0%Z].
  unfold Ent, prob, count, distinct. change (nodup eq_dec [[1; 0]; [0; 1]; [0; 1]]%nat) with ([[1; 0]; [0; 1]]%nat).
  unfold sumf. simpl.
  replace ((1 + 1 + 1) / (1 + 1 + 1)) with 1 by lra. rewrite ln_1.
  assert (L1 : ln (1 / (1 + 1 + 1)) < 0).
  { replace 0 with (ln 1) by apply ln_1. apply ln_increasing; lra. }
  assert (L2 : ln ((1 + 1) / (1 + 1 + 1)) < 0).
  { replace 0 with (ln 1) by apply ln_1. apply ln_increasing; lra. }
  lra.
Qed.

(** A series of exactly one window is labelled with its true pattern, longer series of dimension 3 with the
    swapped labels: [1,2,0] and [5,6,4,3] share the pattern (2,0,1), yet the reported divergence is the
    maximal one, ln 2. *)
Theorem C28_jsd_ordinal_labels_refuted : let k := mkKind (@argsort_stable Z _) false in
  jsd_ordinal k BE [[1; 2; 0]; [5; 6; 4; 3]]%Z 3 1 = Ok (ln 2) /\
  symbolize k [1; 2; 0]%Z 3 1 = Ok [[2; 0; 1]]%nat /\ symbolize k [5; 6; 4; 3]%Z 3 1 = Ok [[2; 0; 1]; [2; 1; 0]]%nat.
Proof.
  intros k. split; [|split; vm_compute; reflexivity].
  destruct (est_probs_pats k 0%Z [5; 6; 4; 3]%Z 3 1 ltac:(lia) ltac:(lia) ltac:(simpl; lia)) as (dict & ps & E & D & EP).
  assert (EQ : ps = [[1; 2; 0]; [2; 1; 0]]%nat) by (rewrite EP; vm_compute; reflexivity). clear EP.
  change (Z.of_nat 3) with 3%Z in E. change (Z.of_nat 1) with 1%Z in E.
  assert (S2 : ord_simple k BE [5; 6; 4; 3]%Z 3 1 = Ok (Ent ps / 1, Some (dict, ps))).
  { unfold ord_simple. change (3 =? 1)%Z with false. change ((3 - 1) * 1 + 1 =? Z.of_nat (length [5; 6; 4; 3]%Z))%Z with false. cbv iota.
    rewrite E. cbn [bind fst]. rewrite (is_dist_plogp BE dict ps Logic.I D). reflexivity. }
  assert (S1 : ord_simple k BE [1; 2; 0]%Z 3 1 = Ok (0, Some ([([2; 0; 1]%nat, 1)], [[2; 0; 1]%nat]))) by reflexivity.
  unfold jsd_ordinal. cbn [mapM]. rewrite S1, S2. cbn [bind ord_init].
  change (ord_init [1; 2; 0]%Z 3 1) with (Ok tt). change (ord_init [5; 6; 4; 3]%Z 3 1) with (Ok tt). cbn [bind map fst snd].
  assert (G : jsd_of BE [[([2; 0; 1]%nat, 1)]; dict] (map (fun e => PEnt (fst e) (snd e) / unit_of BE)
      (map (fun c => (distinct c, prob c)) [[[2; 0; 1]]; ps]%nat)) = Ok (PJSD (map (fun c => (distinct c, prob c)) [[[2; 0; 1]]; ps]%nat) / unit_of BE)).
  { apply jsd_of_ok; [exact Logic.I|discriminate| |].
    - constructor; [|constructor; [|constructor]].
      + split; [repeat constructor; simpl; tauto|]. intros q v. cbn [fst snd]. rewrite (distinct_In [[2; 0; 1]%nat] q). simpl. split.
        * intros [Q|[]]. injection Q as <- <-. split; [auto|]. unfold prob, count. simpl. lra.
        * intros [[<-|[]] ->]. left. f_equal. unfold prob, count. simpl. lra.
      + destruct D as [D1 D2]. split; [exact D1|]. intros q v. cbn [fst snd]. rewrite D2, (distinct_In ps q). tauto.
    - intros e [<-|[<-|[]]]; apply prob_pmf_distinct; [discriminate|rewrite EQ; discriminate]. }
  rewrite <- JSD_PJSD in G. cbn [map fst snd] in G.
  replace (PEnt (distinct [[2; 0; 1]]%nat) (prob [[2; 0; 1]]%nat) / unit_of BE) with 0 in G.
  2:{ change (PEnt (distinct [[2; 0; 1]]%nat) (prob [[2; 0; 1]]%nat)) with (Ent [[2; 0; 1]]%nat). rewrite (Ent_const _ [2; 0; 1]%nat); [unfold Rdiv; ring|]. intros x [<-|[]]. reflexivity. }
  change (PEnt (distinct ps) (prob ps) / unit_of BE) with (Ent ps / 1) in G. rewrite G. f_equal.
  subst ps. simpl unit_of. unfold JSD. change (distinct (concat [[[2; 0; 1]]; [[1; 2; 0]; [2; 1; 0]]])%nat) with ([[2; 0; 1]; [1; 2; 0]; [2; 1; 0]]%nat).
  unfold Ent, mixprob, prob, count, distinct.
  change (nodup eq_dec [[2; 0; 1]]%nat) with ([[2; 0; 1]]%nat). change (nodup eq_dec [[1; 2; 0]; [2; 1; 0]]%nat) with ([[1; 2; 0]; [2; 1; 0]]%nat).
  unfold sumf. simpl.
  replace ((1 / 1 + (0 / (1 + 1) + 0)) / (1 + 1)) with (/ 2) by lra.
  replace ((0 / 1 + (1 / (1 + 1) + 0)) / (1 + 1)) with (/ 2 * / 2) by lra.
  replace (1 / 1) with 1 by lra. replace (1 / (1 + 1)) with (/ 2) by lra.
  rewrite ln_1, ln_mult by lra. rewrite ln_Rinv by lra. lra.
Qed.

(** the guards are satisfiable *)
Example C27_ordinal_example : let k := mkKind (@argsort_stable Z _) false in
  legal_kind k /\ no_ties 0%Z [1; 5; 2; 7]%Z 2 1 /\
  incl (patterns (k_df k) 0%Z [1; 5; 2; 7]%Z 2 1) (patterns (k_df k) 0%Z [4; 1; 3; 2; 0]%Z 2 1).
Proof.
  intros k. split; [apply stable_legal|]. split.
  - unfold no_ties, windows. simpl. repeat constructor; simpl; intuition congruence.
  - intros p Hp. vm_compute in Hp. vm_compute. tauto.
Qed.
