(** Property theorems C120: cross-entropy and the divergences in double precision (approach "discrete"). *)
From Coq Require Import Reals Lra Lia List ZArith Arith Bool Permutation Psatz.
From Flocq Require Import Core Relative.
From Verif Require Import Res RSum Spec SpecBase SpecEst SpecInput SpecCross Info Info2 Ord MBase MData MEntropy MDiv PBase PEntropy PEst PDiv PDiv2 PropsDiv PropsCross
  MFloat MFloat3 SpecFloat SpecFloat2 PFloat PFloat2 PFloat3 PFloat7 PropsFloat.
Import ListNotations.
Local Open Scope R_scope.

Lemma f_dict_get (xs : list Z) v : In v xs -> dget_exn (f_dict (dd_of xs)) v = Ok (f_prob (Z.of_nat (count xs v)) (Z.of_nat (length xs))).
Proof. intros Hv. unfold f_dict. rewrite f_probs_dd. cbn [dd_uniq dd_of]. unfold dget_exn. rewrite dget_combine by (apply unique_In; exact Hv). reflexivity. Qed.

Lemma f_prob_count (xs : list Z) v : In v xs -> (Z.of_nat (length xs) <= 2 ^ 53)%Z -> let q := f_prob (Z.of_nat (count xs v)) (Z.of_nat (length xs)) in
  isfl q /\ uro <= q <= 1 /\ (1 - uro) * prob xs v <= q <= (1 + uro) * prob xs v /\ (q = 1 <-> forall y, In y xs -> y = v) /\ 0 < prob xs v <= 1.
Proof.
  intros Hv NB q. pose proof (counts_range xs v (proj2 (unique_In xs v) Hv)) as C. destruct (f_prob_facts _ _ C NB) as (EQ & PR & PE & P1 & PL). fold q in EQ, PR, PE, P1, PL.
  rewrite <- prob_IZR in PE. pose proof uro_pos.
  split; [unfold q, f_prob; apply fl_isfl|]. split; [exact PR|]. split; [exact PE|]. split; [|split; [apply prob_pos; exact Hv|apply prob_le1]].
  assert (QN : q = 1 <-> count xs v = length xs).
  { split; [|intros e; apply P1; lia]. intros Q1. destruct (Nat.eq_dec (count xs v) (length xs)) as [e|n]; [exact e|]. assert (q <= 1 - uro) by (apply PL; lia). lra. }
  rewrite QN. unfold count. change (@eq_dec Z _) with Z.eq_dec. clear. induction xs as [|x xs IH]; [split; [intros _ y []|reflexivity]|].
  cbn [count_occ length]. pose proof (count_occ_bound Z.eq_dec v xs). destruct (Z.eq_dec x v) as [->|n].
  - split; [intros Q y [->|Hy]; [reflexivity|]; apply IH; [lia|exact Hy]|]. intros Q. f_equal. apply IH. intros y Hy. apply Q. right. exact Hy.
  - split; [lia|]. intros Q. exfalso. apply n, Q. left. reflexivity.
Qed.

Lemma sumf_filter_below {A} (g : A -> bool) (f : A -> R) l : (forall v, 0 <= f v) -> sumf f (filter g l) <= sumf f l.
Proof. intros P. induction l as [|v l IH]; cbn [filter sumf]; [lra|]. pose proof (P v). destruct (g v); cbn [sumf]; lra. Qed.
Lemma sum_distinct1 (ps : list Z) : ps <> [] -> sumf (prob ps) (distinct ps) = 1.
Proof.
  intros N. rewrite <- (prob_sum1 ps N). apply sumf_perm. apply NoDup_Permutation; [apply NoDup_nodup|apply unique_NoDup|].
  intros v. rewrite unique_In. apply distinct_In.
Qed.

(** the exact value restricted to the shared symbols, up to rounding; never negative *)
Theorem C120_cross_entropy : forall E eps ord b ps qs, accurate eps E -> 0 <= eps <= / 10 -> float_base b -> set_order ord ->
  ps <> [] -> qs <> [] -> (Z.of_nat (length ps) <= 2 ^ 53)%Z -> (Z.of_nat (length qs) <= 2 ^ 53)%Z ->
  exists v, f_cross_api E ord b (A1 ps) (A1 qs) = Ok v /\ 0 <= v /\
    (v = 0 <-> forall x y, In x ps -> In x qs -> In y qs -> y = x) /\
    Rabs (v - CrossEnt ps qs / unit_of b) <= sum_err E b eps (length (shared ps qs)) (CrossEnt ps qs / unit_of b).
Proof.
  intros E eps ord b ps qs Ac Ee Fb SO NP NQ LP LQ. unfold f_cross_api. rewrite !make_1d by assumption. cbn [bind]. unfold f_cross. cbn [dd_uniq dd_of].
  pose proof uro_pos as U0. pose proof uro_small as U1.
  set (cm := common (unique ps) (unique qs)). set (u := ord cm).
  assert (PU : Permutation u (shared ps qs)) by (eapply Permutation_trans; [apply SO, common_NoDup|apply common_shared]).
  assert (IN : forall v, In v u <-> In v ps /\ In v qs).
  { intros v. rewrite <- shared_In. split; intros Q; eapply Permutation_in; try exact Q; [exact PU|symmetry; exact PU]. }
  set (W := fun v => f_prob (Z.of_nat (count ps v)) (Z.of_nat (length ps))). set (X := fun v => f_prob (Z.of_nat (count qs v)) (Z.of_nat (length qs))).
  destruct (weighted_sum E eps b (prob ps) W (prob qs) X u 1 (2 * uro) Ac Ee Fb) as (LG & S0 & _ & SZ & H0 & SB).
  - intros v Hv. apply IN in Hv. destruct (f_prob_count ps v (proj1 Hv) LP) as (_ & A1 & A2 & _ & A3). fold (W v) in *.
    rewrite !pow_1. split; [apply A3|]. split; [exact A2|]. apply Rle_trans with uro; [rewrite uro_bpow; apply bpow_le; lia|apply A1].
  - intros v Hv. apply IN in Hv. destruct (f_prob_count qs v (proj2 Hv) LQ) as (A0 & A1 & A2 & _ & A3). fold (X v) in *.
    split; [exact A3|]. split; [lra|]. split; [exact A0|]. apply ln_close; [apply A3|exact A2].
  - rewrite (sumf_perm _ _ _ PU). rewrite <- (sum_distinct1 ps NP). unfold shared. apply sumf_filter_below. intros v. apply prob_le1.
  - lra.
  - assert (HH : sumf (fun i => prob ps i * (- ln (prob qs i) / unit_of b)) u = CrossEnt ps qs / unit_of b).
    { rewrite (sumf_perm _ _ _ PU). unfold CrossEnt, shared_sum. generalize (shared ps qs) as l. intros l. induction l as [|v l IH]; cbn [sumf]; [unfold Rdiv; ring|].
      rewrite IH. unfold Rdiv. ring. }
    rewrite HH in *. set (s := f_sum E (map (wterm E b W X) u)) in *.
    replace (1 + uro) with (1 + uro) in SB by reflexivity. rewrite (Permutation_length PU) in SB. replace (depth (f_order E (length (shared ps qs))) + 1 + 1)%nat with (depth (f_order E (length (shared ps qs))) + 2)%nat in SB by lia.
    fold (gam E b eps (length (shared ps qs))) in SB.
    assert (RES : match cm with [] => Ok 0 | z0 :: l0 => let* ts := mapM (fun v => let* pv := dget_exn (f_dict (dd_of ps)) v in let* qv := dget_exn (f_dict (dd_of qs)) v in
                  let* l := f_log_base E b qv in Ok (fl (pv * l))) (ord (z0 :: l0)) in Ok (- f_sum E ts) end = Ok s).
    { assert (G : (let* ts := mapM (fun v => let* pv := dget_exn (f_dict (dd_of ps)) v in let* qv := dget_exn (f_dict (dd_of qs)) v in
                  let* l := f_log_base E b qv in Ok (fl (pv * l))) u in Ok (- f_sum E ts)) = Ok s).
      { rewrite (mapM_ok _ (fun v => fl (W v * logof E b (X v)))).
        - cbn [bind]. f_equal. rewrite <- f_sum_opp. unfold s. f_equal. rewrite map_map. apply map_ext. intros v. unfold wterm. rewrite <- fl_opp. f_equal. ring.
        - intros v Hv. pose proof (LG v Hv) as L. apply IN in Hv. rewrite (f_dict_get ps v) by apply Hv. rewrite (f_dict_get qs v) by apply Hv. cbn [bind]. fold (W v) (X v). rewrite L. reflexivity. }
      destruct cm as [|c0 cr] eqn:CE; [|exact G].
      assert (UE : u = []) by (apply Permutation_nil; symmetry; apply (SO []); constructor). unfold s. rewrite UE. reflexivity. }
    exists s. split; [exact RES|]. split; [exact S0|]. split.
    + rewrite SZ. split.
      * intros Q x y Hp Hq Hy. assert (Hu : In x u) by (apply IN; split; assumption). destruct (f_prob_count qs x Hq LQ) as (_ & _ & _ & Z & _). apply Z; [apply Q; exact Hu|exact Hy].
      * intros Q v Hv. apply IN in Hv. destruct (f_prob_count qs v (proj2 Hv) LQ) as (_ & _ & _ & Z & _). apply Z. intros y Hy. apply (Q v y); [apply Hv|apply Hv|exact Hy].
    + exact SB.
Qed.
Print Assumptions C120_cross_entropy.

Lemma mapM_map' {A B C} (f : B -> res C) (g : A -> B) l : mapM f (map g l) = mapM (fun a => f (g a)) l.
Proof. induction l as [|a l IH]; [reflexivity|]. cbn [map mapM]. rewrite IH. reflexivity. Qed.
Lemma sum_err_ge E b eps n h : 0 <= eps <= / 10 -> float_base b -> 0 <= h -> uro / 512 <= sum_err E b eps n h.
Proof.
  intros Ee Fb h0. pose proof uro_pos as U0. pose proof (unit_range b Fb) as UR. pose proof (base_eps_range b eps Ee) as BR.
  assert (g0 : 0 <= gam E b eps n).
  { unfold gam. set (k := (depth (f_order E n) + 2)%nat). destruct (pow_sum k) as (_ & _ & _ & G1).
    assert (0 <= (1 + uro) ^ k * base_eps b eps) by (apply Rmult_le_pos; lra). lra. }
  unfold sum_err. set (g := gam E b eps n) in *. assert (D : uro / 512 <= 2 * uro / unit_of b).
  { apply (Rmult_le_reg_r (unit_of b)); [lra|]. unfold Rdiv. rewrite (Rmult_assoc (2 * uro)), Rinv_l by lra. assert (uro * unit_of b <= uro * 1024) by (apply Rmult_le_compat_l; lra). lra. }
  assert (0 <= g * h) by (apply Rmult_le_pos; assumption). assert (0 <= g * (2 * uro / unit_of b)) by (apply Rmult_le_pos; lra). lra.
Qed.

Lemma sub_close hc h x y e1 e2 : Rabs (x - hc) <= e1 -> Rabs (y - h) <= e2 -> uro / 512 <= e1 + e2 -> Rabs (fl (x - y) - (hc - h)) <= (1 + 2 * uro) * (e1 + e2) + uro * Rabs (hc - h).
Proof.
  intros A C G. pose proof uro_pos as U0. pose proof (fl_abs (x - y)) as F. pose proof omega_small as OM.
  assert (uro * (uro * / 4096) <= uro * (e1 + e2)) by (apply Rmult_le_compat_l; lra).
  assert (T : Rabs (x - y - (hc - h)) <= e1 + e2). { replace (x - y - (hc - h)) with ((x - hc) - (y - h)) by ring. eapply Rle_trans; [apply Rabs_triang|]. rewrite Rabs_Ropp. lra. }
  assert (T2 : Rabs (x - y) <= Rabs (hc - h) + (e1 + e2)). { replace (x - y) with ((hc - h) + (x - y - (hc - h))) by ring. eapply Rle_trans; [apply Rabs_triang|]. lra. }
  assert (uro * Rabs (x - y) <= uro * (Rabs (hc - h) + (e1 + e2))) by (apply Rmult_le_compat_l; lra).
  replace (fl (x - y) - (hc - h)) with ((fl (x - y) - (x - y)) + (x - y - (hc - h))) by ring. eapply Rle_trans; [apply Rabs_triang|]. lra.
Qed.

Lemma f_entropy_close E eps b ps : accurate eps E -> 0 <= eps <= / 10 -> float_base b -> ps <> [] -> (Z.of_nat (length ps) <= 2 ^ 53)%Z ->
  exists h, f_entropy E b (EArr (A1 ps)) = Ok h /\ 0 <= h /\ Rabs (h - Ent ps / unit_of b) <= sum_err E b eps (length (distinct ps)) (Ent ps / unit_of b).
Proof.
  intros Ac Ee Fb NP LP. destruct (f_plogp_bounds E eps b ps Ac Ee Fb NP LP) as (h & H1 & H2 & _ & H3). cbv zeta in H3. rewrite unique_length in H3.
  exists h. split; [rewrite f_entropy_1d by exact NP; exact H1|]. split; [exact H2|exact H3].
Qed.

Lemma Ent_unit0 b (ps : list Z) : float_base b -> ps <> [] -> 0 <= Ent ps / unit_of b.
Proof. intros Fb N. pose proof (unit_range b Fb). apply Rmult_le_pos; [apply Ent_nonneg; exact N|left; apply Rinv_0_lt_compat; lra]. Qed.

(** cross-entropy minus entropy, as computed exactly by the same procedure; for a sample whose values all occur in the
    reference sample this is the Kullback-Leibler divergence, so rounding is the only source of a negative result *)
Theorem C120_kld : forall E eps ord b ps qs, accurate eps E -> 0 <= eps <= / 10 -> float_base b -> set_order ord ->
  ps <> [] -> qs <> [] -> (Z.of_nat (length ps) <= 2 ^ 53)%Z -> (Z.of_nat (length qs) <= 2 ^ 53)%Z ->
  let hc := CrossEnt ps qs / unit_of b in let h := Ent ps / unit_of b in
  let e := kld_err E b eps (length (shared ps qs)) (length (distinct ps)) hc h in
  exists v, f_kld_api E ord b (A1 ps) (A1 qs) = Ok v /\ Rabs (v - (hc - h)) <= e /\
    (incl ps qs -> Rabs (v - KL ps qs / unit_of b) <= e /\ - e <= v).
Proof.
  intros E eps ord b ps qs Ac Ee Fb SO NP NQ LP LQ hc h e.
  destruct (C120_cross_entropy E eps ord b ps qs Ac Ee Fb SO NP NQ LP LQ) as (x & X1 & X2 & _ & X3).
  destruct (f_entropy_close E eps b ps Ac Ee Fb NP LP) as (y & Y1 & Y2 & Y3). fold hc in X3. fold h in Y3.
  exists (fl (x - y)). split; [unfold f_kld_api; rewrite X1; cbn [bind]; rewrite Y1; reflexivity|].
  pose proof (unit_range b Fb) as UR. assert (c0 : 0 <= hc) by (apply Rmult_le_pos; [apply cross_nonneg|left; apply Rinv_0_lt_compat; lra]).
  pose proof (Ent_unit0 b ps Fb NP) as h0. fold h in h0.
  assert (B : Rabs (fl (x - y) - (hc - h)) <= e).
  { apply sub_close; [exact X3|exact Y3|]. pose proof (sum_err_ge E b eps (length (shared ps qs)) hc Ee Fb c0). pose proof (sum_err_ge E b eps (length (distinct ps)) h Ee Fb h0). pose proof uro_pos. lra. }
  split; [exact B|]. intros I.
  assert (K : hc - h = KL ps qs / unit_of b). { unfold hc, h. rewrite cross_incl, cross_KL by exact I. field. lra. }
  rewrite K in B. split; [exact B|]. apply Rabs_le_inv in B.
  assert (0 <= KL ps qs / unit_of b); [|lra]. destruct (C27_kld_discrete b ps qs (big_valid b (float_big b Fb)) NP I) as (_ & P & _). apply P, float_big, Fb.
Qed.
Print Assumptions C120_kld.

(** when the set is iterated in ascending order (small non-negative integers in CPython), samples with the same counts have
    divergence exactly 0 *)
Theorem C120_kld_same : forall E ord b ps qs h, (forall l, ord l = unique l) -> Permutation ps qs -> f_entropy E b (EArr (A1 ps)) = Ok h -> f_kld_api E ord b (A1 ps) (A1 qs) = Ok 0.
Proof.
  intros E ord b ps qs h SO P HH. destruct (list_eq_dec Z.eq_dec ps []) as [->|NP]; [discriminate HH|].
  assert (NQ : qs <> []) by (intros ->; apply Permutation_sym, Permutation_nil in P; contradiction).
  pose proof HH as HH'. rewrite f_entropy_1d in HH' by exact NP. rewrite f_probs_dd in HH'.
  assert (UQ : unique qs = unique ps) by (apply unique_by_members; intros v; split; apply Permutation_in; [symmetry; exact P|exact P]).
  assert (X : f_cross_api E ord b (A1 ps) (A1 qs) = Ok h).
  { unfold f_cross_api. rewrite !make_1d by assumption. cbn [bind]. unfold f_cross. cbn [dd_uniq dd_of]. rewrite UQ.
    assert (CU : unique (common (unique ps) (unique ps)) = unique ps).
    { apply unique_by_members. intros v. rewrite common_In, !unique_In. tauto. }
    destruct (common (unique ps) (unique ps)) as [|c0 cr] eqn:CE.
    { exfalso. destruct ps as [|p0 pr]; [congruence|]. assert (Q : In p0 (common (unique (p0 :: pr)) (unique (p0 :: pr)))) by (apply common_In; rewrite !unique_In; split; left; reflexivity). rewrite CE in Q. destruct Q. }
    rewrite SO, CU. clear CE CU. set (q := fun v => f_prob (Z.of_nat (count ps v)) (Z.of_nat (length ps))) in *.
    unfold f_plogp in HH'. rewrite mapM_map' in HH'.
    assert (G : forall vs, incl vs (unique ps) -> forall ls, mapM (fun v => f_log_base E b (q v)) vs = Ok ls ->
      mapM (fun v => let* pv := dget_exn (f_dict (dd_of ps)) v in let* qv := dget_exn (f_dict (dd_of qs)) v in let* l := f_log_base E b qv in Ok (fl (pv * l))) vs
      = Ok (map (fun xy => fl (fst xy * snd xy)) (combine (map q vs) ls))).
    { induction vs as [|v vs IH]; intros I0 ls L; [injection L as <-; reflexivity|]. cbn [mapM] in L |- *.
      assert (Hv : In v ps) by (apply unique_In, I0; left; reflexivity).
      rewrite (f_dict_get ps v Hv), (f_dict_get qs v (Permutation_in _ P Hv)). cbn [bind].
      rewrite <- (count_perm ps qs v P), <- (Permutation_length P). fold (q v).
      destruct (f_log_base E b (q v)) as [lv| |] eqn:LV; cbn [bind] in L |- *; try discriminate L.
      destruct (mapM (fun v => f_log_base E b (q v)) vs) as [lr| |] eqn:LR; cbn [bind] in L; try discriminate L. injection L as <-.
      rewrite (IH (fun z hz => I0 z (or_intror hz)) lr eq_refl). reflexivity. }
    destruct (mapM (fun v => f_log_base E b (q v)) (unique ps)) as [ls| |] eqn:LS; cbn [bind] in HH'; try discriminate HH'.
    rewrite (G _ (incl_refl _) ls LS). cbn [bind]. exact HH'. }
  unfold f_kld_api. rewrite X. cbn [bind]. rewrite HH. cbn [bind]. f_equal. rewrite Rminus_diag_eq by reflexivity. apply fl_0.
Qed.
Print Assumptions C120_kld_same.

(** ** Jensen-Shannon divergence *)
Lemma f_dict_get0 (xs : list Z) v : get0 (f_dict (dd_of xs)) v = if in_dec eq_dec v xs then f_prob (Z.of_nat (count xs v)) (Z.of_nat (length xs)) else 0.
Proof.
  unfold f_dict. rewrite f_probs_dd. cbn [dd_uniq dd_of]. set (q := fun w => f_prob (Z.of_nat (count xs w)) (Z.of_nat (length xs))).
  assert (G : forall vs, get0 (combine vs (map q vs)) v = if in_dec eq_dec v vs then q v else 0).
  { induction vs as [|w vs IH]; [reflexivity|]. cbn [map combine get0]. rewrite IH. destruct (eq_dec w v) as [->|n].
    - destruct (in_dec eq_dec v (v :: vs)) as [_|N]; [reflexivity|]. exfalso. apply N. left. reflexivity.
    - destruct (in_dec eq_dec v vs) as [a|a], (in_dec eq_dec v (w :: vs)) as [c|c]; try reflexivity; exfalso; [apply c; right; exact a|].
      destruct c as [->|c]; [apply n; reflexivity|apply a; exact c]. }
  rewrite G. destruct (in_dec eq_dec v (unique xs)) as [a|a], (in_dec eq_dec v xs) as [c|c]; try reflexivity; exfalso; [apply c, unique_In, a|apply a, unique_In, c].
Qed.

Lemma bernoulli n : 1 - INR n * uro <= (1 - uro) ^ n.
Proof.
  pose proof uro_pos as U0. pose proof uro_small as U1. induction n as [|n IH]; [simpl; lra|]. rewrite S_INR. cbn [pow].
  assert (P : (1 - uro) ^ n <= 1) by (pose proof (pow_incr (1 - uro) 1 n ltac:(lra)) as Z; rewrite pow1 in Z; exact Z).
  assert (uro * (1 - uro) ^ n <= uro * 1) by (apply Rmult_le_compat_l; lra). lra.
Qed.

Section Mix.
Variable ds : list (list Z).
Hypothesis NE : ds <> [].
Hypothesis F : List.Forall (fun d => d <> [] /\ (Z.of_nat (length d) <= 2 ^ 53)%Z) ds.
Hypothesis NB : (Z.of_nat (length ds) <= 2 ^ 20)%Z.
Let n := length ds.
Let fq (v : Z) (d : list Z) : R := get0 (f_dict (dd_of d)) v.
Definition fmix (v : Z) : R := fl (py_sum (map (fun d => get0 (f_dict (dd_of d)) v) ds) / INR (length ds)).

Lemma fq_facts v d : In d ds -> (fq v d = 0 \/ uro <= fq v d) /\ 0 <= fq v d <= 1 /\ (1 - uro) * prob d v <= fq v d <= (1 + uro) * prob d v.
Proof using F.
  intros Hd. rewrite List.Forall_forall in F. destruct (F d Hd) as (N & L). unfold fq. rewrite f_dict_get0. pose proof uro_pos as U0.
  destruct (in_dec eq_dec v d) as [i|i].
  - destruct (f_prob_count d v i L) as (_ & A1 & A2 & _). split; [right; apply A1|]. split; [lra|exact A2].
  - assert (Z : prob d v = 0). { unfold prob. unfold count. rewrite (proj1 (count_occ_not_In eq_dec d v) i). unfold Rdiv. simpl. ring. }
    rewrite Z. split; [left; reflexivity|]. split; lra.
Qed.

Lemma n_pos : (1 <= n)%nat. Proof using NE. unfold n. revert NE. clear. intros N. destruct ds; [congruence|simpl; lia]. Qed.

Lemma fmix_facts v : In v (concat ds) -> 0 < mixprob ds v <= 1 /\ 0 < fmix v <= 1 /\ isfl (fmix v) /\
  (1 - uro) ^ (n + 2) * mixprob ds v <= fmix v <= (1 + uro) ^ (n + 2) * mixprob ds v /\ bpow radix2 (-200) <= fmix v.
Proof using NE F NB.
  intros Hv. pose proof uro_pos as U0. pose proof uro_small as U1. pose proof n_pos as N1.
  assert (n0 : 0 < INR n) by (apply lt_0_INR; lia).
  assert (nu : INR n <= 2 ^ 20). { rewrite INR_IZR_INZ. change 2 with (IZR 2). rewrite pow_IZR. apply IZR_le. exact NB. }
  set (S := sumf (fun d => prob d v) ds).
  assert (SP : mixprob ds v = S / INR n) by reflexivity.
  apply in_concat in Hv. destruct Hv as (d0 & Hd0 & Hv).
  assert (p0 : uro / 2 <= prob d0 v).
  { rewrite List.Forall_forall in F. destruct (F d0 Hd0) as (_ & L0). destruct (f_prob_count d0 v Hv L0) as (_ & A1 & A2 & _ & A3).
    assert ((1 + uro) * prob d0 v <= 2 * prob d0 v) by (apply Rmult_le_compat_r; lra). lra. }
  assert (S0 : uro / 2 <= S). { eapply Rle_trans; [exact p0|]. unfold S. apply (sumf_In_le (fun d => prob d v)); [|exact Hd0]. intros e He. apply prob_le1. }
  assert (S1 : S <= INR n). { unfold S, n. generalize ds. clear. intros l0. induction l0 as [|d l IH]; [simpl; lra|]. cbn [sumf]. change (length (d :: l)) with (Datatypes.S (length l)). rewrite S_INR. pose proof (prob_le1 d v). lra. }
  split; [split|].
  - rewrite SP. apply Rdiv_lt_0_compat; lra.
  - rewrite SP. apply (Rmult_le_reg_r (INR n)); [exact n0|]. unfold Rdiv. rewrite Rmult_assoc, Rinv_l by lra. lra.
  - set (l := map (fun d => get0 (f_dict (dd_of d)) v) ds).
    assert (TU : tiny <= uro) by (rewrite uro_bpow; apply tiny_le; lia).
    assert (FT : List.Forall (fun x => x = 0 \/ tiny <= x) l).
    { apply List.Forall_forall. intros x Hx. apply in_map_iff in Hx. destruct Hx as (d & <- & Hd). destruct (fq_facts v d Hd) as ([A|A] & _); [left; exact A|right]. unfold fq in A. lra. }
    destruct (py_sum_bounds l FT) as (PT & PB). assert (LL : length l = n) by (unfold l, n; apply map_length). rewrite LL in PB.
    assert (SL : (1 - uro) * S <= sumR l <= (1 + uro) * S).
    { unfold sumR, l, S. rewrite sumf_map. clear - F U0. induction F as [|d l A F' IH]; [simpl; lra|]. cbn [sumf].
      specialize (IH F'). destruct A as (N & L). destruct (in_dec eq_dec v d) as [i|i].
      - destruct (f_prob_count d v i L) as (_ & _ & A2 & _). rewrite f_dict_get0. destruct (in_dec eq_dec v d); [|contradiction].
        lra.
      - assert (Z : prob d v = 0) by (unfold prob, count; rewrite (proj1 (count_occ_not_In eq_dec d v) i); unfold Rdiv; simpl; ring).
        rewrite f_dict_get0, Z. destruct (in_dec eq_dec v d); [contradiction|]. lra. }
    set (p := py_sum l) in *. destruct (pow_sum n) as (_ & _ & D0 & D1).
    assert (P1 : (1 - uro) ^ (n + 1) * S <= p <= (1 + uro) ^ (n + 1) * S).
    { rewrite !pow_add, !pow_1. split.
      - apply Rle_trans with ((1 - uro) ^ n * sumR l); [|apply PB]. rewrite Rmult_assoc. apply Rmult_le_compat_l; [exact D0|apply SL].
      - apply Rle_trans with ((1 + uro) ^ n * sumR l); [apply PB|]. rewrite Rmult_assoc. apply Rmult_le_compat_l; [lra|apply SL]. }
    assert (H2 : / 2 <= (1 - uro) ^ (n + 1)).
    { eapply Rle_trans; [|apply bernoulli]. rewrite plus_INR. change (INR 1) with 1. assert (UU : uro <= / 2 ^ 22) by (unfold uro; apply Rinv_le_contravar; lra).
      assert ((INR n + 1) * uro <= (2 ^ 20 + 1) * / 2 ^ 22) by (apply Rmult_le_compat; lra). lra. }
    assert (p4 : uro / 4 <= p). { apply Rle_trans with (/ 2 * (uro / 2)); [lra|]. eapply Rle_trans; [|apply P1]. apply Rmult_le_compat; lra. }
    assert (pn : p <= INR n).
    { assert (Q : List.Forall (fun x => 0 <= x <= 1) l).
      { apply List.Forall_forall. intros x Hx. apply in_map_iff in Hx. destruct Hx as (d & <- & Hd). apply (fq_facts v d Hd). }
      pose proof (py_sum_le_n l Q 0 0%Z ltac:(simpl; lra) ltac:(lia)) as T. rewrite LL in T. unfold p, py_sum. rewrite INR_IZR_INZ. apply T. unfold n. lia. }
    change (fmix v) with (fl (p / INR n)).
    assert (q1 : p / INR n <= 1). { apply (Rmult_le_reg_r (INR n)); [exact n0|]. unfold Rdiv. rewrite Rmult_assoc, Rinv_l by lra. lra. }
    assert (ql : uro / 4 * / 2 ^ 20 <= p / INR n). { unfold Rdiv at 2. apply Rmult_le_compat; [lra|left; apply Rinv_0_lt_compat; lra|exact p4|apply Rinv_le_contravar; lra]. }
    assert (QB : uro / 4 * / 2 ^ 20 = bpow radix2 (-75)).
    { unfold Rdiv. rewrite uro_bpow. change (/ 4) with (bpow radix2 (-2)). replace (/ 2 ^ 20) with (bpow radix2 (-20)).
      - rewrite <- !bpow_plus. apply (f_equal (bpow radix2)). lia.
      - change (-20)%Z with (- (20))%Z. rewrite bpow_opp. f_equal. simpl. lra. }
    assert (T75 : tiny <= p / INR n) by (eapply Rle_trans; [apply (tiny_le (-75)); lia|rewrite <- QB; exact ql]).
    destruct (fl_pos_err (p / INR n) (or_intror T75)) as (B1 & _ & _).
    assert (F75 : bpow radix2 (-75) <= fl (p / INR n)). { rewrite <- (fl_bpow (-75)) by lia. apply fl_mono. rewrite <- QB. exact ql. }
    split; [split|split; [apply fl_isfl|split]].
    + eapply Rlt_le_trans; [apply (bpow_gt_0 radix2 (-75))|exact F75].
    + assert (F1 : fl 1 = 1) by (change 1 with (IZR 1); apply fl_int; simpl; lia). rewrite <- F1. apply fl_mono. exact q1.
    + assert (in0 : 0 < / INR n) by (apply Rinv_0_lt_compat; exact n0). rewrite SP. replace (n + 2)%nat with (1 + (n + 1))%nat by lia. rewrite (pow_add (1 - uro) 1 (n + 1)), (pow_add (1 + uro) 1 (n + 1)), !pow_1. unfold Rdiv in *. rewrite !Rmult_assoc. split.
      * apply Rle_trans with ((1 - uro) * (p * / INR n)); [|apply B1]. apply Rmult_le_compat_l; [lra|]. rewrite <- Rmult_assoc. apply Rmult_le_compat_r; [lra|apply P1].
      * apply Rle_trans with ((1 + uro) * (p * / INR n)); [apply B1|]. apply Rmult_le_compat_l; [lra|]. rewrite <- Rmult_assoc. apply Rmult_le_compat_r; [lra|apply P1].
    + eapply Rle_trans; [|exact F75]. apply bpow_le. lia.
Qed.

Lemma mix_sum1 : sumf (mixprob ds) (distinct (concat ds)) <= 1.
Proof using NE F.
  assert (n0 : 0 < INR n) by (apply lt_0_INR; pose proof n_pos; lia).
  unfold mixprob. fold n. rewrite sumf_div, sumf_swap. apply (Rmult_le_reg_r (INR n)); [exact n0|]. unfold Rdiv. rewrite Rmult_assoc, Rinv_l, Rmult_1_r, Rmult_1_l by lra.
  assert (G : forall l, incl l ds -> sumf (fun d => sumf (fun v => prob d v) (distinct (concat ds))) l <= INR (length l)).
  { induction l as [|d l IH]; intros I; [simpl; lra|]. cbn [sumf length]. rewrite S_INR. specialize (IH (fun x h => I x (or_intror h))).
    assert (Hd : In d ds) by (apply I; left; reflexivity). rewrite List.Forall_forall in F. destruct (F d Hd) as (N & _).
    assert (E : sumf (fun v => prob d v) (distinct (concat ds)) = 1).
    { rewrite (sumf_support (distinct d) (distinct (concat ds))); [apply sum_distinct1; exact N|apply NoDup_nodup|apply NoDup_nodup| |].
      - intros v Hv. apply (distinct_In d v) in Hv. apply (distinct_In (concat ds) v). apply in_concat. exists d. split; assumption.
      - intros v _ Nv. unfold prob, count. rewrite (proj1 (count_occ_not_In eq_dec d v)); [unfold Rdiv; simpl; ring|]. intros i. apply Nv, (distinct_In d v), i. }
    lra. }
  apply G, incl_refl.
Qed.
End Mix.

Lemma map_fst_combine {A B} (l : list A) (m : list B) : length l = length m -> map fst (combine l m) = l.
Proof. revert m. induction l as [|a l IH]; intros [|c m] L; [reflexivity|discriminate|discriminate|]. cbn [combine map fst]. rewrite IH; [reflexivity|injection L; auto]. Qed.
Lemma gam_le E b eps c D : 0 <= eps <= / 10 -> (depth (f_order E c) <= D)%nat -> 0 <= gam E b eps c <= (1 + uro) ^ (D + 2) * (1 + base_eps b eps) - 1.
Proof.
  intros Ee L. pose proof (base_eps_range b eps Ee) as BR. pose proof uro_pos as U0. unfold gam. set (k := (depth (f_order E c) + 2)%nat).
  destruct (pow_sum k) as (_ & _ & _ & G1). assert (0 <= (1 + uro) ^ k * base_eps b eps) by (apply Rmult_le_pos; lra).
  split; [lra|]. assert ((1 + uro) ^ k <= (1 + uro) ^ (D + 2)) by (apply pow_up; unfold k; lia).
  assert ((1 + uro) ^ k * (1 + base_eps b eps) <= (1 + uro) ^ (D + 2) * (1 + base_eps b eps)) by (apply Rmult_le_compat_r; lra). lra.
Qed.
Lemma sum_err_up E b eps c g h : float_base b -> 0 <= h -> 0 <= gam E b eps c <= g -> sum_err E b eps c h <= g * h + (1 + g) * (2 * uro / unit_of b).
Proof.
  intros Fb h0 (G0 & G1). pose proof (unit_range b Fb) as UR. pose proof uro_pos as U0. unfold sum_err. set (dl := 2 * uro / unit_of b).
  assert (0 <= dl) by (apply Rmult_le_pos; [lra|left; apply Rinv_0_lt_compat; lra]).
  apply Rplus_le_compat; [apply Rmult_le_compat_r; assumption|apply Rmult_le_compat_r; lra].
Qed.

Lemma entropy_term E eps b ps : accurate eps E -> 0 <= eps <= / 10 -> float_base b -> ps <> [] -> (Z.of_nat (length ps) <= 2 ^ 53)%Z ->
  exists h, f_plogp E b (f_probabilities (dd_of ps)) = Ok h /\ (h = 0 \/ tiny <= h) /\ Rabs (h - Ent ps / unit_of b) <= sum_err E b eps (length (distinct ps)) (Ent ps / unit_of b).
Proof.
  intros Ac Ee Fb NP LP. pose proof uro_pos as U0.
  destruct (f_plogp_bounds E eps b ps Ac Ee Fb NP LP) as (h & H1 & H2 & _ & H3). cbv zeta in H3. rewrite unique_length in H3.
  exists h. split; [exact H1|]. split; [|exact H3]. rewrite f_probs_dd in H1.
  set (W := fun v => f_prob (Z.of_nat (count ps v)) (Z.of_nat (length ps))) in *.
  destruct (weighted_sum E eps b (prob ps) W (prob ps) W (unique ps) 1 (2 * uro) Ac Ee Fb) as (LG & _ & ST & _).
  - intros v Hv. apply (proj1 (unique_In ps v)) in Hv. destruct (f_prob_count ps v Hv LP) as (_ & A1 & A2 & _ & A3). fold (W v) in *.
    rewrite !pow_1. split; [apply A3|]. split; [exact A2|]. apply Rle_trans with uro; [rewrite uro_bpow; apply bpow_le; lia|apply A1].
  - intros v Hv. apply (proj1 (unique_In ps v)) in Hv. destruct (f_prob_count ps v Hv LP) as (A0 & A1 & A2 & _ & A3). fold (W v) in *.
    split; [exact A3|]. split; [lra|]. split; [exact A0|]. apply ln_close; [apply A3|exact A2].
  - rewrite (prob_sum1 ps NP). lra.
  - lra.
  - rewrite (plogp_weighted E b W (unique ps) LG) in H1. injection H1 as <-. exact ST.
Qed.

Theorem C120_jsd : forall E eps ord b ds D, accurate eps E -> 0 <= eps <= / 10 -> float_base b -> set_order ord ->
  ds <> [] -> List.Forall (fun d => d <> [] /\ (Z.of_nat (length d) <= 2 ^ 53)%Z) ds -> (Z.of_nat (length ds) <= 2 ^ 20)%Z ->
  (forall d, In d (concat ds :: ds) -> (depth (f_order E (length (distinct d))) <= D)%nat) ->
  let n := length ds in let j := JSD ds / unit_of b in let hbar := sumf Ent ds / INR n / unit_of b in
  exists v, f_jsd_api E ord b (map A1 ds) = Ok v /\ Rabs (v - j) <= jsd_err b eps D n j hbar /\ - jsd_err b eps D n j hbar <= v.
Proof.
  intros E eps ord b ds D Ac Ee Fb SO NE F NB HD n j hbar. pose proof uro_pos as U0. pose proof uro_small as U1.
  pose proof (unit_range b Fb) as UR. pose proof (base_eps_range b eps Ee) as BR. set (U := unit_of b) in *. assert (iU : 0 < / U) by (apply Rinv_0_lt_compat; lra).
  assert (n0 : 0 < INR n) by (apply lt_0_INR; unfold n; destruct ds; [congruence|simpl; lia]). assert (in0 : 0 < / INR n) by (apply Rinv_0_lt_compat; exact n0).
  assert (FN : List.Forall (fun d => d <> []) ds) by (eapply Forall_impl; [|exact F]; intros d Q; apply Q).
  set (g1 := (1 + uro) ^ (D + 2) * (1 + base_eps b eps) - 1). set (dl := 2 * uro / U). assert (dl0 : 0 <= dl) by (apply Rmult_le_pos; lra).
  (* the entropies *)
  assert (HF : exists hf, forall d, In d ds -> f_plogp E b (f_probabilities (dd_of d)) = Ok (hf d) /\ (hf d = 0 \/ tiny <= hf d) /\
     Rabs (hf d - Ent d / U) <= g1 * (Ent d / U) + (1 + g1) * dl).
  { exists (fun d => match f_plogp E b (f_probabilities (dd_of d)) with Ok h => h | _ => 0 end). intros d Hd. rewrite List.Forall_forall in F. destruct (F d Hd) as (N & L).
    destruct (entropy_term E eps b d Ac Ee Fb N L) as (h & H1 & H2 & H3). rewrite H1. split; [reflexivity|]. split; [exact H2|]. eapply Rle_trans; [exact H3|].
    apply sum_err_up; [exact Fb|apply Ent_unit0; assumption|apply gam_le; [exact Ee|apply HD; right; exact Hd]]. }
  destruct HF as (hf & HF).
  assert (g10 : 0 <= g1).
  { destruct ds as [|d0 dr]; [congruence|]. pose proof (gam_le E b eps (length (distinct d0)) D Ee (HD d0 (or_intror (or_introl eq_refl)))). unfold g1. lra. }
  (* the mean *)
  set (Hb := sumf hf ds / INR n).
  assert (HbB : Rabs (Hb - hbar) <= g1 * hbar + (1 + g1) * dl).
  { assert (G : forall l, incl l ds -> Rabs (sumf hf l - sumf Ent l / U) <= g1 * (sumf Ent l / U) + INR (length l) * ((1 + g1) * dl)).
    { induction l as [|d l IH]; intros I0; [cbn [sumf length]; simpl (INR 0); unfold Rdiv; rewrite Rmult_0_l, Rminus_0_r, Rabs_R0; lra|].
      cbn [sumf length]. rewrite S_INR. specialize (IH (fun x h => I0 x (or_intror h))). destruct (HF d (I0 d (or_introl eq_refl))) as (_ & _ & B).
      replace (hf d + sumf hf l - (Ent d + sumf Ent l) / U) with ((hf d - Ent d / U) + (sumf hf l - sumf Ent l / U)) by (unfold Rdiv; ring).
      eapply Rle_trans; [apply Rabs_triang|]. replace (g1 * ((Ent d + sumf Ent l) / U)) with (g1 * (Ent d / U) + g1 * (sumf Ent l / U)) by (unfold Rdiv; ring). lra. }
    specialize (G ds (incl_refl _)). fold n in G.
    replace (Hb - hbar) with ((sumf hf ds - sumf Ent ds / U) * / INR n) by (unfold Hb, hbar; unfold Rdiv; ring).
    rewrite Rabs_mult, (Rabs_pos_eq (/ INR n)) by lra. apply (Rmult_le_compat_r (/ INR n)) in G; [|lra]. eapply Rle_trans; [exact G|]. right. unfold hbar. field. lra. }
  set (P := py_sum (map hf ds)). set (M := fl (P / INR n)).
  assert (MB : Rabs (M - hbar) <= gam_n b eps D n * hbar + (1 + gam_n b eps D n) * dl + omega).
  { assert (hb0 : 0 <= hbar). { unfold hbar. apply Rmult_le_pos; [apply Rmult_le_pos; [|lra]|lra]. apply sumf_nonneg. intros d Hd. rewrite List.Forall_forall in FN. apply Ent_nonneg. }
    assert (FT : List.Forall (fun x => x = 0 \/ tiny <= x) (map hf ds)).
    { apply List.Forall_forall. intros x Hx. apply in_map_iff in Hx. destruct Hx as (d & <- & Hd). apply (HF d Hd). }
    destruct (py_sum_bounds _ FT) as (PT & PB). fold P in PT, PB. rewrite map_length in PB. fold n in PB.
    assert (SR : sumR (map hf ds) = Hb * INR n) by (unfold sumR, Hb; rewrite sumf_map; unfold Rdiv; rewrite Rmult_assoc, Rinv_l, Rmult_1_r by lra; reflexivity). rewrite SR in PB.
    assert (Hb0 : 0 <= Hb). { unfold Hb. apply Rmult_le_pos; [|lra]. apply sumf_nonneg. intros d Hd. pose proof tiny_pos. destruct (HF d Hd) as (_ & [->|Q] & _); lra. }
    assert (P0 : 0 <= P) by (pose proof tiny_pos; destruct PT; lra).
    set (m := P / INR n) in *. assert (m0 : 0 <= m) by (apply Rmult_le_pos; lra).
    assert (mB : (1 - uro) ^ n * Hb <= m <= (1 + uro) ^ n * Hb).
    { unfold m, Rdiv. split; apply (Rmult_le_reg_r (INR n)); try exact n0; rewrite (Rmult_assoc P), Rinv_l, Rmult_1_r by lra; rewrite Rmult_assoc; apply PB. }
    pose proof (fl_abs m) as FA. fold M in FA. rewrite (Rabs_pos_eq m m0) in FA. apply Rabs_le_inv in FA. apply Rabs_le_inv in HbB.
    set (G := gam_n b eps D n). assert (GE : 1 + G = (1 + uro) ^ (n + 1) * (1 + g1)).
    { unfold G, gam_n, g1. replace (D + n + 3)%nat with (n + 1 + (D + 2))%nat by lia. rewrite (pow_add (1 + uro) (n + 1) (D + 2)). ring. }
    assert (PO : 1 + INR (n + 1) * uro <= (1 + uro) ^ (n + 1)) by (apply poly; exact U0). assert (BE : 1 - INR (n + 1) * uro <= (1 - uro) ^ (n + 1)) by apply bernoulli.
    destruct (pow_sum (n + 1)) as (_ & _ & Q0 & Q1).
    set (x := g1 * hbar + (1 + g1) * dl) in *. assert (x0 : 0 <= x) by (unfold x; assert (0 <= g1 * hbar) by (apply Rmult_le_pos; assumption); assert (0 <= (1 + g1) * dl) by (apply Rmult_le_pos; lra); lra).
    assert (UPM : M <= (1 + G) * (hbar + dl) + omega).
    { rewrite GE. replace ((1 + uro) ^ (n + 1) * (1 + g1) * (hbar + dl)) with ((1 + uro) ^ (n + 1) * (hbar + x)) by (unfold x; ring).
      assert (M <= (1 + uro) * m + omega) by lra. assert ((1 + uro) * m <= (1 + uro) ^ (n + 1) * (hbar + x)); [|lra].
      rewrite pow_add, pow_1. rewrite (Rmult_comm ((1 + uro) ^ n)), Rmult_assoc. apply Rmult_le_compat_l; [lra|]. apply Rle_trans with ((1 + uro) ^ n * Hb); [apply mB|]. apply Rmult_le_compat_l; [apply pow_le; lra|lra]. }
    assert (GG : g1 + INR (n + 1) * uro <= G).
    { set (k := INR (n + 1) * uro) in *. assert (0 <= k) by (unfold k; apply Rmult_le_pos; [apply pos_INR|lra]). assert (K2 : (1 + k) * (1 + g1) <= 1 + G) by (rewrite GE; apply Rmult_le_compat_r; lra).
      assert (0 <= k * g1) by (apply Rmult_le_pos; assumption). lra. }
    assert (DNM : hbar - (G * hbar + (1 + G) * dl + omega) <= M).
    { assert (M1 : (1 - uro) * m - omega <= M) by lra. assert (M2 : (1 - uro) ^ (n + 1) * Hb <= (1 - uro) * m).
      { rewrite pow_add, pow_1. rewrite (Rmult_comm ((1 - uro) ^ n)), Rmult_assoc. apply Rmult_le_compat_l; [lra|apply mB]. }
      set (k := INR (n + 1) * uro) in *. assert (k0 : 0 <= k) by (unfold k; apply Rmult_le_pos; [apply pos_INR|lra]).
      assert (M3 : (1 - k) * Hb <= (1 - uro) ^ (n + 1) * Hb) by (apply Rmult_le_compat_r; assumption).
      assert (GHB : (g1 + k) * hbar <= G * hbar) by (apply Rmult_le_compat_r; assumption). assert (GDL : (1 + g1) * dl <= (1 + G) * dl) by (apply Rmult_le_compat_r; lra).
      destruct (Rle_dec Hb hbar) as [hl|hg].
      - assert (k * Hb <= k * hbar) by (apply Rmult_le_compat_l; assumption). unfold x in HbB. lra.
      - assert (kk : k <= 1).
        { unfold k. rewrite plus_INR. change (INR 1) with 1. assert (nu : INR n <= 2 ^ 20). { rewrite INR_IZR_INZ. change 2 with (IZR 2). rewrite pow_IZR. apply IZR_le. exact NB. }
          assert ((INR n + 1) * uro <= (2 ^ 20 + 1) * / 2 ^ 53) by (apply Rmult_le_compat; unfold uro in *; lra). lra. }
        assert ((1 - k) * hbar <= (1 - k) * Hb) by (apply Rmult_le_compat_l; lra).
        assert (0 <= g1 * hbar) by (apply Rmult_le_pos; assumption). assert (0 <= (1 + g1) * dl) by (apply Rmult_le_pos; lra). lra. }
    apply Rabs_le. lra. }
  (* the mixture *)
  set (keys := ord (nodup eq_dec (concat (map (map fst) (map f_dict (map dd_of ds)))))).
  assert (PK : Permutation keys (distinct (concat ds))).
  { unfold keys. eapply Permutation_trans; [apply SO, NoDup_nodup|]. apply NoDup_Permutation; [apply NoDup_nodup|apply NoDup_nodup|]. intros v.
    rewrite (distinct_In (concat ds) v), nodup_In, !in_concat. split.
    - intros (l & Hl & Hv). rewrite !map_map in Hl. apply in_map_iff in Hl. destruct Hl as (d & <- & Hd). exists d. split; [exact Hd|].
      unfold f_dict in Hv. rewrite f_probs_dd in Hv. cbn [dd_uniq dd_of] in Hv. rewrite map_fst_combine in Hv by (rewrite map_length; reflexivity). apply unique_In. exact Hv.
    - intros (d & Hd & Hv). exists (map fst (f_dict (dd_of d))). split; [rewrite !map_map; apply (in_map (fun c => map fst (f_dict (dd_of c)))); exact Hd|].
      unfold f_dict. rewrite f_probs_dd. cbn [dd_uniq dd_of]. rewrite map_fst_combine by (rewrite map_length; reflexivity). apply unique_In. exact Hv. }
  assert (IK : forall v, In v keys -> In v (concat ds)) by (intros v Hv; apply (distinct_In (concat ds) v), (Permutation_in _ PK), Hv).
  destruct (weighted_sum E eps b (mixprob ds) (fmix ds) (mixprob ds) (fmix ds) keys (n + 2) (2 * INR (n + 2) * uro) Ac Ee Fb) as (LG & X0 & _ & _ & H0 & SB).
  { intros v Hv. destruct (fmix_facts ds NE F NB v (IK v Hv)) as (A1 & A2 & A3 & A4 & A5). split; [apply A1|]. split; [exact A4|exact A5]. }
  { intros v Hv. destruct (fmix_facts ds NE F NB v (IK v Hv)) as (A1 & A2 & A3 & A4 & A5). split; [exact A1|]. split; [exact A2|]. split; [exact A3|]. apply ln_pow_close; [apply A1|exact A4]. }
  { rewrite (sumf_perm _ _ _ PK). apply mix_sum1; assumption. }
  { pose proof (pos_INR (n + 2)). apply Rmult_le_pos; [|lra]. lra. }
  set (X := f_sum E (map (wterm E b (fmix ds) (fmix ds)) keys)) in *.
  assert (HH : sumf (fun i => mixprob ds i * (- ln (mixprob ds i) / U)) keys = j + hbar).
  { rewrite (sumf_perm _ _ _ PK). unfold j, hbar, JSD. fold n. fold U. set (hm := sumf Ent ds / INR n).
    transitivity (- sumf (fun v => mixprob ds v * ln (mixprob ds v)) (distinct (concat ds)) / U); [|unfold Rdiv; ring].
    generalize (distinct (concat ds)) as l. intros l. induction l as [|v l IH]; cbn [sumf]; [unfold Rdiv; ring|]. rewrite IH. unfold Rdiv. ring. }
  change (unit_of b) with U in SB, H0. rewrite HH in SB, H0. rewrite (Permutation_length PK) in SB.
  set (G := gam_n b eps D n) in *. set (dc := depth (f_order E (length (distinct (concat ds))))) in SB.
  assert (DC : (dc <= D)%nat) by (apply HD; left; reflexivity).
  assert (J0 : 0 <= j). { unfold j. apply Rmult_le_pos; [|lra]. destruct (C28_jsd_discrete b ds (big_valid b (float_big b Fb)) NE FN) as (_ & Q & _). destruct (JSD_facts ds NE FN) as ((Q0 & _) & _). exact Q0. }
  assert (hb0 : 0 <= hbar). { unfold hbar. apply Rmult_le_pos; [apply Rmult_le_pos; [|lra]|lra]. apply sumf_nonneg. intros d Hd. rewrite List.Forall_forall in FN. apply Ent_nonneg. }
  assert (SB' : Rabs (X - (j + hbar)) <= G * (j + hbar) + (1 + G) * (2 * INR (n + 2) * uro / U)).
  { eapply Rle_trans; [exact SB|]. set (g := (1 + uro) ^ (dc + (n + 2) + 1) * (1 + base_eps b eps) - 1).
    assert (gG : g <= G). { unfold g, G, gam_n. assert ((1 + uro) ^ (dc + (n + 2) + 1) <= (1 + uro) ^ (D + n + 3)) by (apply pow_up; lia).
      assert ((1 + uro) ^ (dc + (n + 2) + 1) * (1 + base_eps b eps) <= (1 + uro) ^ (D + n + 3) * (1 + base_eps b eps)) by (apply Rmult_le_compat_r; lra). lra. }
    apply Rplus_le_compat; [apply Rmult_le_compat_r; [lra|exact gG]|]. apply Rmult_le_compat_r; [|lra]. apply Rmult_le_pos; [|lra]. apply Rmult_le_pos; [|lra]. pose proof (pos_INR (n + 2)). lra. }
  assert (G0 : 0 <= G). { unfold G, gam_n. destruct (pow_sum (D + n + 3)) as (_ & _ & _ & Q). assert (0 <= (1 + uro) ^ (D + n + 3) * base_eps b eps) by (apply Rmult_le_pos; lra). lra. }
  assert (RES : f_jsd_api E ord b (map A1 ds) = Ok (fl (X - M))).
  { unfold f_jsd_api. rewrite mapM_make by exact FN. cbn [bind]. rewrite (mapM_map_ok _ _ hf) by (intros d Hd; apply (HF d Hd)). cbn [bind].
    destruct (map hf ds) as [|h0 hr] eqn:EH; [destruct ds; [congruence|discriminate EH]|]. fold keys. fold P.
    rewrite !map_length. fold n. fold M.
    rewrite (map_ext (fun k => fl (py_sum (map (fun d => get0 d k) (map f_dict (map dd_of ds))) / INR n)) (fmix ds)).
    2:{ intros v. unfold fmix. fold n. rewrite !map_map. reflexivity. }
    rewrite (plogp_weighted E b (fmix ds) keys LG). cbn [bind]. reflexivity. }
  assert (FIN : Rabs (fl (X - M) - j) <= jsd_err b eps D n j hbar).
  { pose proof (sub_close (j + hbar) hbar X M _ _ SB' MB) as Q.
    assert (T : uro / 512 <= dl). { unfold dl. apply (Rmult_le_reg_r U); [lra|]. unfold Rdiv. rewrite (Rmult_assoc (2 * uro)), Rinv_l by lra. assert (uro * U <= uro * 1024) by (apply Rmult_le_compat_l; lra). lra. }
    pose proof omega_pos as O0. pose proof omega_small as O1. assert (O2 : omega <= dl).
    { assert (uro * (uro * / 4096) <= uro * (/ 512)) by (apply Rmult_le_compat_l; lra). lra. }
    set (c1 := 2 * INR (n + 2) * uro / U) in *. assert (c10 : 0 <= c1) by (unfold c1; apply Rmult_le_pos; [|lra]; apply Rmult_le_pos; [|lra]; pose proof (pos_INR (n + 2)); lra).
    assert (0 <= G * (j + hbar)) by (apply Rmult_le_pos; lra). assert (0 <= G * hbar) by (apply Rmult_le_pos; lra). assert (Gc : 0 <= G * c1) by (apply Rmult_le_pos; lra). assert (Gd : 0 <= G * dl) by (apply Rmult_le_pos; lra).
    specialize (Q ltac:(lra)). replace (j + hbar - hbar) with j in Q by ring. rewrite (Rabs_pos_eq j J0) in Q. eapply Rle_trans; [exact Q|]. unfold jsd_err. fold G. fold U.
    replace (2 * (INR n + 4) * uro / U) with (c1 + dl + dl) by (unfold c1, dl; rewrite plus_INR; change (INR 2) with (1 + 1); unfold Rdiv; ring).
    apply Rplus_le_compat_r. apply Rmult_le_compat_l; [lra|]. lra. }
  exists (fl (X - M)). split; [exact RES|]. split; [exact FIN|]. apply Rabs_le_inv in FIN. lra.
Qed.
Print Assumptions C120_jsd.

(** iterating in ascending order is a set order *)
Example C120_ascending : set_order unique.
Proof. intros l N. apply NoDup_Permutation; [apply unique_NoDup|exact N|]. intros v. apply unique_In. Qed.

(** two disjoint samples are one bit apart *)
Example C120_one_bit : exists v, f_jsd_api ideal unique (BNum 2) [A1 [0]; A1 [1]]%Z = Ok v /\ Rabs (v - 1) <= 1 / 10 ^ 13.
Proof.
  assert (FB : float_base (BNum 2)). { cbn [float_base]. split; [lra|]. apply Rle_trans with (2 ^ 1); [lra|]. apply Rle_pow; [lra|lia]. }
  destruct (C120_jsd ideal 0 unique (BNum 2) [[0]; [1]]%Z 1 C107_ideal_accurate ltac:(lra) FB C120_ascending ltac:(discriminate)) as (v & V & B & _).
  - repeat constructor; try discriminate; simpl; lia.
  - simpl. lia.
  - intros d [<-|[<-|[<-|[]]]]; cbn; lia.
  - exists v. split; [exact V|]. cbn [length] in B. pose proof ln_lt_2 as L2. pose proof uro_pos as U0.
    assert (E0 : sumf Ent [[0]; [1]]%Z = 0).
    { assert (Z : forall x : Z, Ent [x] = 0) by (intros x; apply Ent_zero_iff; [discriminate|]; intros a c [<-|[]] [<-|[]]; reflexivity).
      cbn [sumf]. rewrite !Z. ring. }
    assert (J1 : JSD [[0]; [1]]%Z = ln 2).
    { unfold JSD. rewrite E0. change (distinct (concat [[0%Z]; [1%Z]])) with [0%Z; 1%Z]. cbn [sumf]. unfold mixprob. cbn [sumf length]. unfold prob.
      change (count [0%Z] 0%Z) with 1%nat. change (count [1%Z] 1%Z) with 1%nat. change (count [0%Z] 1%Z) with 0%nat. change (count [1%Z] 0%Z) with 0%nat. cbn [length].
      replace ((INR 1 / INR 1 + (INR 0 / INR 1 + 0)) / INR 2) with (/ 2) by (simpl; field). replace ((INR 0 / INR 1 + (INR 1 / INR 1 + 0)) / INR 2) with (/ 2) by (simpl; field).
      rewrite ln_Rinv by lra. simpl. field. }
    rewrite J1, E0 in B. cbn [unit_of] in B. replace (ln 2 / ln 2) with 1 in B by (field; lra). replace (0 / INR 2 / ln 2) with 0 in B by (unfold Rdiv; ring).
    eapply Rle_trans; [exact B|]. unfold jsd_err, gam_n, base_eps. cbn [unit_of]. destruct (Req_EM_T 2 2); [|contradiction]. cbn [Nat.add]. simpl (INR 2).
    assert (US1 : uro <= / (8 * 10 ^ 15)) by (unfold uro; apply Rinv_le_contravar; [|]; lra).
    assert (I2 : 2 * (1 + 1 + 4) * uro / ln 2 <= 24 * uro).
    { apply (Rmult_le_reg_r (ln 2)); [lra|]. unfold Rdiv. rewrite Rmult_assoc, Rinv_l, Rmult_1_r by lra. assert (uro * (/ 2) <= uro * ln 2) by (apply Rmult_le_compat_l; lra). lra. }
    set (k := 2 * (1 + 1 + 4) * uro / ln 2) in *. assert (k0 : 0 < k) by (unfold k; apply Rdiv_lt_0_compat; lra).
    assert (P6 : (1 + uro) ^ 6 <= 1 + 10 * uro).
    { assert (A2 : (1 + uro) * (1 + uro) <= 1 + 3 * uro) by nra. set (s := (1 + uro) * (1 + uro)) in *. replace ((1 + uro) ^ 6) with (s * (s * s)) by (unfold s; ring).
      assert (s0 : 0 <= s) by (unfold s; apply Rmult_le_pos; lra). assert (ss : s * s <= (1 + 3 * uro) * (1 + 3 * uro)) by (apply Rmult_le_compat; lra).
      apply Rle_trans with ((1 + 3 * uro) * ((1 + 3 * uro) * (1 + 3 * uro))); [apply Rmult_le_compat; try lra; apply Rmult_le_pos; lra|]. nra. }
    assert (P60 : 1 <= (1 + uro) ^ 6) by (apply pow_R1_Rle; lra). set (c := (1 + uro) ^ 6) in *.
    replace (c * (1 + 0) - 1) with (c - 1) by ring. replace (1 + (c - 1)) with c by ring.
    assert (C2 : c * k <= 2 * (24 * uro)) by (apply Rmult_le_compat; lra).
    assert (C3 : (1 + 2 * uro) * ((c - 1) * (1 + 2 * 0) + c * k) <= 2 * (10 * uro + 48 * uro)).
    { apply Rmult_le_compat; [lra| |lra|lra]. assert (0 <= c * k) by (apply Rmult_le_pos; lra). lra. }
    lra.
Qed.
