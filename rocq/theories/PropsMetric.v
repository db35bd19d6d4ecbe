(** Property theorems C121: the distances between records that users compute from entropies are metrics. *)
From Coq Require Import Reals Lra Lia List ZArith Arith Bool Permutation.
From Verif Require Import SpecPool SpecMetric Gibbs PEst4 PDiv PDiv2 PPool Res RSum Spec Info Info2 Ord MBase MData MEntropy MMI SpecBase PBase PEntropy PCoo PMI PMI2 PMI3 PCMI PMI4 PCMI2 PMI5 PMI6 PropsMI PropsPool PropsCoarse.
Import ListNotations.
Local Open Scope R_scope.

Lemma fst_combine {A B} (us : list A) (ys : list B) : length us = length ys -> map fst (combine us ys) = us.
Proof. revert ys. induction us as [|u us IH]; intros [|y ys] L; try discriminate; [reflexivity|]. cbn [combine map fst]. f_equal. apply IH. simpl in L. lia. Qed.
(** submodularity of the plug-in entropy *)
Lemma Ent_submodular (xs ys zs : list Z) : length xs = length ys -> length ys = length zs ->
  Ent (combine xs zs) + Ent ys <= Ent (combine xs ys) + Ent (combine ys zs).
Proof.
  intros L1 L2. pose proof (CMI_nonneg xs zs ys ltac:(lia) ltac:(lia)) as P. unfold CMI in P.
  pose proof (Ent_map_le fst (combine (combine xs zs) ys)) as Q.
  rewrite fst_combine in Q by (rewrite combine_length; lia). rewrite (swap_Ent zs ys) in P. lra.
Qed.
Lemma Ent_fst_le (xs ys : list Z) : length xs = length ys -> Ent xs <= Ent (combine xs ys).
Proof. intros L. pose proof (Ent_map_le fst (combine xs ys)) as Q. rewrite fst_combine in Q by exact L. exact Q. Qed.
Lemma Ent_snd_le (xs ys : list Z) : length xs = length ys -> Ent ys <= Ent (combine xs ys).
Proof. intros L. rewrite swap_Ent. apply Ent_fst_le. symmetry. exact L. Qed.

(** the entropies the library returns *)
Lemma entropies_ok b xs ys : big_base b -> length xs = length ys -> xs <> [] ->
  entropies b xs ys (Ent xs / unit_of b) (Ent ys / unit_of b) (Ent (combine xs ys) / unit_of b).
Proof.
  intros B L NE. pose proof (big_valid b B) as V.
  assert (NEy : ys <> []) by (apply length_pos_ne; rewrite <- L; apply len_pos; exact NE).
  assert (HL : all_len (length xs) [xs; ys]) by (repeat constructor; auto).
  split; [apply entropy_1d; assumption|]. split; [apply entropy_1d; assumption|].
  pose proof (entropy_tuple b (length xs) [xs; ys] V ltac:(discriminate) HL (len_pos xs NE)) as E.
  cbn [map] in E. rewrite E. do 2 f_equal. apply rows_of_2; auto.
Qed.
Lemma variation_ok b xs ys : big_base b -> length xs = length ys -> xs <> [] ->
  variation_is b xs ys ((2 * Ent (combine xs ys) - Ent xs - Ent ys) / unit_of b).
Proof. intros B L NE. do 3 eexists. split; [apply entropies_ok; assumption|]. unfold Rdiv. ring. Qed.

(** variation of information is a metric on records, up to a renaming of symbols *)
Theorem C121_variation_metric : forall b xs ys zs, big_base b -> length xs = length ys -> length ys = length zs -> xs <> [] ->
  exists dxy dyz dxz,
    variation_is b xs ys dxy /\ variation_is b ys xs dxy /\ variation_is b ys zs dyz /\ variation_is b xs zs dxz /\
    variation_is b xs xs 0 /\ 0 <= dxy /\
    (dxy = 0 <-> determines xs ys /\ determines ys xs) /\
    dxz <= dxy + dyz.
Proof.
  intros b xs ys zs B L1 L2 NE. pose proof (big_unit b B) as U.
  assert (NY : ys <> []) by (intros ->; destruct xs; [congruence|discriminate]).
  exists ((2 * Ent (combine xs ys) - Ent xs - Ent ys) / unit_of b), ((2 * Ent (combine ys zs) - Ent ys - Ent zs) / unit_of b),
    ((2 * Ent (combine xs zs) - Ent xs - Ent zs) / unit_of b).
  pose proof (Ent_fst_le xs ys L1) as F. pose proof (Ent_snd_le xs ys L1) as S1.
  split; [apply variation_ok; assumption|].
  split. { replace (2 * Ent (combine xs ys) - Ent xs - Ent ys) with (2 * Ent (combine ys xs) - Ent ys - Ent xs) by (rewrite (swap_Ent ys xs); ring). apply variation_ok; auto. }
  split; [apply variation_ok; auto|]. split; [apply variation_ok; [assumption|congruence|assumption]|].
  split.
  { assert (E : Ent (combine xs xs) = Ent xs).
    { apply Ent_determined; [reflexivity|]. intros x y y' H1 H2.
      assert (Q : forall (l : list Z) a c, In (a, c) (combine l l) -> a = c).
      { clear. induction l as [|k l IH]; intros a c Hac; [destruct Hac|]. destruct Hac as [Hac|Hac]; [congruence|apply IH; exact Hac]. }
      rewrite <- (Q _ _ _ H1), <- (Q _ _ _ H2). reflexivity. }
    replace 0 with ((2 * Ent (combine xs xs) - Ent xs - Ent xs) / unit_of b) by (rewrite E; field; lra). apply variation_ok; auto. }
  split; [apply big_div_nonneg; [exact B|lra]|]. split.
  - rewrite <- (Ent_determined xs ys L1), <- (Ent_determined ys xs (eq_sym L1)), (swap_Ent ys xs).
    replace 0 with (0 / unit_of b) at 1 by (unfold Rdiv; ring). rewrite (big_eq b _ _ B). split; [intros E; split; lra|intros [E1 E2]; lra].
  - unfold Rdiv. rewrite <- Rmult_plus_distr_r. apply (big_div_le b _ _ B). pose proof (Ent_submodular xs ys zs L1 L2). lra.
Qed.
Print Assumptions C121_variation_metric.

(** it is what the mutual information leaves of the entropies *)
Theorem C121_variation_mutual_information : forall b xs ys, big_base b -> length xs = length ys -> xs <> [] -> small2 (length xs) ->
  exists d m hx hy hxy, variation_is b xs ys d /\ mi_discrete b (Some 0%Z) [A1 xs; A1 ys] = Ok m /\ entropies b xs ys hx hy hxy /\
    d = hx + hy - 2 * m /\ d = hxy - m /\ d <= hxy.
Proof.
  intros b xs ys B L NE SM.
  exists ((2 * Ent (combine xs ys) - Ent xs - Ent ys) / unit_of b), (MI xs ys / unit_of b), (Ent xs / unit_of b), (Ent ys / unit_of b), (Ent (combine xs ys) / unit_of b).
  split; [apply variation_ok; assumption|]. split; [apply mi2_api; assumption|]. split; [apply entropies_ok; assumption|].
  unfold MI. split; [unfold Rdiv; ring|]. split; [unfold Rdiv; ring|]. apply big_div_le; [exact B|]. pose proof (MI_nonneg xs ys L) as P. unfold MI in P. lra.
Qed.
Print Assumptions C121_variation_mutual_information.

(** the fraction inequality behind Rajski's distance *)
Lemma fraction_mono x y c : 0 <= c -> 0 < x + c -> x <= y -> x / (x + c) <= y / (y + c).
Proof.
  intros C P L. assert (Q : 0 < y + c) by lra.
  apply Rmult_le_reg_r with ((x + c) * (y + c)); [apply Rmult_lt_0_compat; assumption|].
  replace (x / (x + c) * ((x + c) * (y + c))) with (x * (y + c)) by (field; lra).
  replace (y / (y + c) * ((x + c) * (y + c))) with (y * (x + c)) by (field; lra). nra.
Qed.
Lemma half_triangle a c bb ab bc ac : 0 <= c -> 0 < ac -> 0 < ab -> 0 < bc -> c <= ac -> bb <= ab -> c <= bc -> bb <= bc -> a <= ab ->
  ac + bb <= ab + bc -> (ac - c) / ac <= (ab - bb) / ab + (bc - c) / bc.
Proof.
  intros C Pac Pab Pbc L1 L2 L3 L4 L5 S.
  set (t := ab - bb + (bc - c) + c).
  assert (T1 : ab <= t) by (unfold t; lra). assert (T2 : bc <= t) by (unfold t; lra).
  assert (E : ((ab - bb) + (bc - c)) / t <= (ab - bb) / ab + (bc - c) / bc).
  { assert (I1 : / t <= / ab) by (apply Rinv_le_contravar; lra). assert (I2 : / t <= / bc) by (apply Rinv_le_contravar; lra).
    unfold Rdiv. rewrite Rmult_plus_distr_r. apply Rplus_le_compat; apply Rmult_le_compat_l; lra. }
  apply Rle_trans with (2 := E).
  pose proof (fraction_mono (ac - c) ((ab - bb) + (bc - c)) c C ltac:(lra) ltac:(lra)) as M.
  replace (ac - c + c) with ac in M by ring. exact M.
Qed.

(** Rajski's distance is a metric with values in [0, 1] on records that are not constant *)
Theorem C121_rajski_metric : forall b xs ys zs, big_base b -> length xs = length ys -> length ys = length zs -> xs <> [] ->
  ~ constant xs -> ~ constant ys -> ~ constant zs ->
  exists dxy dyz dxz,
    rajski_is b xs ys dxy /\ rajski_is b ys xs dxy /\ rajski_is b ys zs dyz /\ rajski_is b xs zs dxz /\
    0 <= dxy <= 1 /\
    (dxy = 0 <-> determines xs ys /\ determines ys xs) /\
    (dxy = 1 <-> forall x y, (count (combine xs ys) (x, y) * length xs = count xs x * count ys y)%nat) /\
    dxz <= dxy + dyz.
Proof.
  intros b xs ys zs B L1 L2 NE Cx Cy Cz. pose proof (big_unit b B) as U.
  assert (NY : ys <> []) by (intros ->; destruct xs; [congruence|discriminate]).
  assert (NZ : zs <> []) by (intros ->; destruct ys; [congruence|discriminate]).
  assert (PE : forall l : list Z, l <> [] -> ~ constant l -> 0 < Ent l).
  { intros l N C. destruct (Rle_lt_or_eq_dec 0 (Ent l) (Ent_nonneg l)) as [P|E]; [exact P|]. exfalso. apply C. exact (proj1 (Ent_zero_iff l N) (eq_sym E)). }
  pose proof (PE xs NE Cx) as Px. pose proof (PE ys NY Cy) as Py. pose proof (PE zs NZ Cz) as Pz.
  assert (OK : forall us vs : list Z, length us = length vs -> us <> [] -> 0 < Ent (combine us vs) ->
     rajski_is b us vs ((2 * Ent (combine us vs) - Ent us - Ent vs) / Ent (combine us vs))).
  { intros us vs L N P. do 3 eexists. split; [apply entropies_ok; assumption|]. split.
    - apply Rgt_not_eq. apply Rdiv_lt_0_compat; assumption.
    - field. lra. }
  pose proof (Ent_fst_le xs ys L1) as F1. pose proof (Ent_snd_le xs ys L1) as F2.
  pose proof (Ent_fst_le ys zs L2) as F3. pose proof (Ent_snd_le ys zs L2) as F4.
  pose proof (Ent_fst_le xs zs ltac:(congruence)) as F5. pose proof (Ent_snd_le xs zs ltac:(congruence)) as F6.
  exists ((2 * Ent (combine xs ys) - Ent xs - Ent ys) / Ent (combine xs ys)), ((2 * Ent (combine ys zs) - Ent ys - Ent zs) / Ent (combine ys zs)),
    ((2 * Ent (combine xs zs) - Ent xs - Ent zs) / Ent (combine xs zs)).
  split; [apply OK; auto; lra|].
  split. { rewrite (swap_Ent xs ys). replace (2 * Ent (combine ys xs) - Ent xs - Ent ys) with (2 * Ent (combine ys xs) - Ent ys - Ent xs) by ring. apply OK; auto. rewrite (swap_Ent ys xs). lra. }
  split; [apply OK; auto; lra|]. split; [apply OK; [congruence|assumption|lra]|].
  pose proof (MI_nonneg xs ys L1) as M0. unfold MI in M0.
  assert (P : 0 < Ent (combine xs ys)) by lra.
  split.
  { split; [apply Rmult_le_pos; [lra|apply Rlt_le, Rinv_0_lt_compat; lra]|].
    apply (Rmult_le_reg_r (Ent (combine xs ys))); [lra|]. unfold Rdiv. rewrite Rmult_assoc, Rinv_l by lra. lra. }
  split; [|split].
  - rewrite <- (Ent_determined xs ys L1), <- (Ent_determined ys xs (eq_sym L1)), (swap_Ent ys xs). split.
    + intros E. apply (f_equal (fun r => r * Ent (combine xs ys))) in E. unfold Rdiv in E. rewrite Rmult_assoc, Rinv_l, Rmult_0_l in E by lra. split; lra.
    + intros [E1 E2]. replace (2 * Ent (combine xs ys) - Ent xs - Ent ys) with 0 by lra. unfold Rdiv. ring.
  - rewrite <- (MI_zero_iff xs ys L1 NE). unfold MI. split.
    + intros E. apply (f_equal (fun r => r * Ent (combine xs ys))) in E. unfold Rdiv in E. rewrite Rmult_assoc, Rinv_l in E by lra. lra.
    + intros E. replace (2 * Ent (combine xs ys) - Ent xs - Ent ys) with (Ent (combine xs ys)) by lra. field. lra.
  - pose proof (Ent_submodular xs ys zs L1 L2) as S1. pose proof (Ent_submodular zs ys xs ltac:(congruence) ltac:(congruence)) as S2.
    rewrite (swap_Ent zs xs), (swap_Ent zs ys), (swap_Ent ys xs) in S2.
    pose proof (half_triangle (Ent xs) (Ent zs) (Ent ys) (Ent (combine xs ys)) (Ent (combine ys zs)) (Ent (combine xs zs))) as T1. do 10 (match type of T1 with ?Q -> _ => assert (HQ : Q) by lra; specialize (T1 HQ); clear HQ end).
    pose proof (half_triangle (Ent zs) (Ent xs) (Ent ys) (Ent (combine ys zs)) (Ent (combine xs ys)) (Ent (combine xs zs))) as T2. do 10 (match type of T2 with ?Q -> _ => assert (HQ : Q) by lra; specialize (T2 HQ); clear HQ end).
    unfold Rdiv in *. lra.
Qed.
Print Assumptions C121_rajski_metric.

Example C121_example : let xs := [0; 1; 1; 0; 2]%Z in let ys := [1; 1; 0; 0; 0]%Z in let zs := [0; 0; 0; 1; 1]%Z in
  big_base (BNum 2) /\ small2 (length xs) /\ length xs = length ys /\ length ys = length zs /\ xs <> [] /\
  ~ constant xs /\ ~ constant ys /\ ~ constant zs /\ ~ determines ys xs.
Proof.
  cbv zeta. split; [simpl; lra|]. split; [unfold small2; simpl; lia|]. do 2 (split; [reflexivity|]). split; [discriminate|].
  split; [intros C; discriminate (C 0%Z 1%Z ltac:(simpl; tauto) ltac:(simpl; tauto))|].
  split; [intros C; discriminate (C 0%Z 1%Z ltac:(simpl; tauto) ltac:(simpl; tauto))|].
  split; [intros C; discriminate (C 0%Z 1%Z ltac:(simpl; tauto) ltac:(simpl; tauto))|].
  intros D. discriminate (D 1%Z 0%Z 1%Z ltac:(simpl; tauto) ltac:(simpl; tauto)).
Qed.
