(** Property theorems C122: joint entropies and mutual information when records are added or left out. *)
From Coq Require Import Reals Lra Lia List ZArith Arith Bool Permutation.
From Verif Require Import SpecPool SpecHan Res RSum Spec Info Info2 Gibbs Ord MBase MData MEntropy MMI SpecBase PBase PEntropy PCoo PMI PMI2 PMI3 PCMI PMI4 PCMI2 PMI5 PMI6 PEst4 PDiv PDiv2 PPool PropsMI PropsPool PropsCoarse.
Import ListNotations.
Local Open Scope R_scope.

(** what the library returns for the joint entropy of a collection of records *)
Definition joint_is (b : base) (cols : list (list Z)) (h : R) : Prop := entropy_discrete b (ETuple (map A1 cols)) = Ok h.

Section H.
Variable n : nat.
Hypothesis Hn : (0 < n)%nat.
Let S0 := seq 0 n.
Let rf := @rowf Z 0%Z.
Let cf := @colf Z 0%Z.

Lemma subm {A B C} `{EqDec A} `{EqDec B} `{EqDec C} (X : nat -> A) (Y : nat -> B) (Z0 : nat -> C) :
  hs S0 (pair (pair X Y) Z0) + hs S0 Z0 <= hs S0 (pair X Z0) + hs S0 (pair Y Z0).
Proof. pose proof (cmi_nonneg S0 X Y Z0) as P. rewrite cmi_entropies in P. lra. Qed.

Lemma rf_cons c cols t s : rf (c :: cols) t = rf (c :: cols) s <-> cf c t = cf c s /\ rf cols t = rf cols s.
Proof. unfold rf, cf, rowf, colf. cbn [map]. split; [intros E; injection E; auto|intros [-> ->]; reflexivity]. Qed.

(** conditional form of Han's inequality *)
Lemma han_cond cols : forall {A} `{EqDec A} (Z0 : nat -> A),
  sumf (fun i => hs S0 (pair (rf cols) Z0) - hs S0 (pair (rf (without i cols)) Z0)) (seq 0 (length cols))
  <= hs S0 (pair (rf cols) Z0) - hs S0 Z0.
Proof.
  induction cols as [|c cols IH]; intros A EA Z0.
  - cbn [length seq sumf]. assert (E : hs S0 (pair (rf []) Z0) = hs S0 Z0).
    { apply hs_partition. intros s t _ _. unfold pair, rf, rowf. rewrite pair_equal_spec. simpl. tauto. }
    lra.
  - cbn [length seq]. cbn [sumf]. rewrite <- seq_shift, sumf_map.
    specialize (IH _ _ (pair (cf c) Z0)).
    assert (E1 : hs S0 (pair (rf (c :: cols)) Z0) = hs S0 (pair (rf cols) (pair (cf c) Z0))).
    { apply hs_partition. intros s t _ _. unfold pair. rewrite !pair_equal_spec, rf_cons. tauto. }
    assert (E2 : sumf (fun i => hs S0 (pair (rf (c :: cols)) Z0) - hs S0 (pair (rf (without (S i) (c :: cols))) Z0)) (seq 0 (length cols)) =
                 sumf (fun i => hs S0 (pair (rf cols) (pair (cf c) Z0)) - hs S0 (pair (rf (without i cols)) (pair (cf c) Z0))) (seq 0 (length cols))).
    { apply sumf_ext. intros i _. rewrite E1. f_equal. apply hs_partition. intros s t _ _.
      change (without (S i) (c :: cols)) with (c :: without i cols). unfold pair. rewrite !pair_equal_spec, rf_cons. tauto. }
    rewrite E2. change (without 0 (c :: cols)) with cols.
    pose proof (subm (cf c) (rf cols) Z0) as M.
    assert (E3 : hs S0 (pair (pair (cf c) (rf cols)) Z0) = hs S0 (pair (rf cols) (pair (cf c) Z0))).
    { apply hs_partition. intros s t _ _. unfold pair. rewrite !pair_equal_spec. tauto. }
    rewrite E1. rewrite E3 in M. lra.
Qed.
Lemma han cols : INR (length cols - 1) * Ent (rows_of 0%Z n cols) <= sumf (fun i => Ent (rows_of 0%Z n (without i cols))) (seq 0 (length cols)).
Proof.
  pose proof (han_cond cols (fun _ : nat => tt)) as P.
  assert (E : forall cs, hs S0 (pair (rf cs) (fun _ => tt)) = Ent (rows_of 0%Z n cs)).
  { intros cs. rewrite Ent_rows by exact Hn. apply hs_pair_const. reflexivity. }
  rewrite (sumf_ext _ (fun i => Ent (rows_of 0%Z n cols) - Ent (rows_of 0%Z n (without i cols)))) in P by (intros i _; rewrite !E; reflexivity).
  rewrite E, (hs_const S0 (fun _ : nat => tt) tt (seqn_ne n Hn)) in P by reflexivity.
  rewrite sumf_minus in P.
  assert (K : forall k m (c : R), sumf (fun _ : nat => c) (seq k m) = INR m * c).
  { clear. intros k m c. revert k. induction m as [|m IH]; intros k; [simpl; ring|]. cbn [seq sumf]. rewrite IH, S_INR. ring. }
  rewrite K in P. destruct cols as [|c cs]; [cbn [length] in *; simpl in P |- *; lra|].
  cbn [length] in *. rewrite S_INR in P. replace (S (length cs) - 1)%nat with (length cs) by lia. lra.
Qed.

Lemma rows_cons_combine x cols : length x = n -> Ent (rows_of 0%Z n (x :: cols)) = Ent (combine (rows_of 0%Z n cols) x).
Proof.
  intros L. rewrite Ent_rows by exact Hn.
  assert (E : combine (rows_of 0%Z n cols) x = map (pair (rf cols) (cf x)) (seq 0 n)).
  { rewrite (list_as_map 0%Z x n L) at 1. unfold rows_of. clear. induction (seq 0 n) as [|k l IH]; [reflexivity|]. cbn [map combine]. rewrite IH. reflexivity. }
  rewrite E, Ent_map by (apply seqn_ne; exact Hn). apply hs_partition. intros s t _ _. unfold pair. rewrite pair_equal_spec.
  change (rowf 0%Z (x :: cols)) with (rf (x :: cols)). rewrite rf_cons. tauto.
Qed.
Lemma rows_subm x y cols : Ent (rows_of 0%Z n (x :: y :: cols)) + Ent (rows_of 0%Z n cols) <= Ent (rows_of 0%Z n (x :: cols)) + Ent (rows_of 0%Z n (y :: cols)).
Proof.
  rewrite !Ent_rows by exact Hn. pose proof (subm (cf x) (cf y) (rf cols)) as M.
  assert (E1 : forall c cs, hs S0 (pair (cf c) (rf cs)) = hs (seq 0 n) (rowf 0%Z (c :: cs))).
  { intros c cs. apply hs_partition. intros s t _ _. unfold pair. rewrite pair_equal_spec. change (rowf 0%Z (c :: cs)) with (rf (c :: cs)). rewrite rf_cons. tauto. }
  assert (E2 : hs S0 (pair (pair (cf x) (cf y)) (rf cols)) = hs (seq 0 n) (rowf 0%Z (x :: y :: cols))).
  { apply hs_partition. intros s t _ _. unfold pair. rewrite !pair_equal_spec. change (rowf 0%Z (x :: y :: cols)) with (rf (x :: y :: cols)). rewrite !rf_cons. tauto. }
  rewrite E2, !E1 in M. exact M.
Qed.
End H.

(** adding a record never lowers the joint entropy, adds at most its own entropy, and adds nothing exactly when it is determined *)
Theorem C122_adding_a_record : forall b n cols x, big_base b -> cols <> [] -> all_len n (x :: cols) -> (0 < n)%nat ->
  exists h h' hx, joint_is b cols h /\ joint_is b (x :: cols) h' /\ entropy_discrete b (EArr (A1 x)) = Ok hx /\
    h <= h' <= h + hx /\ (h' = h <-> determines (rows_of 0%Z n cols) x).
Proof.
  intros b n cols x B NE HL Hn. pose proof (big_valid b B) as V. pose proof (Forall_inv HL) as Lx. pose proof (Forall_inv_tail HL) as HL'. cbv beta in Lx.
  assert (NX : x <> []) by (intros ->; simpl in Lx; lia).
  assert (LR : length (rows_of 0%Z n cols) = length x) by (rewrite rows_of_length; auto).
  do 3 eexists. split; [apply (entropy_tuple b n); assumption|]. split; [apply (entropy_tuple b n); [assumption|discriminate|assumption|assumption]|].
  split; [apply entropy_1d; assumption|]. rewrite (rows_cons_combine n Hn x cols Lx).
  rewrite (big_eq b _ _ B), (Ent_determined _ x LR). split; [|tauto]. split.
  - apply big_div_le; [exact B|]. pose proof (Ent_map_le fst (combine (rows_of 0%Z n cols) x)) as Q.
    assert (F : forall (us : list (list Z)) (vs : list Z), length us = length vs -> map fst (combine us vs) = us).
    { clear. induction us as [|u us IH]; intros [|v vs] L; try discriminate; [reflexivity|]. cbn [combine map fst]. f_equal. apply IH. simpl in L. lia. }
    rewrite F in Q by exact LR. exact Q.
  - rewrite <- Rdiv_plus_distr. apply big_div_le; [exact B|]. pose proof (MI_nonneg (rows_of 0%Z n cols) x LR) as M. unfold MI in M. lra.
Qed.
Print Assumptions C122_adding_a_record.

(** the more records are known, the less a further one adds *)
Theorem C122_diminishing_returns : forall b n cols x y, big_base b -> cols <> [] -> all_len n (x :: y :: cols) -> (0 < n)%nat ->
  exists h hx hy hxy, joint_is b cols h /\ joint_is b (x :: cols) hx /\ joint_is b (y :: cols) hy /\ joint_is b (x :: y :: cols) hxy /\
    hxy - hy <= hx - h.
Proof.
  intros b n cols x y B NE HL Hn. pose proof (big_valid b B) as V. pose proof (Forall_inv HL) as Lx. pose proof (Forall_inv_tail HL) as HL1.
  pose proof (Forall_inv HL1) as Ly. pose proof (Forall_inv_tail HL1) as HL2.
  assert (HX : all_len n (x :: cols)) by (constructor; assumption).
  do 4 eexists. split; [apply (entropy_tuple b n); assumption|].
  split; [apply (entropy_tuple b n); [assumption|discriminate|assumption|assumption]|].
  split; [apply (entropy_tuple b n); [assumption|discriminate|assumption|assumption]|].
  split; [apply (entropy_tuple b n); [assumption|discriminate|assumption|assumption]|].
  pose proof (rows_subm n Hn x y cols) as M. apply (big_div_le b _ _ B) in M. rewrite !Rdiv_plus_distr in M. lra.
Qed.
Print Assumptions C122_diminishing_returns.

Lemma without_all_len n i (cols : list (list Z)) : all_len n cols -> all_len n (without i cols).
Proof.
  unfold all_len, without. revert i. induction cols as [|c cols IH]; intros i HL; [destruct i; constructor|].
  destruct i as [|i]; [exact (Forall_inv_tail HL)|]. change (Forall (fun c => length c = n) (c :: (firstn i cols ++ skipn (S i) cols))).
  constructor; [exact (Forall_inv HL)|apply IH; exact (Forall_inv_tail HL)].
Qed.

(** Han's inequality: the joint entropies of all but one record, over m - 1, are together at least the joint entropy *)
Theorem C122_han : forall b n cols, big_base b -> (2 <= length cols)%nat -> all_len n cols -> (0 < n)%nat ->
  exists h g, joint_is b cols h /\ (forall i, (i < length cols)%nat -> joint_is b (without i cols) (g i)) /\
    INR (length cols - 1) * h <= sumf g (seq 0 (length cols)).
Proof.
  intros b n cols B N2 HL Hn. pose proof (big_valid b B) as V.
  exists (Ent (rows_of 0%Z n cols) / unit_of b), (fun i => Ent (rows_of 0%Z n (without i cols)) / unit_of b).
  split; [apply (entropy_tuple b n); [assumption|destruct cols; [simpl in N2; lia|discriminate]|assumption|assumption]|]. split.
  - intros i Hi. apply (entropy_tuple b n); [assumption| |  |assumption].
    + intros E. apply (f_equal (@length _)) in E. unfold without in E. rewrite app_length, firstn_length, skipn_length in E. cbn [length] in E. lia.
    + apply without_all_len. exact HL.
  - rewrite (sumf_ext _ (fun i => / unit_of b * Ent (rows_of 0%Z n (without i cols)))) by (intros; unfold Rdiv; ring).
    rewrite sumf_scal. pose proof (han n Hn cols) as P. apply (big_div_le b _ _ B) in P. unfold Rdiv in *. lra.
Qed.
Print Assumptions C122_han.

(** mutual information of more records is at least that of fewer: it grows by what the new record shares with all the others *)
Theorem C122_mutual_information_grows : forall b n cols x, big_base b -> (2 <= length cols)%nat -> all_len n (x :: cols) -> (0 < n)%nat ->
  no_constant (x :: cols) -> (Z.of_nat n ^ Z.of_nat (S (length cols)) < 2 ^ 64)%Z ->
  exists m m' h h' hx, mi_discrete b (Some 0%Z) (map A1 cols) = Ok m /\ mi_discrete b (Some 0%Z) (map A1 (x :: cols)) = Ok m' /\
    joint_is b cols h /\ joint_is b (x :: cols) h' /\ entropy_discrete b (EArr (A1 x)) = Ok hx /\
    m' - m = hx + h - h' /\ m <= m' /\
    (m' = m <-> forall r v, (count (combine (rows_of 0%Z n cols) x) (r, v) * n = count (rows_of 0%Z n cols) r * count x v)%nat).
Proof.
  intros b n cols x B N2 HL Hn NC SM. pose proof (big_valid b B) as V. pose proof (Forall_inv HL) as Lx. pose proof (Forall_inv_tail HL) as HL'. cbv beta in Lx.
  assert (NX : x <> []) by (intros ->; simpl in Lx; lia).
  assert (LR : length (rows_of 0%Z n cols) = length x) by (rewrite rows_of_length; auto).
  assert (NR : rows_of 0%Z n cols <> []) by (intros E; rewrite E in LR; simpl in LR; lia).
  assert (NC' : no_constant cols) by (intros c Hc; apply NC; right; exact Hc).
  assert (SM' : (Z.of_nat n ^ Z.of_nat (length cols) < 2 ^ 64)%Z).
  { apply Z.le_lt_trans with (2 := SM). apply Z.pow_le_mono_r; lia. }
  assert (M1 : mi_discrete b (Some 0%Z) (map A1 cols) = Ok (TotalCorr 0%Z n cols / unit_of b)).
  { destruct (Nat.le_gt_cases 3 (length cols)) as [N3|N3]; [apply (C13_mi_is_total_correlation_partial b n cols); assumption|].
    destruct cols as [|u [|v [|]]]; try (simpl in N2, N3; lia). pose proof (Forall_inv HL') as Lu. pose proof (Forall_inv (Forall_inv_tail HL')) as Lv. cbv beta in Lu, Lv.
    cbn [map]. rewrite TotalCorr_2 by assumption. apply mi2_api; [assumption|congruence|intros ->; simpl in Lu; lia|].
    unfold small2. rewrite Lu. cbn [length] in SM'. change (Z.of_nat 2) with 2%Z in SM'. rewrite Z.pow_2_r in SM'.
    change (2 ^ 64)%Z with (2 ^ 32 * 2 ^ 32)%Z in SM'. nia. }
  assert (M2 : mi_discrete b (Some 0%Z) (map A1 (x :: cols)) = Ok (TotalCorr 0%Z n (x :: cols) / unit_of b)).
  { apply (C13_mi_is_total_correlation_partial b n (x :: cols)); try assumption. cbn [length]. lia. }
  exists (TotalCorr 0%Z n cols / unit_of b), (TotalCorr 0%Z n (x :: cols) / unit_of b), (Ent (rows_of 0%Z n cols) / unit_of b), (Ent (rows_of 0%Z n (x :: cols)) / unit_of b), (Ent x / unit_of b).
  split; [exact M1|]. split; [exact M2|].
  split; [apply (entropy_tuple b n); [assumption|destruct cols; [simpl in N2; lia|discriminate]|assumption|assumption]|].
  split; [apply (entropy_tuple b n); [assumption|discriminate|assumption|assumption]|]. split; [apply entropy_1d; assumption|].
  assert (E : TotalCorr 0%Z n (x :: cols) = TotalCorr 0%Z n cols + MI (rows_of 0%Z n cols) x).
  { unfold TotalCorr, MI. rewrite (rows_cons_combine n Hn x cols Lx). cbn [sumf]. ring. }
  split; [unfold TotalCorr; cbn [sumf]; unfold Rdiv; ring|]. pose proof (MI_nonneg (rows_of 0%Z n cols) x LR) as P.
  split; [apply big_div_le; [exact B|lra]|]. rewrite (big_eq b _ _ B), E.
  pose proof (MI_zero_iff (rows_of 0%Z n cols) x LR NR) as Q. rewrite rows_of_length in Q. rewrite <- Q. split; lra.
Qed.
Print Assumptions C122_mutual_information_grows.

Example C122_example : let cols := [[0; 1; 0; 2]; [0; 0; 1; 1]]%Z in let x := [5; 5; 5; 7]%Z in
  big_base (BNum 2) /\ (2 <= length cols)%nat /\ all_len 4 (x :: cols) /\ no_constant (x :: cols) /\
  (Z.of_nat 4 ^ Z.of_nat (S (length cols)) < 2 ^ 64)%Z /\ map (fun i => without i (x :: cols)) (seq 0 3) = [cols; [x; [0; 0; 1; 1]]; [x; [0; 1; 0; 2]]]%Z.
Proof.
  cbv zeta. split; [simpl; lra|]. split; [simpl; lia|]. split; [repeat constructor|]. split; [|split; reflexivity].
  intros c [<-|[<-|[<-|[]]]]; [exists 5%Z, 7%Z|exists 0%Z, 1%Z|exists 0%Z, 1%Z]; simpl; repeat split; try tauto; lia.
Qed.
