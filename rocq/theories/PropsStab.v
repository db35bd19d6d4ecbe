(** C100: stability of the discrete measures.  A few wrong, lost or added sample points move the results by a small, explicit
    amount. *)
From Coq Require Import Reals List ZArith Arith Bool Lia Lra Permutation Sorting.Sorted.
From Verif Require Import Res RSum Spec SpecBase SpecInput SpecTE Info Info2 Ord MBase MData MEntropy MEst MMI MTE MGeneric
  PBase PEntropy PMI5 PTE2 PEst5 PropsEst PropsMI PropsTE SpecStab PStab.
Import ListNotations.
Local Open Scope R_scope.

Lemma abs_both x d : Rabs x <= d -> - d <= x <= d.
Proof. unfold Rabs. destruct (Rcase_abs x); lra. Qed.
Lemma scale_abs b x y d : big_base b -> Rabs (x - y) <= d -> Rabs (x / unit_of b - y / unit_of b) <= d / unit_of b.
Proof.
  intros B D. pose proof (big_unit b B) as U. pose proof (Rinv_0_lt_compat _ U) as IU.
  replace (x / unit_of b - y / unit_of b) with ((x - y) * / unit_of b) by (unfold Rdiv; ring).
  rewrite Rabs_mult, (Rabs_right (/ unit_of b)) by lra. unfold Rdiv. apply Rmult_le_compat_r; lra.
Qed.

(** Entropy of any input: at most (1 + ln n)/n nats per changed sample point *)
Theorem C100_entropy b i j : big_base b -> SpecInput.usable i -> SpecInput.usable j -> input_size i = input_size j ->
  exists h h', entropy_of est_discrete b i = Ok h /\ entropy_of est_discrete b j = Ok h' /\
    Rabs (h - h') <= INR (changed (SpecInput.sample i) (SpecInput.sample j)) * one_change (input_size i) / unit_of b.
Proof.
  intros B U W L. pose proof (big_valid b B) as V.
  exists (Ent (SpecInput.sample i) / unit_of b), (Ent (SpecInput.sample j) / unit_of b).
  split; [apply discrete_closed; assumption|]. split; [apply discrete_closed; assumption|].
  apply scale_abs; [exact B|]. rewrite <- (sample_length i U). apply Ent_changed. rewrite !sample_length by assumption. exact L.
Qed.
Print Assumptions C100_entropy.

(** ... in particular for a 1-D array *)
Theorem C100_entropy_1d b xs ys : big_base b -> xs <> [] -> length xs = length ys ->
  exists h h', entropy_discrete b (EArr (A1 xs)) = Ok h /\ entropy_discrete b (EArr (A1 ys)) = Ok h' /\
    Rabs (h - h') <= INR (changed xs ys) * one_change (length xs) / unit_of b.
Proof.
  intros B NE L. pose proof (big_valid b B) as V.
  assert (NEy : ys <> []) by (intros ->; destruct xs; [congruence|discriminate L]).
  exists (Ent xs / unit_of b), (Ent ys / unit_of b).
  split; [apply entropy_1d; assumption|]. split; [apply entropy_1d; assumption|].
  apply scale_abs; [exact B|]. apply Ent_changed. exact L.
Qed.

(** one more sample point, inserted anywhere *)
Theorem C100_one_more b xs ys x : big_base b -> xs ++ ys <> [] ->
  exists h h', entropy_discrete b (EArr (A1 (xs ++ ys))) = Ok h /\ entropy_discrete b (EArr (A1 (xs ++ x :: ys))) = Ok h' /\
    Rabs (h' - h) <= (1 + ln (INR (length (xs ++ x :: ys)))) / INR (length (xs ++ ys)) / unit_of b.
Proof.
  intros B NE. pose proof (big_valid b B) as V.
  exists (Ent (xs ++ ys) / unit_of b), (Ent (xs ++ x :: ys) / unit_of b).
  split; [apply entropy_1d; assumption|]. split; [apply entropy_1d; [assumption|destruct xs; discriminate]|].
  apply scale_abs; [exact B|]. rewrite <- (Ent_perm _ _ (Permutation_middle xs ys x)).
  replace (length (xs ++ x :: ys)) with (S (length (xs ++ ys))) by (rewrite !app_length; simpl; lia).
  apply Ent_append. exact NE.
Qed.

(** Miller-Madow: the correction adds at most 1/(2n) per changed point *)
Theorem C100_miller_madow b xs ys : big_base b -> xs <> [] -> length xs = length ys ->
  exists h h', entropy_mm b (EArr (A1 xs)) = Ok h /\ entropy_mm b (EArr (A1 ys)) = Ok h' /\
    Rabs (h - h') <= INR (changed xs ys) * (one_change (length xs) + / (2 * INR (length xs))) / unit_of b.
Proof.
  intros B NE L. pose proof (big_valid b B) as V.
  assert (NEy : ys <> []) by (intros ->; destruct xs; [congruence|discriminate L]).
  assert (N : 0 < INR (length xs)) by (apply lt_0_INR; destruct xs; [congruence|simpl; lia]).
  exists ((Ent xs + (INR (length (distinct xs)) - 1) / (2 * INR (length xs))) / unit_of b),
         ((Ent ys + (INR (length (distinct ys)) - 1) / (2 * INR (length ys))) / unit_of b).
  split; [rewrite C26_mm_entropy by assumption; f_equal; unfold Rdiv; ring|].
  split; [rewrite C26_mm_entropy by assumption; f_equal; unfold Rdiv; ring|].
  apply scale_abs; [exact B|]. rewrite <- L.
  pose proof (Ent_changed xs ys L) as E. pose proof (nvals_changed xs [] ys L) as D. cbn [app] in D.
  set (u := / (2 * INR (length xs))). assert (U0 : 0 < u) by (apply Rinv_0_lt_compat; lra).
  replace (Ent xs + (INR (length (distinct xs)) - 1) / (2 * INR (length xs)) - (Ent ys + (INR (length (distinct ys)) - 1) / (2 * INR (length xs))))
    with ((Ent xs - Ent ys) + (INR (length (distinct xs)) - INR (length (distinct ys))) * u) by (unfold u; field; lra).
  eapply Rle_trans; [apply Rabs_triang|]. rewrite Rabs_mult, (Rabs_right u) by lra.
  assert (Rabs (INR (length (distinct xs)) - INR (length (distinct ys))) * u <= INR (changed xs ys) * u)
    by (apply Rmult_le_compat_r; [lra|exact D]).
  rewrite Rmult_plus_distr_l. lra.
Qed.

(** ** Mutual information *)
Lemma ln_n_nonneg n : (0 < n)%nat -> 0 <= ln (INR n).
Proof. intros Hn. rewrite <- ln_1. apply ln_monotone; [lra|apply (le_INR 1); lia]. Qed.
Lemma one_change_pos n : (0 < n)%nat -> 0 < one_change n.
Proof.
  intros Hn. pose proof (ln_n_nonneg n Hn). unfold one_change, Rdiv.
  apply Rmult_lt_0_compat; [lra|]. apply Rinv_0_lt_compat, lt_0_INR. exact Hn.
Qed.
Lemma le_times m k e : (m <= k)%nat -> 0 <= e -> INR m * e <= INR k * e.
Proof. intros L E. apply Rmult_le_compat_r; [exact E|apply le_INR; exact L]. Qed.
Lemma fst_combine {A B} (xs : list A) : forall ys : list B, length xs = length ys -> map fst (combine xs ys) = xs.
Proof. induction xs as [|x xs IH]; intros [|y ys] L; try discriminate L; [reflexivity|]. cbn. f_equal. apply IH. injection L; auto. Qed.
Lemma snd_combine {A B} (xs : list A) : forall ys : list B, length xs = length ys -> map snd (combine xs ys) = ys.
Proof. induction xs as [|x xs IH]; intros [|y ys] L; try discriminate L; [reflexivity|]. cbn. f_equal. apply IH. injection L; auto. Qed.
Lemma Ent_via {A B} `{EqDec A} `{EqDec B} (f : A -> B) l l' e : length l = length l' -> e = one_change (length l) -> (0 < length l)%nat ->
  Rabs (Ent (map f l) - Ent (map f l')) <= INR (changed l l') * e.
Proof.
  intros L -> Hn. eapply Rle_trans; [apply Ent_changed; rewrite !map_length; exact L|]. rewrite map_length.
  apply le_times; [apply changed_map|]. apply Rlt_le, one_change_pos. exact Hn.
Qed.

Theorem C100_mi b xs ys xs' ys' n : big_base b -> length xs = n -> length ys = n -> length xs' = n -> length ys' = n ->
  (0 < n)%nat -> small2 n ->
  exists v v', mi_discrete b (Some 0%Z) [A1 xs; A1 ys] = Ok v /\ mi_discrete b (Some 0%Z) [A1 xs'; A1 ys'] = Ok v' /\
    Rabs (v - v') <= 3 * INR (changed (combine xs ys) (combine xs' ys')) * one_change n / unit_of b.
Proof.
  intros B Lx Ly Lx' Ly' Hn HS.
  assert (NE : forall l : list Z, length l = n -> l <> []) by (intros l E ->; simpl in E; lia).
  exists (MI xs ys / unit_of b), (MI xs' ys' / unit_of b).
  split; [apply mi2_api; auto; congruence|]. split; [apply mi2_api; auto; congruence|].
  apply scale_abs; [exact B|]. unfold MI.
  set (l := combine xs ys). set (l' := combine xs' ys').
  assert (Ll : length l = n) by (unfold l; rewrite combine_length; lia).
  assert (Ll' : length l' = n) by (unfold l'; rewrite combine_length; lia).
  pose proof (Ent_via fst l l' (one_change n) ltac:(congruence) ltac:(congruence) ltac:(lia)) as E1.
  pose proof (Ent_via snd l l' (one_change n) ltac:(congruence) ltac:(congruence) ltac:(lia)) as E2.
  pose proof (Ent_changed l l' ltac:(congruence)) as E3. rewrite Ll in E3.
  unfold l, l' in E1, E2. rewrite !fst_combine in E1 by congruence. rewrite !snd_combine in E2 by congruence. fold l l' in E1, E2.
  replace (Ent xs + Ent ys - Ent l - (Ent xs' + Ent ys' - Ent l')) with
    ((Ent xs - Ent xs') + ((Ent ys - Ent ys') + - (Ent l - Ent l'))) by ring.
  eapply Rle_trans; [apply Rabs_triang|]. pose proof (Rabs_triang (Ent ys - Ent ys') (- (Ent l - Ent l'))) as T.
  rewrite Rabs_Ropp in T. lra.
Qed.
Print Assumptions C100_mi.

(** only one variable changes: two entropies move *)
Theorem C100_mi_one_variable b xs xs' ys n : big_base b -> length xs = n -> length xs' = n -> length ys = n ->
  (0 < n)%nat -> small2 n ->
  exists v v', mi_discrete b (Some 0%Z) [A1 xs; A1 ys] = Ok v /\ mi_discrete b (Some 0%Z) [A1 xs'; A1 ys] = Ok v' /\
    Rabs (v - v') <= 2 * INR (changed xs xs') * one_change n / unit_of b.
Proof.
  intros B Lx Lx' Ly Hn HS.
  assert (NE : forall l : list Z, length l = n -> l <> []) by (intros l E ->; simpl in E; lia).
  exists (MI xs ys / unit_of b), (MI xs' ys / unit_of b).
  split; [apply mi2_api; auto; congruence|]. split; [apply mi2_api; auto; congruence|].
  apply scale_abs; [exact B|]. unfold MI.
  pose proof (Ent_changed xs xs' ltac:(congruence)) as E1. rewrite Lx in E1.
  assert (E2 : Rabs (Ent (combine xs ys) - Ent (combine xs' ys)) <= INR (changed xs xs') * one_change n).
  { eapply Rle_trans; [apply Ent_changed; rewrite !combine_length; lia|].
    replace (length (combine xs ys)) with n by (rewrite combine_length; lia).
    apply le_times; [|apply Rlt_le, one_change_pos; exact Hn].
    clear -Lx Lx' Ly. revert n xs' ys Lx Lx' Ly. induction xs as [|x xs IH]; intros n [|x' xs'] [|y ys] L1 L2 L3; simpl in *; try lia.
    destruct n as [|n]; [lia|]. specialize (IH n xs' ys ltac:(lia) ltac:(lia) ltac:(lia)).
    destruct (eq_dec x x') as [->|Q]; [destruct (eq_dec (x', y) (x', y)) as [_|Q]; [exact IH|congruence]|].
    destruct (eq_dec (x, y) (x', y)); lia. }
  replace (Ent xs + Ent ys - Ent (combine xs ys) - (Ent xs' + Ent ys - Ent (combine xs' ys))) with
    ((Ent xs - Ent xs') + - (Ent (combine xs ys) - Ent (combine xs' ys))) by ring.
  eapply Rle_trans; [apply Rabs_triang|]. rewrite Rabs_Ropp. lra.
Qed.

(** ** Conditional mutual information *)
Lemma CMI_changed {A B C} `{EqDec A} `{EqDec B} `{EqDec C} (l l' : list (A * B * C)) :
  length l = length l' -> (0 < length l)%nat ->
  let x (r : A * B * C) := fst (fst r) in let y (r : A * B * C) := snd (fst r) in
  Rabs (CMI (map x l) (map y l) (map snd l) - CMI (map x l') (map y l') (map snd l')) <= 4 * INR (changed l l') * one_change (length l).
Proof.
  intros L Hn x y. unfold CMI.
  rewrite !combine_map.
  pose proof (Ent_via (fun r => (x r, snd r)) l l' _ L eq_refl Hn) as E1.
  pose proof (Ent_via (fun r => (y r, snd r)) l l' _ L eq_refl Hn) as E2.
  pose proof (Ent_via (fun r => (x r, y r, snd r)) l l' _ L eq_refl Hn) as E3.
  pose proof (Ent_via snd l l' _ L eq_refl Hn) as E4.
  set (a1 := Ent (map (fun r => (x r, snd r)) l)) in *. set (a2 := Ent (map (fun r => (y r, snd r)) l)) in *.
  set (a3 := Ent (map (fun r => (x r, y r, snd r)) l)) in *. set (a4 := Ent (map snd l)) in *.
  set (b1 := Ent (map (fun r => (x r, snd r)) l')) in *. set (b2 := Ent (map (fun r => (y r, snd r)) l')) in *.
  set (b3 := Ent (map (fun r => (x r, y r, snd r)) l')) in *. set (b4 := Ent (map snd l')) in *.
  clearbody a1 a2 a3 a4 b1 b2 b3 b4.
  apply Rabs_le. apply abs_both in E1, E2, E3, E4. lra.
Qed.

Lemma cmi2_api b xs ys zs : big_base b -> length xs = length ys -> length xs = length zs -> xs <> [] -> small2 (length xs) ->
  cmi_discrete b [A1 xs; A1 ys] (RArr (A1 zs)) = Ok (CMI xs ys zs / unit_of b).
Proof.
  intros B L1 L2 NE HS. destruct (C16_cmi_entropy_identity b xs ys zs B L1 L2 NE HS) as (v & a1 & a2 & a3 & a4 & E & _ & _ & _ & _ & _ & -> & _).
  exact E.
Qed.

Theorem C100_cmi b xs ys zs xs' ys' zs' n : big_base b ->
  length xs = n -> length ys = n -> length zs = n -> length xs' = n -> length ys' = n -> length zs' = n -> (0 < n)%nat -> small2 n ->
  exists v v', cmi_discrete b [A1 xs; A1 ys] (RArr (A1 zs)) = Ok v /\ cmi_discrete b [A1 xs'; A1 ys'] (RArr (A1 zs')) = Ok v' /\
    Rabs (v - v') <= 4 * INR (changed (combine (combine xs ys) zs) (combine (combine xs' ys') zs')) * one_change n / unit_of b.
Proof.
  intros B Lx Ly Lz Lx' Ly' Lz' Hn HS.
  assert (NE : forall l : list Z, length l = n -> l <> []) by (intros l E ->; simpl in E; lia).
  exists (CMI xs ys zs / unit_of b), (CMI xs' ys' zs' / unit_of b).
  split; [apply cmi2_api; auto; congruence|]. split; [apply cmi2_api; auto; congruence|].
  apply scale_abs; [exact B|].
  set (l := combine (combine xs ys) zs). set (l' := combine (combine xs' ys') zs').
  assert (Lp : length (combine xs ys) = n) by (rewrite combine_length; lia).
  assert (Lp' : length (combine xs' ys') = n) by (rewrite combine_length; lia).
  assert (Ll : length l = n) by (unfold l; rewrite combine_length; lia).
  assert (Ll' : length l' = n) by (unfold l'; rewrite combine_length; lia).
  pose proof (CMI_changed l l' ltac:(congruence) ltac:(lia)) as E. cbn zeta in E. rewrite Ll in E.
  assert (P : forall a c z : list Z, length a = n -> length c = n -> length z = n ->
    map (fun r : Z * Z * Z => fst (fst r)) (combine (combine a c) z) = a /\
    map (fun r : Z * Z * Z => snd (fst r)) (combine (combine a c) z) = c /\ map snd (combine (combine a c) z) = z).
  { intros a c z L1 L2 L3. assert (L4 : length (combine a c) = n) by (rewrite combine_length; lia).
    split; [|split].
    - rewrite <- (map_map fst fst), (fst_combine (combine a c) z) by congruence. apply fst_combine. congruence.
    - rewrite <- (map_map fst snd), (fst_combine (combine a c) z) by congruence. apply snd_combine. congruence.
    - apply snd_combine. congruence. }
  destruct (P xs ys zs Lx Ly Lz) as (P1 & P2 & P3). destruct (P xs' ys' zs' Lx' Ly' Lz') as (Q1 & Q2 & Q3).
  unfold l, l' in E. rewrite P1, P2, P3, Q1, Q2, Q3 in E. exact E.
Qed.

(** ** Transfer entropy *)
Lemma base_times_NoDup n d s : (1 <= s)%nat -> NoDup (base_times n d s).
Proof.
  intros Hs. unfold base_times. apply FinFun.Injective_map_NoDup; [|apply seq_NoDup].
  intros a c E. cbn beta in E. assert (a * s = c * s)%nat by lia. nia.
Qed.
Lemma Ent_diff {A} `{EqDec A} (f g : nat -> A) ts m : (0 < length ts)%nat -> (length (diff f g ts) <= m)%nat ->
  Rabs (Ent (map f ts) - Ent (map g ts)) <= INR m * one_change (length ts).
Proof.
  intros Hn D. eapply Rle_trans; [apply Ent_changed; rewrite !map_length; reflexivity|]. rewrite map_length, changed_diff.
  apply le_times; [exact D|]. apply Rlt_le, one_change_pos. exact Hn.
Qed.
(** embedded rows touched by a change of the series *)
Lemma diff_past xs xs' s len ts n : length xs = n -> length xs' = n -> NoDup ts ->
  (forall t, In t ts -> (len * s <= t < n)%nat) ->
  (length (diff (past 0%Z xs s len) (past 0%Z xs' s len) ts) <= len * changed xs xs')%nat.
Proof.
  intros L L' ND B.
  pose proof (diff_list (fun t j => nth (t - (len - j) * s) xs 0%Z) (fun t j => nth (t - (len - j) * s) xs' 0%Z) ts
                (changed xs xs') (seq 0 len)) as D.
  rewrite seq_length in D. apply D. intros j Hj. apply in_seq in Hj. apply diff_shift; [congruence|exact ND|].
  intros t Ht. specialize (B t Ht). assert (Q : ((len - j) * s <= len * s)%nat) by (apply Nat.mul_le_mono_r; lia).
  rewrite L. set (u := ((len - j) * s)%nat) in *. set (w := (len * s)%nat) in *. clearbody u w. lia.
Qed.
Lemma diff_present ys ys' ts n : length ys = n -> length ys' = n -> NoDup ts -> (forall t, In t ts -> (t < n)%nat) ->
  (length (diff (fun t => nth t ys 0%Z) (fun t => nth t ys' 0%Z) ts) <= changed ys ys')%nat.
Proof.
  intros L L' ND B. rewrite (diff_ext _ (fun t => nth (t - 0) ys 0%Z) _ (fun t => nth (t - 0) ys' 0%Z)).
  - apply diff_shift; [congruence|exact ND|]. intros t Ht. specialize (B t Ht). lia.
  - intros t _. rewrite Nat.sub_0_r. auto.
Qed.

Theorem C100_te_source b xs xs' ys l k s n : big_base b ->
  length xs = n -> length xs' = n -> length ys = n -> (1 <= l)%nat -> (1 <= k)%nat -> (1 <= s)%nat ->
  (Nat.max k l * s < n)%nat -> small2 n ->
  exists v v', te_discrete b (A1 xs) (A1 ys) (te_kw l k s) = Ok v /\ te_discrete b (A1 xs') (A1 ys) (te_kw l k s) = Ok v' /\
    Rabs (v - v') <= 2 * INR (l * changed xs xs') * one_change (nrows n (Nat.max k l * s) s) / unit_of b.
Proof.
  intros B Lx Lx' Ly Hl Hk Hs Hd HS. pose proof (big_valid b B) as V. set (ts := base_times n (Nat.max k l * s) s).
  exists (CMI (presents 0%Z ys ts) (pasts 0%Z xs s l ts) (pasts 0%Z ys s k ts) / unit_of b),
         (CMI (presents 0%Z ys ts) (pasts 0%Z xs' s l ts) (pasts 0%Z ys s k ts) / unit_of b).
  split; [apply C19_te_is_conditional_mi; assumption|]. split; [apply C19_te_is_conditional_mi; assumption|].
  apply scale_abs; [exact B|].
  assert (Lt : length ts = nrows n (Nat.max k l * s) s) by apply base_times_length. rewrite <- Lt.
  assert (Hn : (0 < length ts)%nat) by (rewrite Lt; apply (nrows_pos n (Nat.max k l * s) s Hs Hd)).
  assert (ND : NoDup ts) by (apply base_times_NoDup; exact Hs).
  assert (HT : forall t, In t ts -> (l * s <= t < n)%nat).
  { intros t Ht. unfold ts in Ht. rewrite base_times_In in Ht by exact Hs. destruct Ht as [Ht _].
    assert (l * s <= Nat.max k l * s)%nat by (apply Nat.mul_le_mono_r; lia). lia. }
  pose proof (diff_past xs xs' s l ts n Lx Lx' ND HT) as D.
  unfold CMI, presents, pasts. rewrite !combine_map.
  set (p := fun t => nth t ys 0%Z). set (q := past 0%Z ys s k). set (f := past 0%Z xs s l) in *. set (g := past 0%Z xs' s l) in *.
  assert (E1 : Rabs (Ent (map (fun t => (f t, q t)) ts) - Ent (map (fun t => (g t, q t)) ts)) <= INR (l * changed xs xs') * one_change (length ts)).
  { apply Ent_diff; [exact Hn|]. pose proof (diff_op (@Datatypes.pair (list Z) (list Z)) f g q q ts) as X. rewrite diff_refl in X. cbn [length] in X. lia. }
  assert (E2 : Rabs (Ent (map (fun t => (p t, f t, q t)) ts) - Ent (map (fun t => (p t, g t, q t)) ts)) <= INR (l * changed xs xs') * one_change (length ts)).
  { apply Ent_diff; [exact Hn|].
    pose proof (diff_op (@Datatypes.pair (Z * list Z) (list Z)) (fun t => (p t, f t)) (fun t => (p t, g t)) q q ts) as X. rewrite diff_refl in X.
    pose proof (diff_op (@Datatypes.pair Z (list Z)) p p f g ts) as Y. rewrite diff_refl in Y. cbn [length] in X, Y. lia. }
  unfold p in E2. apply abs_both in E1, E2. apply Rabs_le. lra.
Qed.
Print Assumptions C100_te_source.

(** a change of the destination touches its history and its present *)
Theorem C100_te_destination b xs ys ys' l k s n : big_base b ->
  length xs = n -> length ys = n -> length ys' = n -> (1 <= l)%nat -> (1 <= k)%nat -> (1 <= s)%nat ->
  (Nat.max k l * s < n)%nat -> small2 n ->
  exists v v', te_discrete b (A1 xs) (A1 ys) (te_kw l k s) = Ok v /\ te_discrete b (A1 xs) (A1 ys') (te_kw l k s) = Ok v' /\
    Rabs (v - v') <= INR ((4 * k + 2) * changed ys ys') * one_change (nrows n (Nat.max k l * s) s) / unit_of b.
Proof.
  intros B Lx Ly Ly' Hl Hk Hs Hd HS. pose proof (big_valid b B) as V. set (ts := base_times n (Nat.max k l * s) s).
  exists (CMI (presents 0%Z ys ts) (pasts 0%Z xs s l ts) (pasts 0%Z ys s k ts) / unit_of b),
         (CMI (presents 0%Z ys' ts) (pasts 0%Z xs s l ts) (pasts 0%Z ys' s k ts) / unit_of b).
  split; [apply C19_te_is_conditional_mi; assumption|]. split; [apply C19_te_is_conditional_mi; assumption|].
  apply scale_abs; [exact B|].
  assert (Lt : length ts = nrows n (Nat.max k l * s) s) by apply base_times_length. rewrite <- Lt.
  assert (Hn : (0 < length ts)%nat) by (rewrite Lt; apply (nrows_pos n (Nat.max k l * s) s Hs Hd)).
  assert (ND : NoDup ts) by (apply base_times_NoDup; exact Hs).
  assert (HT : forall t, In t ts -> (k * s <= t < n)%nat).
  { intros t Ht. unfold ts in Ht. rewrite base_times_In in Ht by exact Hs. destruct Ht as [Ht _].
    assert (k * s <= Nat.max k l * s)%nat by (apply Nat.mul_le_mono_r; lia). lia. }
  pose proof (diff_past ys ys' s k ts n Ly Ly' ND HT) as D.
  pose proof (diff_present ys ys' ts n Ly Ly' ND (fun t Ht => proj2 (HT t Ht))) as D1.
  unfold CMI, presents, pasts. rewrite !combine_map. set (c := changed ys ys') in *. clearbody c.
  set (p := fun t => nth t ys 0%Z) in *. set (p' := fun t => nth t ys' 0%Z) in *.
  set (q := past 0%Z ys s k) in *. set (q' := past 0%Z ys' s k) in *. set (f := past 0%Z xs s l) in *.
  assert (E1 : Rabs (Ent (map (fun t => (f t, q t)) ts) - Ent (map (fun t => (f t, q' t)) ts)) <= INR (k * c) * one_change (length ts)).
  { apply Ent_diff; [exact Hn|]. pose proof (diff_op (@Datatypes.pair (list Z) (list Z)) f f q q' ts) as X. rewrite diff_refl in X. cbn [length] in X. lia. }
  assert (E2 : Rabs (Ent (map (fun t => (p t, f t, q t)) ts) - Ent (map (fun t => (p' t, f t, q' t)) ts)) <= INR (k * c + c) * one_change (length ts)).
  { apply Ent_diff; [exact Hn|].
    pose proof (diff_op (@Datatypes.pair (Z * list Z) (list Z)) (fun t => (p t, f t)) (fun t => (p' t, f t)) q q' ts) as X.
    pose proof (diff_op (@Datatypes.pair Z (list Z)) p p' f f ts) as Y. rewrite diff_refl in Y. cbn [length] in X, Y. lia. }
  assert (E3 : Rabs (Ent (map (fun t => (p t, q t)) ts) - Ent (map (fun t => (p' t, q' t)) ts)) <= INR (k * c + c) * one_change (length ts)).
  { apply Ent_diff; [exact Hn|]. pose proof (diff_op (@Datatypes.pair Z (list Z)) p p' q q' ts) as X. cbn [length] in X. lia. }
  pose proof (Ent_diff q q' ts (k * c) Hn D) as E4.
  replace (INR ((4 * k + 2) * c)) with (2 * INR (k * c) + 2 * INR (k * c + c)).
  2:{ rewrite !plus_INR, !mult_INR, plus_INR, !mult_INR. simpl (INR 4). simpl (INR 2). ring. }
  unfold p, p' in E2, E3. apply abs_both in E1, E2, E3, E4. apply Rabs_le. lra.
Qed.

(** ** The bound is small: it tends to 0 with the number of sample points, and it is attained up to the factor by
    concrete records *)
Theorem C100_bound_vanishes : forall e, 0 < e -> exists N, forall n, (N <= n)%nat -> one_change n < e.
Proof.
  intros e He. pose (N := S (Z.to_nat (up (9 / (e * e))))). exists N. intros n Hn.
  assert (M : 9 / (e * e) < INR n).
  { apply Rlt_le_trans with (INR N); [|apply le_INR; exact Hn]. unfold N. rewrite S_INR, INR_IZR_INZ.
    pose proof (archimed (9 / (e * e))) as [A0 _].
    assert (P0 : 0 < 9 / (e * e)) by (apply Rdiv_lt_0_compat; nra).
    rewrite Z2Nat.id; [lra|]. apply le_IZR. lra. }
  assert (P0 : 0 < 9 / (e * e)) by (apply Rdiv_lt_0_compat; nra).
  assert (Hp : 0 < INR n) by lra.
  assert (H1 : 1 <= INR n) by (apply (le_INR 1); unfold N in Hn; lia).
  set (r := sqrt (INR n)). assert (R2 : r * r = INR n) by (apply sqrt_sqrt; lra).
  assert (R1 : 1 <= r) by (unfold r; rewrite <- sqrt_1; apply sqrt_le_1; lra).
  assert (LN : ln (INR n) <= 2 * (r - 1)).
  { rewrite <- R2, ln_mult by lra. assert (ln r <= r - 1); [|lra].
    destruct (Req_dec r 1) as [->|Q]; [rewrite ln_1; lra|]. apply Rlt_le.
    pose proof (exp_ineq1 (r - 1) ltac:(lra)) as X. rewrite <- (ln_exp (r - 1)). apply ln_increasing; lra. }
  assert (RB : 3 / e < r).
  { assert (3 / e * (3 / e) < r * r) by (rewrite R2; replace (3 / e * (3 / e)) with (9 / (e * e)) by (field; lra); exact M).
    assert (0 < 3 / e) by (apply Rdiv_lt_0_compat; lra). nra. }
  unfold one_change. rewrite <- R2 at 2. apply Rle_lt_trans with (3 * r / (r * r)).
  - unfold Rdiv. apply Rmult_le_compat_r; [apply Rlt_le, Rinv_0_lt_compat; nra|]. lra.
  - replace (3 * r / (r * r)) with (3 / r) by (field; lra).
    apply (Rmult_lt_reg_r r); [lra|]. replace (3 / r * r) with 3 by (field; lra).
    apply (Rmult_lt_compat_r e) in RB; [|exact He]. replace (3 / e * e) with 3 in RB by (field; lra). lra.
Qed.
(** all samples equal against one different: the entropy moves by more than (ln n)/n *)
Theorem C100_bound_sharp n : (2 <= n)%nat ->
  exists h h', entropy_discrete BE (EArr (A1 (0%Z :: repeat 0%Z (n - 1)))) = Ok h /\
    entropy_discrete BE (EArr (A1 (1%Z :: repeat 0%Z (n - 1)))) = Ok h' /\ ln (INR n) / INR n < Rabs (h - h').
Proof.
  intros Hn. destruct n as [|n]; [lia|]. replace (S n - 1)%nat with n by lia.
  exists (Ent (0%Z :: repeat 0%Z n)), (Ent (1%Z :: repeat 0%Z n)).
  split; [rewrite entropy_1d by (exact Logic.I || discriminate); cbn [unit_of]; f_equal; field|].
  split; [rewrite entropy_1d by (exact Logic.I || discriminate); cbn [unit_of]; f_equal; field|].
  assert (C0 : count (repeat 0%Z n) 0%Z = n).
  { clear. unfold count. induction n as [|n IH]; [reflexivity|]. simpl. rewrite IH. reflexivity. }
  assert (C1 : count (repeat 0%Z n) 1%Z = 0%nat).
  { clear. unfold count. induction n as [|n IH]; [reflexivity|]. simpl. exact IH. }
  rewrite !Ent_sl by discriminate. rewrite !sl_cons, C0, C1, nlogn_0, nlogn_1. cbn [length]. rewrite repeat_length.
  assert (N1 : 1 <= INR n) by (apply (le_INR 1); lia).
  assert (N : 0 < INR (S n)) by (apply lt_0_INR; lia).
  replace (ln (INR (S n)) - (sl (repeat 0%Z n) + (nlogn (S n) - nlogn n)) / INR (S n)
           - (ln (INR (S n)) - (sl (repeat 0%Z n) + (0 - 0)) / INR (S n))) with (- ((nlogn (S n) - nlogn n) / INR (S n))) by (field; lra).
  rewrite Rabs_Ropp. unfold Rdiv. rewrite Rabs_mult, (Rabs_right (/ INR (S n))) by (apply Rle_ge, Rlt_le, Rinv_0_lt_compat; lra).
  apply Rmult_lt_compat_r; [apply Rinv_0_lt_compat; lra|]. eapply Rlt_le_trans; [|apply Rle_abs].
  unfold nlogn. rewrite S_INR.
  assert (L : ln (INR n) < ln (INR n + 1)) by (apply ln_increasing; lra). nra.
Qed.

(** concrete records with the hypotheses: one value of the source changed *)
Example C100_example : big_base (BNum 2) /\ changed [0; 1; 1; 0; 1]%Z [0; 1; 0; 0; 1]%Z = 1%nat /\
  (Nat.max 1 2 * 1 < 5)%nat /\ small2 5.
Proof. split; [simpl; lra|]. split; [reflexivity|]. split; [simpl; lia|]. unfold small2. simpl. lia. Qed.
