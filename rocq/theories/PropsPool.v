(** Property theorems C103: pooling samples. *)
From Coq Require Import Reals Lra Lia List ZArith Arith Bool Permutation.
From Verif Require Import Res RSum Spec SpecBase SpecDiv SpecPool Info Info2 Gibbs Ord MBase MData MEntropy MMI MDiv PBase PEntropy PMI2 PMI4 PMI5 PCMI2 PEst4 PDiv PDiv2 PStab PropsDiv PPool.
Import ListNotations.
Local Open Scope R_scope.

Lemma pool_ne (ds : list (list Z)) : ds <> [] -> Forall (fun d => d <> []) ds -> concat ds <> [].
Proof. intros NE F. destruct ds as [|d r]; [congruence|]. inversion F as [|? ? N _]; subst. destruct d; [congruence|discriminate]. Qed.
Lemma pool_N (ds : list (list Z)) : ds <> [] -> Forall (fun d => d <> []) ds -> 0 < INR (length (concat ds)).
Proof. intros NE F. apply INR_pos. pose proof (pool_ne ds NE F). destruct (concat ds); [congruence|simpl; lia]. Qed.
Lemma labels_ne (ds : list (list Z)) : ds <> [] -> Forall (fun d => d <> []) ds -> forall k, labels k ds <> [].
Proof. intros NE F k E. pose proof (labels_length k ds) as L. rewrite E in L. pose proof (pool_ne ds NE F) as P. destruct (concat ds); [congruence|discriminate]. Qed.
Lemma weighted_val b ds h : valid_base b -> ds <> [] -> Forall (fun d => d <> []) ds ->
  (forall d, In d ds -> entropy_discrete b (EArr (A1 d)) = Ok (h d)) ->
  weighted h ds = sumf (fun d => INR (length d) * Ent d) ds / INR (length (concat ds)) / unit_of b.
Proof.
  intros V NE F Hh. unfold weighted. rewrite (sumf_ext _ (fun d => INR (length d) * Ent d / unit_of b)).
  - rewrite sumf_div. pose proof (unit_neq0 b V). pose proof (pool_N ds NE F). field. split; lra.
  - intros d Hd. specialize (Hh d Hd). rewrite Forall_forall in F. rewrite entropy_1d in Hh by auto.
    assert (E : h d = Ent d / unit_of b) by congruence. rewrite E. unfold Rdiv. ring.
Qed.
Lemma swap_Ent {A B} `{EqDec A} `{EqDec B} (xs : list A) (ys : list B) : Ent (combine xs ys) = Ent (combine ys xs).
Proof.
  replace (combine ys xs) with (map (fun p : A * B => (snd p, fst p)) (combine xs ys)).
  - symmetry. apply Ent_map_inj. intros [x y] [x' y'] _ _. cbn. congruence.
  - revert ys. induction xs as [|x xs IH]; intros [|y ys]; try reflexivity. cbn [combine map fst snd]. rewrite IH. reflexivity.
Qed.

Lemma same_pool (ds : list (list Z)) : Forall (fun d => d <> []) ds ->
  (forall d v, In d ds -> prob d v = prob (concat ds) v) <-> (forall d e v, In d ds -> In e ds -> prob d v = prob e v).
Proof.
  intros F. split.
  - intros E d e v Hd He. rewrite (E d v Hd), (E e v He). reflexivity.
  - intros E d v Hd. assert (N : forall e, In e ds -> 0 < INR (length e)).
    { intros e He. rewrite Forall_forall in F. specialize (F e He). apply INR_pos. destruct e; [congruence|simpl; lia]. }
    assert (C : forall l, incl l ds -> INR (count (concat l) v) = prob d v * INR (length (concat l))).
    { induction l as [|e l IH]; intros I0; [simpl; ring|]. cbn [concat]. rewrite count_app, app_length, !plus_INR, IH by (intros x Hx; apply I0; right; exact Hx).
      rewrite (E d e v Hd (I0 e (or_introl eq_refl))). unfold prob. field. pose proof (N e (I0 e (or_introl eq_refl))). lra. }
    unfold prob at 2. rewrite (C ds (fun x Hx => Hx)). field.
    assert (0 < INR (length (concat ds))); [|lra]. apply INR_pos.
    assert (P : 0 < INR (length d)) by (apply N; exact Hd). destruct d as [|x d]; [simpl in P; lra|].
    assert (In x (concat ds)) by (apply in_concat; exists (x :: d); split; [exact Hd|left; reflexivity]). destruct (concat ds); [contradiction|simpl; lia].
Qed.

Lemma disjoint_if_determined (ds : list (list Z)) k : determines (concat ds) (labels k ds) -> disjoint_alphabets ds.
Proof.
  revert k. induction ds as [|d r IH]; intros k D; [constructor|]. cbn [concat labels] in D.
  assert (C : combine (d ++ concat r) (repeat k (length d) ++ labels (k + 1) r) = combine d (repeat k (length d)) ++ combine (concat r) (labels (k + 1) r)).
  { apply combine_app2. rewrite repeat_length. reflexivity. }
  constructor.
  - apply Forall_forall. intros e He v Hv Hv'.
    assert (I1 : In (v, k) (combine d (repeat k (length d)))).
    { clear -Hv. induction d as [|x d IH]; [destruct Hv|]. cbn [length repeat combine]. destruct Hv as [->|Hv]; [left; reflexivity|right; apply IH; exact Hv]. }
    assert (I2 : exists k', (k < k')%Z /\ In (v, k') (combine (concat r) (labels (k + 1) r))).
    { assert (Hc : In v (concat r)) by (apply in_concat; exists e; split; assumption).
      apply (In_nth _ _ 0%Z) in Hc. destruct Hc as (i & Hi & <-).
      assert (IL : In (nth i (labels (k + 1) r) 0%Z) (labels (k + 1) r)) by (apply nth_In; rewrite labels_length; exact Hi).
      exists (nth i (labels (k + 1) r) 0%Z). split.
      - rewrite labels_blocks in IL at 2. apply in_concat in IL. destruct IL as (B & HB & IB). pose proof (lblocks_ge _ _ _ _ HB IB). lia.
      - rewrite <- combine_nth by (rewrite labels_length; reflexivity). apply nth_In. rewrite combine_length, labels_length. lia. }
    destruct I2 as (k' & Lt & I2).
    assert (E : k = k'). { apply (D v k k'); rewrite C; apply in_or_app; [left; exact I1|right; exact I2]. }
    lia.
  - apply (IH (k + 1)%Z). intros x y y' I1 I2. apply (D x y y'); rewrite C; apply in_or_app; right; assumption.
Qed.

(** Pooling never loses entropy on average and gains at most the entropy of the labels.  It gains nothing exactly when all
    samples have the same distribution, and everything exactly when no symbol occurs in two samples. *)
Theorem C103_pool_bounds : forall b ds h, big_base b -> ds <> [] -> Forall (fun d => d <> []) ds ->
  (forall d, In d ds -> entropy_discrete b (EArr (A1 d)) = Ok (h d)) ->
  exists hp hl,
    entropy_discrete b (EArr (A1 (concat ds))) = Ok hp /\ entropy_discrete b (EArr (A1 (labels 0 ds))) = Ok hl /\
    weighted h ds <= hp <= weighted h ds + hl /\
    (hp = weighted h ds <-> forall d e v, In d ds -> In e ds -> prob d v = prob e v) /\
    (hp = weighted h ds + hl <-> disjoint_alphabets ds).
Proof.
  intros b ds h B NE F Hh. pose proof (big_valid b B) as V.
  pose proof (pool_ne ds NE F) as NS. pose proof (pool_N ds NE F) as NP. pose proof (labels_ne ds NE F 0%Z) as NL.
  pose proof (big_unit b B) as U0.
  exists (Ent (concat ds) / unit_of b), (Ent (labels 0 ds) / unit_of b).
  split; [apply entropy_1d; assumption|]. split; [apply entropy_1d; assumption|].
  rewrite (weighted_val b ds h V NE F Hh). set (W := sumf (fun d => INR (length d) * Ent d) ds).
  set (N := INR (length (concat ds))) in *. set (u := unit_of b) in *.
  pose proof (pool_KL ds F) as PK. fold N W in PK.
  pose proof (Ent_label_pool 0%Z ds) as PL. fold N W in PL.
  assert (K0 : 0 <= sumf (fun d => INR (length d) * KL d (concat ds)) ds).
  { apply sumf_nonneg. intros d Hd. rewrite Forall_forall in F. apply Rmult_le_pos; [apply pos_INR|]. apply KL_nonneg; [apply F; exact Hd|].
    intros v Hv. apply in_concat. exists d. split; assumption. }
  assert (LL : length (labels 0 ds) = length (concat ds)) by apply labels_length.
  assert (G : Ent (concat ds) <= Ent (combine (labels 0 ds) (concat ds))).
  { rewrite swap_Ent. pose proof (MI_le_l (labels 0 ds) (concat ds) LL) as Q. unfold MI in Q. rewrite swap_Ent in Q. lra. }
  assert (S1 : forall a c, a / u <= c / u <-> a <= c).
  { intros a c. split; intros Q.
    - apply (Rmult_le_reg_r (/ u)); [apply Rinv_0_lt_compat; exact U0|exact Q].
    - apply Rmult_le_compat_r; [left; apply Rinv_0_lt_compat; exact U0|exact Q]. }
  assert (S2 : forall a c, a / u = c / u <-> a = c).
  { intros a c. split; intros Q; [|rewrite Q; reflexivity]. apply (Rmult_eq_reg_r (/ u)); [exact Q|apply Rinv_neq_0_compat; lra]. }
  assert (S3 : W / N / u + Ent (labels 0 ds) / u = (W / N + Ent (labels 0 ds)) / u) by (unfold Rdiv; ring).
  assert (S4 : forall x, W / N <= x <-> W <= N * x).
  { intros x. split; intros Q.
    - apply (Rmult_le_compat_l N) in Q; [|lra]. replace (N * (W / N)) with W in Q by (field; lra). exact Q.
    - apply (Rmult_le_reg_l N); [exact NP|]. replace (N * (W / N)) with W by (field; lra). exact Q. }
  assert (S5 : forall x, x = W / N <-> N * x = W).
  { intros x. split; intros Q; [rewrite Q; field; lra|]. apply (Rmult_eq_reg_l N); [rewrite Q; field; lra|lra]. }
  rewrite S3. split; [split|split].
  - apply S1, S4. lra.
  - apply S1. assert (Ent (concat ds) - Ent (labels 0 ds) <= W / N); [|lra].
    apply (Rmult_le_reg_l N); [exact NP|]. replace (N * (W / N)) with W by (field; lra).
    apply (Rmult_le_compat_l N) in G; [|lra]. lra.
  - rewrite S2, S5, <- same_pool by exact F. split.
    + intros E d v Hd. assert (Z : sumf (fun d => INR (length d) * KL d (concat ds)) ds = 0) by lra.
      rewrite Forall_forall in F. assert (I0 : incl d (concat ds)) by (intros x Hx; apply in_concat; exists d; split; assumption).
      apply (proj1 (KL_zero_iff d (concat ds) (F d Hd) I0)).
      assert (Q : INR (length d) * KL d (concat ds) = 0).
      { apply (sumf_zero_all (fun d => INR (length d) * KL d (concat ds)) ds); [|exact Z|exact Hd].
        intros e He. apply Rmult_le_pos; [apply pos_INR|]. apply KL_nonneg; [apply F; exact He|]. intros x Hx. apply in_concat. exists e. split; assumption. }
      apply Rmult_integral in Q. destruct Q as [Q|Q]; [|exact Q]. specialize (F d Hd). exfalso. destruct d; [congruence|].
      assert (0 < INR (length (z :: d))) by (apply INR_pos; simpl; lia). lra.
    + intros E. assert (Z : sumf (fun d => INR (length d) * KL d (concat ds)) ds = 0); [|lra].
      rewrite (sumf_ext _ (fun _ => 0)); [apply sumf_zero|]. intros d Hd. rewrite Forall_forall in F.
      rewrite (proj2 (KL_zero_iff d (concat ds) (F d Hd) (fun x Hx => proj2 (in_concat ds x) (ex_intro _ d (conj Hd Hx))))); [ring|].
      intros v. apply E. exact Hd.
  - rewrite S2. split.
    + intros E. apply (disjoint_if_determined ds 0%Z). apply Ent_determined; [symmetry; exact LL|]. rewrite swap_Ent.
      apply (Rmult_eq_reg_l N); [|lra]. rewrite PL, E. field. lra.
    + intros D. pose proof (Ent_blocks ds D) as EB. rewrite <- (Ent_labels 0%Z ds) in EB. fold N W in EB.
      apply (Rmult_eq_reg_l N); [|lra]. rewrite EB. field. lra.
Qed.
Print Assumptions C103_pool_bounds.

(** chain rule: labels and pooled sample jointly *)
Theorem C103_label_chain : forall b ds h, valid_base b -> ds <> [] -> Forall (fun d => d <> []) ds ->
  (forall d, In d ds -> entropy_discrete b (EArr (A1 d)) = Ok (h d)) ->
  exists hl, entropy_discrete b (EArr (A1 (labels 0 ds))) = Ok hl /\
    entropy_discrete b (ETuple [A1 (labels 0 ds); A1 (concat ds)]) = Ok (hl + weighted h ds).
Proof.
  intros b ds h V NE F Hh. pose proof (labels_ne ds NE F 0%Z) as NL. pose proof (pool_N ds NE F) as NP.
  exists (Ent (labels 0 ds) / unit_of b). split; [apply entropy_1d; assumption|].
  change [A1 (labels 0 ds); A1 (concat ds)] with (map A1 [labels 0 ds; concat ds]).
  assert (LL : length (labels 0 ds) = length (concat ds)) by apply labels_length.
  rewrite (entropy_tuple b (length (concat ds))); [|exact V|discriminate|repeat constructor; auto|apply INR_lt; simpl; exact NP].
  f_equal. rewrite (weighted_val b ds h V NE F Hh). rewrite (rows_of_2 _ _ _ LL eq_refl).
  pose proof (Ent_label_pool 0%Z ds) as PL. pose proof (unit_neq0 b V) as U0.
  set (W := sumf (fun d => INR (length d) * Ent d) ds) in *. set (N := INR (length (concat ds))) in *.
  assert (E : Ent (combine (labels 0 ds) (concat ds)) = Ent (labels 0 ds) + W / N).
  { apply (Rmult_eq_reg_l N); [|lra]. rewrite PL. field. lra. }
  rewrite E. unfold Rdiv. ring.
Qed.
Print Assumptions C103_label_chain.

(** the entropy gained by pooling is the mutual information of labels and pooled sample *)
Theorem C103_label_mi : forall b ds h, big_base b -> ds <> [] -> Forall (fun d => d <> []) ds -> small2 (length (concat ds)) ->
  (forall d, In d ds -> entropy_discrete b (EArr (A1 d)) = Ok (h d)) ->
  exists hp, entropy_discrete b (EArr (A1 (concat ds))) = Ok hp /\
    mi_discrete b (Some 0%Z) [A1 (labels 0 ds); A1 (concat ds)] = Ok (hp - weighted h ds).
Proof.
  intros b ds h B NE F SM Hh. pose proof (big_valid b B) as V. pose proof (labels_ne ds NE F 0%Z) as NL. pose proof (pool_N ds NE F) as NP.
  assert (LL : length (labels 0 ds) = length (concat ds)) by apply labels_length.
  exists (Ent (concat ds) / unit_of b). split; [apply entropy_1d; [exact V|apply pool_ne; assumption]|].
  rewrite mi2_api; [|exact B|exact LL|exact NL|rewrite LL; exact SM]. f_equal. rewrite (weighted_val b ds h V NE F Hh).
  pose proof (Ent_label_pool 0%Z ds) as PL. pose proof (unit_neq0 b V) as U0.
  set (W := sumf (fun d => INR (length d) * Ent d) ds) in *. set (N := INR (length (concat ds))) in *.
  assert (E : Ent (combine (labels 0 ds) (concat ds)) = Ent (labels 0 ds) + W / N).
  { apply (Rmult_eq_reg_l N); [|lra]. rewrite PL. field. lra. }
  unfold MI. rewrite E. unfold Rdiv. ring.
Qed.
Print Assumptions C103_label_mi.

(** the Jensen-Shannon divergence of equally long samples is that mutual information *)
Theorem C103_jsd_is_label_mi : forall b n ds, big_base b -> ds <> [] -> (0 < n)%nat -> Forall (fun d => length d = n) ds -> small2 (length (concat ds)) ->
  jsd_discrete b (map A1 ds) = mi_discrete b (Some 0%Z) [A1 (labels 0 ds); A1 (concat ds)].
Proof.
  intros b n ds B NE Hn FL SM. pose proof (big_valid b B) as V.
  assert (F : Forall (fun d : list Z => d <> []) ds).
  { eapply Forall_impl; [|exact FL]. cbn beta. intros d L E. rewrite E in L. simpl in L. lia. }
  destruct (C103_label_mi b ds (fun d => Ent d / unit_of b) B NE F SM) as (hp & E1 & E2).
  { intros d Hd. rewrite Forall_forall in F. apply entropy_1d; auto. }
  rewrite E2. rewrite entropy_1d in E1 by (try apply pool_ne; assumption). injection E1 as <-.
  rewrite (proj1 (C28_jsd_discrete b ds V NE F)). f_equal.
  assert (NK : 0 < INR (length ds)) by (apply INR_pos; destruct ds; [congruence|simpl; lia]).
  assert (Nn : 0 < INR n) by (apply INR_pos; exact Hn).
  assert (LC : INR (length (concat ds)) = INR n * INR (length ds)).
  { rewrite length_concat_sum. rewrite (sumf_ext _ (fun _ => INR n)); [rewrite sumf_const; ring|]. intros d Hd. rewrite Forall_forall in FL. rewrite (FL d Hd). reflexivity. }
  assert (M : forall v, mixprob ds v = prob (concat ds) v).
  { intros v. unfold mixprob, prob at 2. rewrite LC.
    assert (C : INR (count (concat ds) v) = sumf (fun d => INR (count d v)) ds).
    { clear. induction ds as [|d r IH]; [reflexivity|]. cbn [concat sumf]. rewrite count_app, plus_INR, IH. reflexivity. }
    rewrite C. rewrite (sumf_ext _ (fun d => INR (count d v) / INR n)).
    - rewrite sumf_div. field. split; lra.
    - intros d Hd. rewrite Forall_forall in FL. unfold prob. rewrite (FL d Hd). reflexivity. }
  unfold JSD. rewrite (sumf_ext _ (fun v => prob (concat ds) v * ln (prob (concat ds) v))) by (intros v _; rewrite M; reflexivity).
  fold (Ent (concat ds)). unfold weighted. rewrite LC.
  rewrite (sumf_ext (fun d => INR (length d) * (Ent d / unit_of b)) (fun d => INR n / unit_of b * Ent d)).
  - rewrite sumf_scal. pose proof (unit_neq0 b V). field. repeat split; lra.
  - intros d Hd. rewrite Forall_forall in FL. rewrite (FL d Hd). unfold Rdiv. ring.
Qed.
Print Assumptions C103_jsd_is_label_mi.

(** two samples with a shared and an own symbol each: the hypotheses hold, and neither extreme is reached *)
Example C103_example : let ds := [[1; 2; 2]; [2; 3]]%Z in
  ds <> [] /\ Forall (fun d => d <> []) ds /\ labels 0 ds = [0; 0; 0; 1; 1]%Z /\ small2 (length (concat ds)) /\
  ~ disjoint_alphabets ds /\ prob [1; 2; 2]%Z 3%Z <> prob [2; 3]%Z 3%Z.
Proof.
  cbv zeta. split; [discriminate|]. split; [repeat constructor; discriminate|]. split; [reflexivity|]. split; [unfold small2; simpl; lia|]. split.
  - intros D. inversion D as [|? ? F1 _]; subst. inversion F1 as [|? ? G _]; subst. apply (G 2%Z); simpl; auto.
  - unfold prob, count. simpl. lra.
Qed.
