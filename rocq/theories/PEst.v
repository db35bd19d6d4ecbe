(** Proofs: generic facts about counts of a sample, for the bias-corrected estimators. *)
From Coq Require Import Reals Lra Lia List ZArith Arith Bool Permutation Sorted.
From Verif Require Import Res RSum Spec SpecGamma SpecEst Info Info2 Ord MBase MData MEntropy MMI MTE MGeneric MEst SpecBase PBase PEntropy PCoo PMI PMI2 PMI3 PCMI PMI4 PCMI2 PMI5 PMI6 PTE PTE2 PGeneric.
Import ListNotations.
Local Open Scope R_scope.

Lemma bycount_unique (f : nat -> R) (xs : list Z) : sumf (fun v => f (count xs v)) (unique xs) = bycount f xs.
Proof. unfold bycount. apply sumf_perm, unique_perm_distinct. Qed.

(** sum over the samples = count-weighted sum over the values *)
Lemma sum_samples {A} `{EqDec A} (xs : list A) (g : A -> R) :
  sumf g xs = sumf (fun v => INR (count xs v) * g v) (distinct xs).
Proof.
  pose proof (group xs (fun x => x) (distinct xs) g (NoDup_nodup _ _)) as G. cbv beta in G.
  change (sumf g xs) with (sumf (fun s => g s) xs). rewrite <- G.
  - apply sumf_ext. intros v _. rewrite cnt_count, map_id. reflexivity.
  - intros s Hs. apply nodup_In. exact Hs.
Qed.

Lemma distinct_In {A} `{EqDec A} (xs : list A) v : In v (distinct xs) <-> In v xs.
Proof. apply nodup_In. Qed.

Lemma count_pos {A} `{EqDec A} (xs : list A) v : In v xs <-> (0 < count xs v)%nat.
Proof. unfold count. apply count_occ_In. Qed.

Lemma count_le {A} `{EqDec A} (xs : list A) v : (count xs v <= length xs)%nat.
Proof. unfold count. apply count_occ_bound. Qed.

(** sums over counts depend on the partition only *)
Lemma bycount_samples {A} `{EqDec A} (xs : list A) f :
  bycount f xs = sumf (fun x => f (count xs x) / INR (count xs x)) xs.
Proof.
  rewrite (sum_samples xs (fun x => f (count xs x) / INR (count xs x))). unfold bycount.
  apply sumf_ext. intros v Hv. field. apply not_0_INR.
  apply (proj1 (distinct_In xs v)) in Hv. apply count_pos in Hv. lia.
Qed.

Lemma count_nth_partition {A B} `{EqDec A} `{EqDec B} (xs : list A) (ys : list B) dx dy i :
  same_partition xs ys -> (i < length xs)%nat -> count xs (nth i xs dx) = count ys (nth i ys dy).
Proof.
  intros [L P] Hi. apply INR_eq.
  pose proof (cnt_count (seq 0 (length xs)) (fun t => nth t xs dx) (nth i xs dx)) as C1.
  pose proof (cnt_count (seq 0 (length xs)) (fun t => nth t ys dy) (nth i ys dy)) as C2.
  rewrite <- (list_as_map dx xs (length xs) eq_refl) in C1.
  rewrite <- (list_as_map dy ys (length xs) (eq_sym L)) in C2. rewrite <- C1, <- C2.
  apply (cnt_partition (seq 0 (length xs)) (fun t => nth t xs dx) (fun t => nth t ys dy) i).
  intros t Ht. apply in_seq in Ht. apply P; lia.
Qed.

Lemma samples_partition {A B} `{EqDec A} `{EqDec B} (xs : list A) (ys : list B) (f : nat -> R) :
  same_partition xs ys -> sumf (fun x => f (count xs x)) xs = sumf (fun y => f (count ys y)) ys.
Proof.
  intros P. destruct xs as [|a xs'].
  - destruct P as [L _]. destruct ys; [reflexivity|discriminate].
  - destruct ys as [|b ys']; [destruct P as [L _]; discriminate|].
    set (xs := a :: xs') in *. set (ys := b :: ys') in *.
    assert (L : length ys = length xs) by (destruct P as [L _]; congruence).
    transitivity (sumf (fun t => f (count xs (nth t xs a))) (seq 0 (length xs))).
    + rewrite <- (sumf_map (fun t => nth t xs a) (fun x => f (count xs x)) (seq 0 (length xs))).
      rewrite <- (list_as_map a xs (length xs) eq_refl). reflexivity.
    + transitivity (sumf (fun t => f (count ys (nth t ys b))) (seq 0 (length xs))).
      * apply sumf_ext. intros t Ht. apply in_seq in Ht.
        rewrite (count_nth_partition xs ys a b t P) by lia. reflexivity.
      * rewrite <- (sumf_map (fun t => nth t ys b) (fun y => f (count ys y)) (seq 0 (length xs))).
        rewrite <- (list_as_map b ys (length xs) L). reflexivity.
Qed.

Lemma bycount_partition {A B} `{EqDec A} `{EqDec B} (xs : list A) (ys : list B) f :
  same_partition xs ys -> bycount f xs = bycount f ys.
Proof.
  intros P. rewrite !bycount_samples.
  apply (samples_partition xs ys (fun n => f n / INR n) P).
Qed.

Lemma nvals_bycount {A} `{EqDec A} (xs : list A) : INR (nvals xs) = bycount (fun _ => 1) xs.
Proof. unfold bycount, nvals. rewrite sumf_const. ring. Qed.

Lemma freq_bycount {A} `{EqDec A} r (xs : list A) :
  INR (freq r xs) = bycount (fun n => ind (Nat.eqb n r)) xs.
Proof. unfold bycount, freq. rewrite sumf_ind_length. reflexivity. Qed.

Lemma nvals_partition {A B} `{EqDec A} `{EqDec B} (xs : list A) (ys : list B) :
  same_partition xs ys -> nvals xs = nvals ys.
Proof. intros P. apply INR_eq. rewrite !nvals_bycount. apply bycount_partition. exact P. Qed.

Lemma freq_partition {A B} `{EqDec A} `{EqDec B} r (xs : list A) (ys : list B) :
  same_partition xs ys -> freq r xs = freq r ys.
Proof. intros P. apply INR_eq. rewrite !freq_bycount. apply bycount_partition. exact P. Qed.

Lemma bycount_ext {A} `{EqDec A} (xs : list A) f g :
  (forall n, (1 <= n <= length xs)%nat -> f n = g n) -> bycount f xs = bycount g xs.
Proof.
  intros E. apply sumf_ext. intros v Hv. apply (proj1 (distinct_In xs v)) in Hv. apply E.
  split; [apply count_pos; exact Hv|apply count_le].
Qed.

(** sum of the counts *)
Lemma bycount_id {A} `{EqDec A} (xs : list A) : bycount INR xs = INR (length xs).
Proof.
  unfold bycount. rewrite (sumf_ext _ (fun v => INR (count xs v) * 1)) by (intros; ring).
  rewrite <- (sum_samples xs (fun _ => 1)). rewrite sumf_const. ring.
Qed.

(** permutations of the samples and the counts *)
Lemma bycount_perm {A} `{EqDec A} (xs ys : list A) f : Permutation xs ys -> bycount f xs = bycount f ys.
Proof.
  intros P. rewrite !bycount_samples. rewrite (sumf_perm _ _ _ P). apply sumf_ext.
  intros x _. rewrite (count_perm _ _ x P). reflexivity.
Qed.

(** the model's view of the data *)
Lemma dd_N_of xs : dd_N (dd_of xs) = Z.of_nat (length xs).
Proof. reflexivity. Qed.
Lemma dd_counts_of (xs : list Z) : dd_counts (dd_of xs) = map (fun v => Z.of_nat (count xs v)) (unique xs).
Proof. unfold dd_of, unique_counts. cbn [dd_counts]. rewrite map_map. reflexivity. Qed.
Lemma dd_K_of (xs : list Z) : dd_K (dd_of xs) = nvals xs.
Proof. unfold dd_K, nvals. cbn [dd_of dd_uniq]. apply unique_length. Qed.

Lemma count_of_ok (r : nat) (xs : list Z) :
  count_of (Z.of_nat r) (dd_counts (dd_of xs)) = Z.of_nat (freq r xs).
Proof.
  unfold count_of. rewrite dd_counts_of. f_equal. apply INR_eq. rewrite freq_bycount, <- bycount_unique.
  rewrite <- sumf_ind_length, sumf_map. apply sumf_ext. intros v _. f_equal.
  destruct (Nat.eqb_spec (count xs v) r) as [->|N]; [apply Z.eqb_refl|]. apply Z.eqb_neq. lia.
Qed.

(** looking a value of the sample up in a dictionary over its distinct values *)
Lemma lookup_ok {V} (f : Z -> V) (xs : list Z) :
  lookup_data (combine (unique xs) (map f (unique xs))) (dd_of xs) = Ok (map f xs).
Proof.
  unfold lookup_data. cbn [dd_data dd_of]. apply mapM_ok. intros x Hx. unfold dget_exn.
  rewrite dget_combine by (apply unique_In; exact Hx). reflexivity.
Qed.

Lemma mapM_map_ok {A B C} (h : A -> B) (f : B -> res C) (g : A -> C) (l : list A) :
  (forall x, In x l -> f (h x) = Ok (g x)) -> mapM f (map h l) = Ok (map g l).
Proof.
  intros E. induction l as [|x l IH]; [reflexivity|]. simpl.
  rewrite E by (left; reflexivity). simpl. rewrite IH by (intros; apply E; right; assumption). reflexivity.
Qed.

Lemma mapM_to_base b (l : list R) : valid_base b -> mapM (to_base b) l = Ok (map (fun x => x / unit_of b) l).
Proof. intros V. apply mapM_ok. intros x _. apply to_base_ok. exact V. Qed.

Lemma mean_scaled {A} (g : A -> R) u (xs : list A) :
  mean (map (fun x => g x / u) xs) = sumf g xs / INR (length xs) / u.
Proof. unfold mean. rewrite map_length. unfold sumR. rewrite sumf_map, sumf_div. unfold Rdiv. ring. Qed.

Lemma inr_len_pos {A} (xs : list A) : xs <> [] -> 0 < INR (length xs).
Proof. intros H. apply INR_pos. destruct xs; simpl; [congruence|lia]. Qed.
