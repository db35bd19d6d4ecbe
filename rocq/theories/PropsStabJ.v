(** C100: stability of the Jensen-Shannon divergence and of the mutual information of many records. *)
From Coq Require Import Reals Lra Lia List ZArith Arith Bool Permutation.
From Verif Require Import SpecStab Res RSum Spec SpecBase SpecDiv SpecEst SpecInput SpecCross SpecPool Info Info2 Gibbs Ord MBase MData MEntropy MMI MTE MGeneric MEst MDiv PBase PEntropy PMI2 PMI4 PMI5 PCMI2 PEst4 PDiv PDiv2 PStab PropsMI PropsStab PropsDiv PropsCross PropsMore PCoarse PPool PropsPool PropsCoarse PropsPoolK.
Import ListNotations.
Local Open Scope R_scope.
Local Notation length := List.length.

Lemma changed_app (a a' r r' : list Z) : length a = length a' -> changed (a ++ r) (a' ++ r') = (changed a a' + changed r r')%nat.
Proof. revert a'. induction a as [|x a IH]; intros [|x' a'] L; try discriminate; [reflexivity|]. cbn [app changed]. rewrite IH by (simpl in L; lia). lia. Qed.

Lemma sum_Ent_changed n (ds ds' : list (list Z)) : length ds = length ds' -> all_len n ds -> all_len n ds' ->
  Rabs (sumf Ent ds - sumf Ent ds') <= INR (changed (concat ds) (concat ds')) * one_change n.
Proof.
  revert ds'. induction ds as [|d r IH]; intros [|d' r'] L F F'; try discriminate.
  - cbn [sumf concat changed]. rewrite Rminus_diag_eq, Rabs_R0 by reflexivity. simpl. lra.
  - pose proof (Forall_inv F) as Ld. pose proof (Forall_inv F') as Ld'. cbv beta in Ld, Ld'. cbn [sumf concat].
    rewrite changed_app by congruence. rewrite plus_INR, Rmult_plus_distr_r.
    pose proof (IH r' ltac:(simpl in L; lia) (Forall_inv_tail F) (Forall_inv_tail F')) as P. pose proof (Ent_changed d d' ltac:(congruence)) as Q. rewrite Ld in Q.
    apply abs_both in P. apply abs_both in Q. apply Rabs_le. lra.
Qed.

(** the value for equally long samples *)
Lemma jsd_pool b n ds : big_base b -> ds <> [] -> (0 < n)%nat -> all_len n ds ->
  jsd_discrete b (map A1 ds) = Ok ((Ent (concat ds) - sumf Ent ds / INR (length ds)) / unit_of b).
Proof.
  intros B NE Hn FL. pose proof (big_valid b B) as V.
  assert (F : Forall (fun d : list Z => d <> []) ds).
  { eapply Forall_impl; [|exact FL]. cbn beta. intros d L E. rewrite E in L. simpl in L. lia. }
  set (kp := fun d => (CrossEnt d (concat ds) - Ent d) / unit_of b).
  assert (Hp : forall d, In d ds -> kld_disc b (A1 d) (A1 (concat ds)) = Ok (kp d)).
  { intros d Hd. rewrite Forall_forall in F. apply C27_kld_every_pair; auto. apply pool_ne; [assumption|apply Forall_forall; exact F]. }
  rewrite (C123_jsd_is_mean_kld b n ds kp B NE Hn FL Hp), (weighted_kld b ds (concat ds) kp V (pool_ne ds NE F) NE F Hp).
  assert (E0 : CrossEnt (concat ds) (concat ds) = Ent (concat ds)) by (rewrite cross_incl by (intros x Hx; exact Hx); reflexivity).
  rewrite E0. do 3 f_equal.
  assert (NK : 0 < INR (length ds)) by (apply INR_pos; destruct ds; [congruence|simpl; lia]).
  assert (Nn : 0 < INR n) by (apply INR_pos; exact Hn).
  assert (LC : INR (length (concat ds)) = INR n * INR (length ds)).
  { rewrite length_concat_sum. rewrite (sumf_ext _ (fun _ => INR n)); [rewrite sumf_const; ring|]. intros d Hd. unfold all_len in FL. rewrite Forall_forall in FL. rewrite (FL d Hd). reflexivity. }
  rewrite LC, (sumf_ext (fun d => INR (length d) * Ent d) (fun d => INR n * Ent d)).
  - rewrite sumf_scal. field. split; lra.
  - intros d Hd. unfold all_len in FL. rewrite Forall_forall in FL. rewrite (FL d Hd). ring.
Qed.

(** changing a few of all the sample points of k equally long samples moves their divergence by a small, explicit amount *)
Theorem C100_jsd : forall b n ds ds', big_base b -> ds <> [] -> (0 < n)%nat -> length ds = length ds' -> all_len n ds -> all_len n ds' ->
  exists j j', jsd_discrete b (map A1 ds) = Ok j /\ jsd_discrete b (map A1 ds') = Ok j' /\
    Rabs (j - j') <= INR (changed (concat ds) (concat ds')) * (one_change (n * length ds) + one_change n / INR (length ds)) / unit_of b.
Proof.
  intros b n ds ds' B NE Hn L F F'. assert (NE' : ds' <> []) by (intros ->; destruct ds; [congruence|discriminate]).
  assert (LC : forall l : list (list Z), all_len n l -> length (concat l) = (n * length l)%nat).
  { clear. induction l as [|d r IH]; intros F; [simpl; lia|]. cbn [concat length]. rewrite app_length, IH by exact (Forall_inv_tail F). rewrite (Forall_inv F). lia. }
  do 2 eexists. split; [apply (jsd_pool b n); assumption|]. split; [apply (jsd_pool b n); assumption|].
  apply scale_abs; [exact B|]. rewrite <- L.
  pose proof (Ent_changed (concat ds) (concat ds') ltac:(rewrite !LC by assumption; congruence)) as P. rewrite (LC ds F) in P.
  pose proof (sum_Ent_changed n ds ds' L F F') as Q.
  assert (NK : 0 < INR (length ds)) by (apply INR_pos; destruct ds; [congruence|simpl; lia]).
  assert (Q' : Rabs (sumf Ent ds / INR (length ds) - sumf Ent ds' / INR (length ds)) <= INR (changed (concat ds) (concat ds')) * one_change n / INR (length ds)).
  { unfold Rdiv. rewrite <- Rmult_minus_distr_r, Rabs_mult, (Rabs_right (/ INR (length ds))) by (apply Rle_ge, Rlt_le, Rinv_0_lt_compat; exact NK).
    apply Rmult_le_compat_r; [apply Rlt_le, Rinv_0_lt_compat; exact NK|exact Q]. }
  apply abs_both in P. apply abs_both in Q'. apply Rabs_le. unfold Rdiv in *. lra.
Qed.
Print Assumptions C100_jsd.

(** mutual information of any number of records *)
Theorem C100_mi_many : forall b n cols cols', big_base b -> (3 <= length cols)%nat -> length cols = length cols' -> all_len n cols -> all_len n cols' -> (0 < n)%nat ->
  no_constant cols -> no_constant cols' -> (Z.of_nat n ^ Z.of_nat (length cols) < 2 ^ 64)%Z ->
  exists v v', mi_discrete b (Some 0%Z) (map A1 cols) = Ok v /\ mi_discrete b (Some 0%Z) (map A1 cols') = Ok v' /\
    Rabs (v - v') <= INR (changed (concat cols) (concat cols') + changed (rows_of 0%Z n cols) (rows_of 0%Z n cols')) * one_change n / unit_of b.
Proof.
  intros b n cols cols' B N3 L F F' Hn NC NC' SM. pose proof (big_valid b B) as V.
  do 2 eexists. split; [apply (C13_mi_is_total_correlation_partial b n cols); assumption|].
  split; [apply (C13_mi_is_total_correlation_partial b n cols'); try assumption; rewrite <- L; assumption|].
  apply scale_abs; [exact B|]. unfold TotalCorr.
  pose proof (sum_Ent_changed n cols cols' L F F') as P.
  pose proof (Ent_changed (rows_of 0%Z n cols) (rows_of 0%Z n cols') ltac:(rewrite !rows_of_length; reflexivity)) as Q. rewrite rows_of_length in Q.
  rewrite plus_INR, Rmult_plus_distr_r. apply abs_both in P. apply abs_both in Q. apply Rabs_le. lra.
Qed.
Print Assumptions C100_mi_many.

Example C100_jsd_example : let ds := [[1; 2; 2]; [2; 3; 3]]%Z in let ds' := [[1; 2; 2]; [2; 3; 1]]%Z in
  ds <> [] /\ length ds = length ds' /\ all_len 3 ds /\ all_len 3 ds' /\ changed (concat ds) (concat ds') = 1%nat /\
  no_constant [[0; 1; 0]; [0; 0; 1]; [2; 2; 3]]%Z /\ no_constant [[0; 1; 0]; [0; 1; 1]; [2; 2; 3]]%Z /\
  changed (rows_of 0%Z 3 [[0; 1; 0]; [0; 0; 1]; [2; 2; 3]]%Z) (rows_of 0%Z 3 [[0; 1; 0]; [0; 1; 1]; [2; 2; 3]]%Z) = 1%nat.
Proof.
  cbv zeta. split; [discriminate|]. split; [reflexivity|]. split; [repeat constructor|]. split; [repeat constructor|]. split; [reflexivity|].
  split; [intros c [<-|[<-|[<-|[]]]]; [exists 0%Z, 1%Z|exists 0%Z, 1%Z|exists 2%Z, 3%Z]; simpl; repeat split; try tauto; lia|].
  split; [intros c [<-|[<-|[<-|[]]]]; [exists 0%Z, 1%Z|exists 0%Z, 1%Z|exists 2%Z, 3%Z]; simpl; repeat split; try tauto; lia|reflexivity].
Qed.
