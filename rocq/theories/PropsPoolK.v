(** Property theorems C123: divergences of pooled samples. *)
From Coq Require Import Reals Lra Lia List ZArith Arith Bool Permutation.
From Verif Require Import Res RSum Spec SpecBase SpecDiv SpecEst SpecInput SpecCross SpecPool Info Info2 Gibbs Ord MBase MData MEntropy MMI MTE MGeneric MEst MDiv PBase PEntropy PMI2 PMI4 PMI5 PCMI2 PEst4 PDiv PDiv2 PStab PropsDiv PropsCross PropsMore PCoarse PPool PropsPool PropsCoarse.
Import ListNotations.
Local Open Scope R_scope.
Local Notation length := List.length.

(** cross-entropy as a sum over the sample points *)
Definition pt (qs : list Z) (x : Z) : R := if in_dec eq_dec x qs then ln (prob qs x) else 0.
Lemma cross_points (ps qs : list Z) : ps <> [] -> INR (length ps) * CrossEnt ps qs = - sumf (pt qs) ps.
Proof.
  intros NE. assert (N : 0 < INR (length ps)) by (apply INR_pos; destruct ps; [congruence|simpl; lia]).
  unfold CrossEnt, shared_sum, shared. rewrite sumf_filter, (points_group ps (pt qs)).
  rewrite Ropp_mult_distr_r_reverse. f_equal. rewrite <- sumf_scal. apply sumf_ext. intros v _. unfold pt, prob.
  destruct (in_dec eq_dec v qs); [unfold ind; field; lra|unfold ind; field; lra].
Qed.
Lemma cross_pool (ds : list (list Z)) qs : ds <> [] -> Forall (fun d => d <> []) ds ->
  INR (length (concat ds)) * CrossEnt (concat ds) qs = sumf (fun d => INR (length d) * CrossEnt d qs) ds.
Proof.
  intros NE F. rewrite cross_points by (apply pool_ne; assumption). rewrite sumf_concat.
  rewrite (sumf_ext (fun d => INR (length d) * CrossEnt d qs) (fun d => (-1) * sumf (pt qs) d)).
  - rewrite (sumf_scal (-1) (fun d => sumf (pt qs) d)). ring.
  - intros d Hd. rewrite Forall_forall in F. rewrite cross_points by (apply F; exact Hd). ring.
Qed.

Lemma weighted_kld b (ds : list (list Z)) qs k : valid_base b -> qs <> [] -> ds <> [] -> Forall (fun d => d <> []) ds ->
  (forall d, In d ds -> kld_disc b (A1 d) (A1 qs) = Ok (k d)) ->
  weighted k ds = (CrossEnt (concat ds) qs - sumf (fun d => INR (length d) * Ent d) ds / INR (length (concat ds))) / unit_of b.
Proof.
  intros V NQ NE F Hk. pose proof (pool_N ds NE F) as NP. pose proof (unit_neq0 b V) as U0. unfold weighted.
  assert (E : sumf (fun d => INR (length d) * k d) ds = (sumf (fun d => INR (length d) * CrossEnt d qs) ds - sumf (fun d => INR (length d) * Ent d) ds) / unit_of b).
  { rewrite <- sumf_minus, <- sumf_div. apply sumf_ext. intros d Hd. rewrite Forall_forall in F. specialize (Hk d Hd).
    rewrite C27_kld_every_pair in Hk by auto. injection Hk as <-. unfold Rdiv. ring. }
  rewrite E, <- cross_pool by assumption. field. split; lra || exact U0.
Qed.

(** the compensation identity: the mean divergence of the parts from a reference is the divergence of the pool from the
    reference plus the mean divergence of the parts from the pool *)
Theorem C123_compensation : forall b ds qs k kp, valid_base b -> qs <> [] -> ds <> [] -> Forall (fun d => d <> []) ds ->
  (forall d, In d ds -> kld_disc b (A1 d) (A1 qs) = Ok (k d)) ->
  (forall d, In d ds -> kld_disc b (A1 d) (A1 (concat ds)) = Ok (kp d)) ->
  exists v, kld_disc b (A1 (concat ds)) (A1 qs) = Ok v /\ weighted k ds = v + weighted kp ds.
Proof.
  intros b ds qs k kp V NQ NE F Hk Hp. pose proof (pool_ne ds NE F) as NC.
  eexists. split; [apply C27_kld_every_pair; assumption|].
  rewrite (weighted_kld b ds qs k) by assumption. rewrite (weighted_kld b ds (concat ds) kp) by assumption.
  assert (E : CrossEnt (concat ds) (concat ds) = Ent (concat ds)).
  { rewrite cross_incl by (intros x Hx; exact Hx). reflexivity. }
  rewrite E. unfold Rdiv. ring.
Qed.
Print Assumptions C123_compensation.

Lemma parts_nonneg b ds kp : big_base b -> Forall (fun d => d <> []) ds ->
  (forall d, In d ds -> kld_disc b (A1 d) (A1 (concat ds)) = Ok (kp d)) ->
  forall d, In d ds -> 0 <= kp d /\ (kp d = 0 <-> forall v, prob d v = prob (concat ds) v).
Proof.
  intros B F Hp d Hd. rewrite Forall_forall in F.
  assert (I0 : incl d (concat ds)) by (intros x Hx; apply in_concat; exists d; split; assumption).
  destruct (C27_kld_discrete b d (concat ds) (big_valid b B) (F d Hd) I0) as (E & P & Z0). rewrite Hp in E by exact Hd. injection E as E.
  rewrite E. split; [apply P; exact B|exact Z0].
Qed.

(** pooling never raises the divergence from a reference above the mean of the parts, whatever the reference; it stays equal
    exactly when all parts have the same distribution *)
Theorem C123_pool_convex : forall b ds qs k, big_base b -> qs <> [] -> ds <> [] -> Forall (fun d => d <> []) ds ->
  (forall d, In d ds -> kld_disc b (A1 d) (A1 qs) = Ok (k d)) ->
  exists v, kld_disc b (A1 (concat ds)) (A1 qs) = Ok v /\ v <= weighted k ds /\
    (v = weighted k ds <-> forall d e x, In d ds -> In e ds -> prob d x = prob e x).
Proof.
  intros b ds qs k B NQ NE F Hk. pose proof (big_valid b B) as V. pose proof (pool_ne ds NE F) as NC. pose proof (pool_N ds NE F) as NP.
  set (kp := fun d => (CrossEnt d (concat ds) - Ent d) / unit_of b).
  assert (Hp : forall d, In d ds -> kld_disc b (A1 d) (A1 (concat ds)) = Ok (kp d)).
  { intros d Hd. rewrite Forall_forall in F. apply C27_kld_every_pair; auto. }
  destruct (C123_compensation b ds qs k kp V NQ NE F Hk Hp) as (v & Ev & C). exists v. split; [exact Ev|].
  pose proof (parts_nonneg b ds kp B F Hp) as PN.
  assert (PN' : forall d, In d ds -> 0 <= INR (length d) * kp d) by (intros d Hd; apply Rmult_le_pos; [apply pos_INR|apply PN; exact Hd]).
  assert (W0 : 0 <= weighted kp ds).
  { unfold weighted. apply Rmult_le_pos; [apply sumf_nonneg; exact PN'|apply Rlt_le, Rinv_0_lt_compat; exact NP]. }
  split; [lra|]. rewrite <- same_pool by exact F.
  assert (Q : v = weighted k ds <-> sumf (fun d => INR (length d) * kp d) ds = 0).
  { rewrite C. unfold weighted at 1. split; intros E.
    - assert (E' : sumf (fun d => INR (length d) * kp d) ds / INR (length (concat ds)) = 0) by lra.
      apply (f_equal (fun r => r * INR (length (concat ds)))) in E'. unfold Rdiv in E'. rewrite Rmult_assoc, Rinv_l, Rmult_0_l in E' by lra. lra.
    - rewrite E. unfold Rdiv. ring. }
  rewrite Q. split.
  - intros E d x Hd. pose proof (sumf_zero_all _ _ PN' E d Hd) as Z0. apply Rmult_integral in Z0. destruct Z0 as [Z0|Z0].
    + rewrite Forall_forall in F. specialize (F d Hd). destruct d; [congruence|]. assert (0 < INR (length (z :: d))) by (apply INR_pos; simpl; lia). lra.
    + apply (proj2 (PN d Hd)). exact Z0.
  - intros E. rewrite (sumf_ext _ (fun _ => 0)); [apply sumf_zero|]. intros d Hd. rewrite (proj2 (proj2 (PN d Hd))); [ring|]. intros x. apply E. exact Hd.
Qed.
Print Assumptions C123_pool_convex.

(** of all references that know every symbol, the pool is the one nearest to the parts *)
Theorem C123_pool_is_centroid : forall b ds qs k kp, big_base b -> incl (concat ds) qs -> ds <> [] -> Forall (fun d => d <> []) ds ->
  (forall d, In d ds -> kld_disc b (A1 d) (A1 qs) = Ok (k d)) ->
  (forall d, In d ds -> kld_disc b (A1 d) (A1 (concat ds)) = Ok (kp d)) ->
  weighted kp ds <= weighted k ds /\ (weighted k ds = weighted kp ds <-> forall x, prob qs x = prob (concat ds) x).
Proof.
  intros b ds qs k kp B I0 NE F Hk Hp. pose proof (big_valid b B) as V. pose proof (pool_ne ds NE F) as NC.
  assert (NQ : qs <> []) by (intros ->; destruct (concat ds) as [|x l]; [congruence|exact (I0 x (or_introl eq_refl))]).
  destruct (C123_compensation b ds qs k kp V NQ NE F Hk Hp) as (v & Ev & C).
  destruct (C27_kld_discrete b (concat ds) qs V NC I0) as (E & P & Z0). rewrite Ev in E. injection E as E. specialize (P B).
  rewrite <- E in P, Z0. split; [lra|]. split.
  - intros Q x. symmetry. apply (proj1 Z0). lra.
  - intros Q. rewrite C, (proj2 Z0); [ring|]. intros x. symmetry. apply Q.
Qed.
Print Assumptions C123_pool_is_centroid.

(** the Jensen-Shannon divergence of equally long samples is their mean divergence from the pool, hence at most their mean
    divergence from any reference *)
Theorem C123_jsd_is_mean_kld : forall b n ds kp, big_base b -> ds <> [] -> (0 < n)%nat -> Forall (fun d => length d = n) ds ->
  (forall d, In d ds -> kld_disc b (A1 d) (A1 (concat ds)) = Ok (kp d)) ->
  jsd_discrete b (map A1 ds) = Ok (weighted kp ds).
Proof.
  intros b n ds kp B NE Hn FL Hp. pose proof (big_valid b B) as V.
  assert (F : Forall (fun d : list Z => d <> []) ds).
  { eapply Forall_impl; [|exact FL]. cbn beta. intros d L E. rewrite E in L. simpl in L. lia. }
  rewrite (weighted_kld b ds (concat ds) kp V (pool_ne ds NE F) NE F Hp).
  assert (E0 : CrossEnt (concat ds) (concat ds) = Ent (concat ds)) by (rewrite cross_incl by (intros x Hx; exact Hx); reflexivity).
  rewrite E0. rewrite (proj1 (C28_jsd_discrete b ds V NE F)). f_equal.
  assert (NK : 0 < INR (length ds)) by (apply INR_pos; destruct ds; [congruence|simpl; lia]).
  assert (Nn : 0 < INR n) by (apply INR_pos; exact Hn).
  assert (LC : INR (length (concat ds)) = INR n * INR (length ds)).
  { rewrite length_concat_sum. rewrite (sumf_ext _ (fun _ => INR n)); [rewrite sumf_const; ring|]. intros d Hd. rewrite Forall_forall in FL. rewrite (FL d Hd). reflexivity. }
  assert (M : forall v, mixprob ds v = prob (concat ds) v).
  { intros v. unfold mixprob, prob at 2. rewrite LC.
    assert (C : INR (count (concat ds) v) = sumf (fun d => INR (count d v)) ds).
    { clear. induction ds as [|d r IH]; [reflexivity|]. cbn [concat sumf]. rewrite count_app, plus_INR, IH. reflexivity. }
    rewrite C. rewrite (sumf_ext _ (fun d => INR (count d v) / INR n)).
    - rewrite sumf_div. field. split; lra.
    - intros d Hd. rewrite Forall_forall in FL. unfold prob. rewrite (FL d Hd). reflexivity. }
  unfold JSD. rewrite (sumf_ext _ (fun v => prob (concat ds) v * ln (prob (concat ds) v))) by (intros v _; rewrite M; reflexivity).
  fold (Ent (concat ds)). rewrite LC.
  rewrite (sumf_ext (fun d => INR (length d) * Ent d) (fun d => INR n * Ent d)).
  - rewrite sumf_scal. pose proof (unit_neq0 b V). field. repeat split; lra || assumption.
  - intros d Hd. rewrite Forall_forall in FL. rewrite (FL d Hd). ring.
Qed.
Print Assumptions C123_jsd_is_mean_kld.

Example C123_example : let ds := [[1; 2; 2]; [2; 3; 3]]%Z in let qs := [1; 1; 2; 3; 4]%Z in
  big_base (BNum 2) /\ ds <> [] /\ Forall (fun d => length d = 3%nat) ds /\ incl (concat ds) qs /\ small2 (length (concat ds)) /\
  prob [1; 2; 2]%Z 3%Z <> prob [2; 3; 3]%Z 3%Z /\ prob qs 4%Z <> prob (concat ds) 4%Z.
Proof.
  cbv zeta. split; [simpl; lra|]. split; [discriminate|]. split; [repeat constructor|]. split; [intros x Hx; simpl in *; tauto|].
  split; [unfold small2; simpl; lia|]. split; unfold prob; simpl; lra.
Qed.
