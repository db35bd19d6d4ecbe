(** C78: Renyi and Tsallis entropy by nearest neighbours; C79: their parameters and cross-entropies. *)
From Coq Require Import Reals Lra Lia List ZArith Arith Bool Permutation.
From Verif Require Import Res RSum Spec SpecBase SpecGamma MBase PBase MTE MPct MNorm PropsPct MEst PEst PEst2 MCont SpecKern PKern PKern3 MKnn SpecKnn SpecKnn2 PKnn PKnn2 PropsKnn PKnn3 PropsKnn4 PropsKnn5 PKnn4.
Import ListNotations.
Local Open Scope R_scope.

Lemma tabs1 n d a : table n d (rows2d a) -> tabs n [d] [rows2d a].
Proof. intros T. apply Forall2_cons; [exact T|apply Forall2_nil]. Qed.
Lemma td1 d : total_dim [d] = d. Proof. cbn. lia. Qed.
Lemma rows1 n d a : table n d (rows2d a) -> make_rows (FArr a) = Ok (jrows n [rows2d a]).
Proof. intros T. cbn [make_rows]. rewrite single_jrows by apply T. reflexivity. Qed.

(** scaling distances: the neighbour distances of the image *)
Lemma radii_transport p n a a' k (sg : nat -> nat) c es es' :
  (1 <= k < n)%nat -> 0 < c -> Permutation (map sg (seq 0 n)) (seq 0 n) ->
  (forall t u, (t < n)%nat -> (u < n)%nat ->
     dst p (nth (sg t) (rows2d a') []) (nth (sg u) (rows2d a') []) = c * dst p (nth t (rows2d a) []) (nth u (rows2d a) [])) ->
  radii p n [rows2d a] k es -> radii p n [rows2d a'] k es' ->
  forall t, (t < n)%nat -> es' (sg t) = c * es t.
Proof.
  intros Hk Hc P D He He'.
  assert (SB : forall t, (t < n)%nat -> (sg t < n)%nat).
  { intros t Ht. assert (X : In (sg t) (seq 0 n)) by (apply (Permutation_in _ P), in_map, in_seq; lia). apply in_seq in X. lia. }
  assert (PO : forall t, (t < n)%nat -> Permutation (map sg (others n t)) (others n (sg t))).
  { intros t Ht.
    assert (Q : Permutation (map sg (t :: others n t)) (sg t :: others n (sg t))).
    { apply Permutation_trans with (map sg (seq 0 n)).
      - apply Permutation_map. apply NoDup_Permutation.
        + constructor; [rewrite others_in; tauto|unfold others; apply NoDup_filter, seq_NoDup].
        + apply seq_NoDup.
        + intros u. cbn [In]. rewrite others_in, in_seq. destruct (Nat.eq_dec u t); intuition lia.
      - apply Permutation_trans with (1 := P). apply NoDup_Permutation.
        + apply seq_NoDup.
        + constructor; [rewrite others_in; tauto|unfold others; apply NoDup_filter, seq_NoDup].
        + intros u. cbn [In]. rewrite others_in, in_seq. pose proof (SB t Ht). destruct (Nat.eq_dec u (sg t)); intuition lia. }
    cbn [map] in Q. apply Permutation_cons_inv in Q. exact Q. }
  intros t Ht. eapply kth_unique; [apply He', SB; exact Ht|]. apply (kth_ext p p n [rows2d a] [rows2d a'] k t (sg t) sg c); [exact Hc|apply PO; exact Ht| |apply He; exact Ht].
  intros u Hu. apply others_in in Hu as [Hu _]. rewrite !jdist_1. apply D; assumption.
Qed.
(** pairwise different samples have positive neighbour distances *)
Lemma radii_pos p n a k es : (forall t u, (t < n)%nat -> (u < n)%nat -> t <> u -> 0 < dst p (nth t (rows2d a) []) (nth u (rows2d a) [])) ->
  radii p n [rows2d a] k es -> forall t, (t < n)%nat -> 0 < es t.
Proof. intros D He t Ht. destruct (He t Ht) as ((u & Hu & Nu & ->) & _). rewrite jdist_1. apply D; auto. Qed.

Lemma mean_scal {A} (f : A -> R) c l : mean (map (fun t => c * f t) l) = c * mean (map f l).
Proof. rewrite !mean_map, sumf_scal. unfold Rdiv. ring. Qed.
Lemma mean_add {A} (f : A -> R) c l : l <> [] -> mean (map (fun t => f t + c) l) = mean (map f l) + c.
Proof.
  intros H. rewrite !mean_map, sumf_plus, sumf_const. field. apply not_0_INR. destruct l; [congruence|discriminate].
Qed.
Lemma mean_ext {A} (f g : A -> R) l : (forall t, In t l -> f t = g t) -> mean (map f l) = mean (map g l).
Proof. intros H. rewrite !mean_map. f_equal. apply sumf_ext. exact H. Qed.

Section C78.
  Context (E : nenv) (b : base) (V : valid_base b) (HG : is_gamma (gam E)).
  Notation G := (gam E).

  (** order q <> 1: R_q = ln I_q / (1 - q) in the chosen base, T_q = (1 - I_q) / (q - 1) *)
  Theorem C78_value : forall n d a k q es, table n d (rows2d a) -> (1 <= k < n)%nat -> 0 < q < INR k + 1 -> q <> 1 ->
    radii (Some 2) n [rows2d a] k es -> (forall t, (t < n)%nat -> 0 < es t) ->
    let iq := lps_integral G (n - 1) d k q (map es (seq 0 n)) in
    0 < iq /\
    renyi_entropy E (ex_args k q b) (FArr a) = Ok (ln iq / (1 - q) / unit_of b) /\
    tsallis_entropy E (ex_args k q b) (FArr a) = Ok ((1 - iq) / (q - 1)).
  Proof.
    intros n d a k q es T Hk Hq N1 He Hpos iq. split.
    { apply lps_pos; try assumption; try lia; try lra. apply map_ne, seq_ne. lia. }
    split.
    - unfold renyi_entropy. rewrite (expfam_rows renyi_of renyi_value E b n [d] [rows2d a] (FArr a) k q es renyi_of_ok) by (try assumption; try (apply tabs1; exact T); apply (rows1 n d a T)).
      rewrite td1. unfold renyi_value. destruct (Req_EM_T q 1); [contradiction|reflexivity].
    - unfold tsallis_entropy. rewrite (expfam_rows tsallis_of tsallis_value E b n [d] [rows2d a] (FArr a) k q es tsallis_of_ok) by (try assumption; try (apply tabs1; exact T); apply (rows1 n d a T)).
      rewrite td1. unfold tsallis_value. destruct (Req_EM_T q 1); [contradiction|reflexivity].
  Qed.
  Theorem C78_joint_value : forall n ds cols k q es, cols <> [] -> tabs n ds (map rows2d cols) -> (1 <= k < n)%nat -> 0 < q < INR k + 1 -> q <> 1 ->
    radii (Some 2) n (map rows2d cols) k es -> (forall t, (t < n)%nat -> 0 < es t) ->
    let iq := lps_integral G (n - 1) (fold_right Nat.add 0%nat ds) k q (map es (seq 0 n)) in
    renyi_entropy E (ex_args k q b) (FTuple cols) = Ok (ln iq / (1 - q) / unit_of b) /\
    tsallis_entropy E (ex_args k q b) (FTuple cols) = Ok ((1 - iq) / (q - 1)).
  Proof.
    intros n ds cols k q es Hc T Hk Hq N1 He Hpos iq.
    assert (MR : make_rows (FTuple cols) = Ok (jrows n (map rows2d cols))) by (apply make_rows_tuple; [exact Hc|eapply tabs_tables; exact T]).
    split.
    - unfold renyi_entropy. rewrite (expfam_rows renyi_of renyi_value E b n ds (map rows2d cols) (FTuple cols) k q es renyi_of_ok) by assumption.
      unfold renyi_value. destruct (Req_EM_T q 1); [contradiction|reflexivity].
    - unfold tsallis_entropy. rewrite (expfam_rows tsallis_of tsallis_value E b n ds (map rows2d cols) (FTuple cols) k q es tsallis_of_ok) by assumption.
      unfold tsallis_value. destruct (Req_EM_T q 1); [contradiction|reflexivity].
  Qed.
  (** order 1, both: the Shannon entropy estimate, which differs from the Kozachenko-Leonenko one (Euclidean, variant 1,
      same data and k) by the constant ln (N-1) - psi(N) *)
  Theorem C78_order_one : forall n d a k es, (1 <= d)%nat -> table n d (rows2d a) -> (1 <= k < n)%nat ->
    radii (Some 2) n [rows2d a] k es -> (forall t, (t < n)%nat -> 0 < es t) ->
    exists H, kl_entropy E (ksg_args Strict (MP 2) b k) (FArr a) = Ok H /\
      renyi_entropy E (ex_args k 1 b) (FArr a) = Ok (lps_shannon (n - 1) d k (map es (seq 0 n)) / unit_of b) /\
      renyi_entropy E (ex_args k 1 b) (FArr a) = Ok (H + (ln (INR (n - 1)) - psi n) / unit_of b) /\
      tsallis_entropy E (ex_args k 1 b) (FArr a) = renyi_entropy E (ex_args k 1 b) (FArr a).
  Proof.
    intros n d a k es Hd T Hk He Hpos.
    assert (Q : 0 < 1 < INR k + 1) by (pose proof (lt_0_INR k ltac:(lia)); lra).
    assert (N2 : norm_ok (np_of (MP 2))) by (cbn; lra).
    assert (R1 : renyi_entropy E (ex_args k 1 b) (FArr a) = Ok (lps_shannon (n - 1) d k (map es (seq 0 n)) / unit_of b)).
    { unfold renyi_entropy. rewrite (expfam_rows renyi_of renyi_value E b n [d] [rows2d a] (FArr a) k 1 es renyi_of_ok) by (try assumption; try (apply tabs1; exact T); apply (rows1 n d a T)).
      rewrite td1. unfold renyi_value. destruct (Req_EM_T 1 1); [reflexivity|contradiction]. }
    eexists. split; [apply (C75_value E Strict (MP 2) b N2 V HG n d a k es); assumption|]. split; [exact R1|]. split.
    - rewrite R1. f_equal. unfold lps_shannon. rewrite map_map.
      rewrite (mean_ext _ (fun t => kl_value G Strict (np_of (MP 2)) n d k (es t) + (ln (INR (n - 1)) - psi n))).
      + rewrite mean_add by (apply seq_ne; lia). unfold Rdiv. ring.
      + intros t Ht. apply in_seq in Ht. specialize (Hpos t ltac:(lia)). unfold kl_value, corr. cbn [np_of]. rewrite (lp_ball_2 G HG).
        rewrite (ln_mult (INR (n - 1))); [ring|apply lt_0_INR; lia|apply euclid_pos; exact Hpos].
    - rewrite R1. unfold tsallis_entropy. rewrite (expfam_rows tsallis_of tsallis_value E b n [d] [rows2d a] (FArr a) k 1 es tsallis_of_ok) by (try assumption; try (apply tabs1; exact T); apply (rows1 n d a T)).
      rewrite td1. unfold tsallis_value. destruct (Req_EM_T 1 1); [reflexivity|contradiction].
  Qed.
End C78.

(** the two order-1 results are the same for every input, errors included *)
Theorem C78_order_one_same : forall E a i, e_q a = ONum 1 ->
  renyi_entropy E a i = tsallis_entropy E a i /\ forall p q, renyi_cross_entropy E a p q = tsallis_cross_entropy E a p q.
Proof.
  intros E a i Hq.
  assert (F : forall b G k vm rho n m, renyi_of b 1 G k vm rho n m = tsallis_of b 1 G k vm rho n m).
  { intros. unfold renyi_of, tsallis_of. destruct (Req_EM_T 1 1); [reflexivity|congruence]. }
  assert (C : forall kq, e_check a = Ok kq -> snd kq = 1).
  { intros kq. unfold e_check. rewrite Hq. destruct (Rle_dec 1 0); [discriminate|]. destruct (e_k a) as [z|]; [|discriminate].
    destruct (Z.leb z 0); [discriminate|]. intros [= <-]. reflexivity. }
  split.
  - unfold renyi_entropy, tsallis_entropy, expfam. destruct (make_rows i); cbn [bind]; try reflexivity.
    destruct (e_check a) as [kq| |] eqn:EC; cbn [bind]; try reflexivity. rewrite (C kq eq_refl).
    destruct (components _ _ _ _) as [[[[vm rho] N] m]| |]; cbn [bind]; try reflexivity.
    destruct (finite_dists rho); cbn [bind]; try reflexivity. apply F.
  - intros p q. unfold renyi_cross_entropy, tsallis_cross_entropy, expfam_cross.
    destruct (e_check a) as [kq| |] eqn:EC; cbn [bind]; try reflexivity. rewrite (C kq eq_refl).
    destruct (components _ _ _ _) as [[[[vm rho] N] m]| |]; cbn [bind]; try reflexivity.
    destruct (finite_dists rho); cbn [bind]; try reflexivity. apply F.
Qed.
(** order q <> 1: T_q = (1 - exp ((1-q) R_q)) / (q - 1) with R_q in nats (also for the value 0 that both return for a
    vanishing estimate), for every input on which R_q is a number *)
Lemma renyi_tsallis b q G k vm rho n m r : valid_base b -> q <> 1 -> renyi_of b q G k vm rho n m = Ok r ->
  exists t, tsallis_of b q G k vm rho n m = Ok t /\ t = (1 - exp ((1 - q) * (r * unit_of b))) / (q - 1).
Proof.
  intros V N1. unfold renyi_of, tsallis_of. destruct (Req_EM_T q 1); [contradiction|].
  destruct (exp_iq G k q vm rho n m) as [iq| |]; cbn [bind]; try discriminate.
  destruct (Req_EM_T iq 0) as [Z|Z].
  - intros [= <-]. eexists. split; [reflexivity|]. replace ((1 - q) * (0 * unit_of b)) with 0 by ring. rewrite exp_0. field. lra.
  - destruct (Rlt_dec 0 iq) as [P|NP].
    + rewrite log_base_ok by assumption. cbn [bind]. rewrite np_div_ok by lra. intros [= <-]. rewrite np_div_ok by lra.
      eexists. split; [reflexivity|]. replace ((1 - q) * (ln iq / unit_of b / (1 - q) * unit_of b)) with (ln iq) by (pose proof (unit_ne b V); field; split; lra).
      rewrite exp_ln by exact P. reflexivity.
    + assert (L : log_base b iq = NonFinite).
      { assert (NL : np_log iq = NonFinite) by (unfold np_log; destruct (Rlt_dec 0 iq); [contradiction|reflexivity]).
        destruct b as [|r0]; cbn [log_base]; rewrite ?NL; [reflexivity|]. cbn [rmap bind]. cbn in V.
        destruct (Req_EM_T r0 2); [reflexivity|]. destruct (Req_EM_T r0 10); [reflexivity|]. destruct (Req_EM_T r0 0); [lra|]. destruct (Rlt_dec r0 0); [lra|reflexivity]. }
      rewrite L. discriminate.
Qed.
Theorem C78_tsallis_from_renyi : forall E a i q r, valid_base (e_base a) -> e_q a = ONum q -> q <> 1 -> renyi_entropy E a i = Ok r ->
  tsallis_entropy E a i = Ok ((1 - exp ((1 - q) * (r * unit_of (e_base a)))) / (q - 1)).
Proof.
  intros E a i q r V Hq N1.
  assert (C : forall kq, e_check a = Ok kq -> snd kq = q).
  { intros kq. unfold e_check. rewrite Hq. destruct (Rle_dec q 0); [discriminate|]. destruct (e_k a) as [z|]; [|discriminate].
    destruct (Z.leb z 0); [discriminate|]. intros [= <-]. reflexivity. }
  unfold renyi_entropy, tsallis_entropy, expfam. destruct (make_rows i); cbn [bind]; try discriminate.
  destruct (e_check a) as [kq| |] eqn:EC; cbn [bind]; try discriminate. rewrite (C kq eq_refl).
  destruct (components _ _ _ _) as [[[[vm rho] N] m]| |]; cbn [bind]; try discriminate.
  destruct (finite_dists rho); cbn [bind]; try discriminate. intros H.
  destruct (renyi_tsallis _ _ _ _ _ _ _ _ _ V N1 H) as (t & -> & ->). reflexivity.
Qed.

(** scaling, isometries and the order of the samples: Renyi grows by d ln c *)
Theorem C78_scaling : forall E b n d a a' k q (sg : nat -> nat) c es, valid_base b -> is_gamma (gam E) ->
  table n d (rows2d a) -> table n d (rows2d a') -> (1 <= k < n)%nat -> 0 < q < INR k + 1 -> 0 < c ->
  Permutation (map sg (seq 0 n)) (seq 0 n) ->
  (forall t u, (t < n)%nat -> (u < n)%nat ->
     dst (Some 2) (nth (sg t) (rows2d a') []) (nth (sg u) (rows2d a') []) = c * dst (Some 2) (nth t (rows2d a) []) (nth u (rows2d a) [])) ->
  radii (Some 2) n [rows2d a] k es -> (forall t, (t < n)%nat -> 0 < es t) ->
  exists H, renyi_entropy E (ex_args k q b) (FArr a) = Ok H /\
    renyi_entropy E (ex_args k q b) (FArr a') = Ok (H + INR d * ln c / unit_of b).
Proof.
  intros E b n d a a' k q sg c es V HG T T' Hk Hq Hc P D He Hpos.
  destruct (radii_exist (Some 2) n [rows2d a'] k Hk) as (es' & He').
  pose proof (radii_transport _ _ _ _ _ _ _ _ _ Hk Hc P D He He') as Et.
  assert (Hpos' : forall t, (t < n)%nat -> 0 < es' t).
  { intros t Ht. assert (X : In t (map sg (seq 0 n))) by (apply (Permutation_in _ (Permutation_sym P)), in_seq; lia).
    apply in_map_iff in X as (u & <- & Hu). apply in_seq in Hu. rewrite Et by lia. apply Rmult_lt_0_compat; [exact Hc|apply Hpos; lia]. }
  unfold renyi_entropy.
  rewrite (expfam_rows renyi_of renyi_value E b n [d] [rows2d a] (FArr a) k q es renyi_of_ok) by (try assumption; try (apply tabs1; exact T); apply (rows1 n d a T)).
  rewrite (expfam_rows renyi_of renyi_value E b n [d] [rows2d a'] (FArr a') k q es' renyi_of_ok) by (try assumption; try (apply tabs1; exact T'); apply (rows1 n d a' T')).
  rewrite td1. eexists. split; [reflexivity|]. f_equal.
  assert (PS : Permutation (map es' (seq 0 n)) (map (fun t => c * es t) (seq 0 n))).
  { apply Permutation_trans with (map es' (map sg (seq 0 n))); [apply Permutation_map, Permutation_sym; exact P|].
    rewrite map_map. erewrite map_ext_in; [apply Permutation_refl|]. intros t Ht. apply in_seq in Ht. apply Et. lia. }
  assert (MP' : forall f : R -> R, mean (map f (map es' (seq 0 n))) = mean (map (fun t => f (c * es t)) (seq 0 n))).
  { intros f. rewrite (mean_map f). rewrite (sumf_perm _ _ _ PS), (Permutation_length PS), sumf_map, mean_map, map_length. reflexivity. }
  assert (Pn : 0 < INR (n - 1)) by (apply lt_0_INR; lia).
  unfold renyi_value. destruct (Req_EM_T q 1) as [_|N1].
  - unfold lps_shannon. rewrite MP', map_map.
    rewrite (mean_ext (fun t => ln (INR (n - 1) * euclidean_ball d (c * es t)) - psi k) (fun t => (ln (INR (n - 1) * euclidean_ball d (es t)) - psi k) + INR d * ln c)).
    + rewrite mean_add by (apply seq_ne; lia). unfold Rdiv. ring.
    + intros t Ht. apply in_seq in Ht. specialize (Hpos t ltac:(lia)).
      rewrite euclid_pow, (euclid_pow d (es t)), Rpow_mult_distr.
      replace (INR (n - 1) * (c ^ d * es t ^ d * euclidean_ball d 1)) with (c ^ d * (INR (n - 1) * (es t ^ d * euclidean_ball d 1))) by ring.
      rewrite (ln_mult (c ^ d)); [rewrite ln_pow by exact Hc; ring|apply pow_lt; exact Hc|].
      repeat apply Rmult_lt_0_compat; [exact Pn|apply pow_lt; exact Hpos|apply euclid_pos; lra].
  - assert (IQ : lps_integral (gam E) (n - 1) d k q (map es' (seq 0 n)) = Rpower (c ^ d) (1 - q) * lps_integral (gam E) (n - 1) d k q (map es (seq 0 n))).
    { unfold lps_integral. rewrite MP', map_map.
      rewrite (mean_ext (fun t => Rpower (INR (n - 1) * euclidean_ball d (c * es t)) (1 - q)) (fun t => Rpower (c ^ d) (1 - q) * Rpower (INR (n - 1) * euclidean_ball d (es t)) (1 - q))).
      - rewrite mean_scal. ring.
      - intros t Ht. apply in_seq in Ht. specialize (Hpos t ltac:(lia)).
        rewrite euclid_pow, (euclid_pow d (es t)), Rpow_mult_distr.
        replace (INR (n - 1) * (c ^ d * es t ^ d * euclidean_ball d 1)) with (c ^ d * (INR (n - 1) * (es t ^ d * euclidean_ball d 1))) by ring.
        apply Rpower_mult_distr'; [apply pow_lt; exact Hc|]. repeat apply Rmult_lt_0_compat; [exact Pn|apply pow_lt; exact Hpos|apply euclid_pos; lra]. }
    rewrite IQ. rewrite (ln_mult (Rpower _ _)) by (first [apply exp_pos | apply lps_pos; try assumption; try lia; try lra; apply map_ne, seq_ne; lia]).
    unfold Rpower at 1. rewrite ln_exp, ln_pow by exact Hc. field. split; [apply unit_ne; exact V|lra].
Qed.
