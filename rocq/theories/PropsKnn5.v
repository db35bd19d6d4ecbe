(** C77: cross-entropy and Kullback-Leibler divergence by nearest neighbours. *)
From Coq Require Import Reals Lra Lia List ZArith Arith Bool Permutation Sorted.
From Verif Require Import Res RSum Spec SpecBase SpecGamma MBase PBase MTE MPct MNorm PropsPct MEst PEst PEst2 MCont SpecKern PKern PKern3 MKnn SpecKnn SpecKnn2 PKnn PKnn2 PropsKnn PKnn3 PropsKnn4.
Import ListNotations.
Local Open Scope R_scope.

(** ** the query of the code finds the k-th nearest reference point *)
Lemma query_point m ref k x : (1 <= k <= length ref)%nat -> exists e, query m ref k x = Some e /\ kth_point (np_of m) ref k x e.
Proof.
  intros Hk. unfold query. set (ds := map (dist m x) ref). pose proof (sortR_perm ds) as P. pose proof (sortR_sorted ds) as SS.
  assert (L : length (sortR ds) = length ref) by (rewrite (Permutation_length P); apply map_length).
  destruct (nth_error (sortR ds) (k - 1)) as [e|] eqn:N.
  2:{ apply nth_error_None in N. lia. }
  exists e. split; [reflexivity|]. pose proof (nth_error_nth _ _ 0 N) as NE.
  destruct (sorted_counts (sortR ds) (k - 1) SS ltac:(lia)) as [C1 C2]. rewrite NE in C1, C2.
  unfold lt_count, le_count in C1, C2. rewrite (filter_len_perm _ _ _ P) in C1. rewrite (filter_len_perm _ _ _ P) in C2. unfold ds in C1, C2. rewrite filter_map_length in C1. rewrite filter_map_length in C2.
  split; [|split].
  - apply nth_error_In in N. apply (Permutation_in _ P) in N. apply in_map_iff in N as (y & <- & Hy). exists y. split; [exact Hy|apply dist_dst].
  - rewrite (filter_ext _ (fun y => if Rlt_dec (dst (np_of m) x y) e then true else false)) in C1 by (intros; rewrite dist_dst; reflexivity). lia.
  - rewrite (filter_ext _ (fun y => if Rle_dec (dst (np_of m) x y) e then true else false)) in C2 by (intros; rewrite dist_dst; reflexivity). lia.
Qed.
Lemma kth_point_unique p ref k x e e' : kth_point p ref k x e -> kth_point p ref k x e' -> e = e'.
Proof.
  assert (G : forall e e', kth_point p ref k x e -> kth_point p ref k x e' -> ~ e < e').
  { intros u v (_ & _ & X) (_ & Y & _) L.
    assert ((length (filter (fun y => if Rle_dec (dst p x y) u then true else false) ref)
      <= length (filter (fun y => if Rlt_dec (dst p x y) v then true else false) ref))%nat); [|lia].
    apply filter_mono_len. intros y _. destruct (Rle_dec _ u); [|discriminate]. intros _. destruct (Rlt_dec _ v); [reflexivity|lra]. }
  intros A B. destruct (Rtotal_order e e') as [L|[Q|L]]; [destruct (G e e' A B L)|exact Q|destruct (G e' e B A L)].
Qed.
Lemma query_is_point m ref k x e : (1 <= k <= length ref)%nat -> kth_point (np_of m) ref k x e -> query m ref k x = Some e.
Proof. intros Hk H. destruct (query_point m ref k x Hk) as (e' & -> & H'). f_equal. eapply kth_point_unique; eauto. Qed.

(** the distances of all samples to the reference *)
Definition ref_radii p (ps ref : list pt) k (es : nat -> R) : Prop := forall t, (t < length ps)%nat -> kth_point p ref k (nth t ps []) (es t).
Lemma ref_radii_exist p ps ref k : (1 <= k <= length ref)%nat -> exists es, ref_radii p ps ref k es.
Proof.
  intros Hk. destruct (norm_mink p) as (m & <-).
  exists (fun t => match query m ref k (nth t ps []) with Some e => e | None => 0 end).
  intros t _. destruct (query_point m ref k (nth t ps []) Hk) as (e & -> & H). exact H.
Qed.
Lemma map_query m ps ref k es : (1 <= k <= length ref)%nat -> ref_radii (np_of m) ps ref k es ->
  map (query m ref k) ps = map (fun t => Some (es t)) (seq 0 (length ps)).
Proof.
  intros Hk He. apply nth_ext with None None; [rewrite !map_length, seq_length; reflexivity|]. intros t Ht. rewrite map_length in Ht.
  rewrite (nth_indep (map (query m ref k) ps) None (query m ref k [])) by (rewrite map_length; exact Ht). rewrite map_nth.
  rewrite (nth_indep _ None ((fun t => Some (es t)) 0%nat)) by (rewrite map_length, seq_length; exact Ht).
  rewrite (map_nth (fun t => Some (es t))), seq_nth by exact Ht. apply query_is_point; [exact Hk|apply He; exact Ht].
Qed.
Lemma unit_ne b : valid_base b -> unit_of b <> 0.
Proof. intros V. destruct b as [|r]; cbn in *; [lra|]. intros C. destruct V as [V1 V2]. apply V2. apply ln_inv; [exact V1|lra|rewrite ln_1; exact C]. Qed.
Lemma table_width n d v : (1 <= n)%nat -> table n d v -> width v = d.
Proof. intros Hn [L F]. unfold width. destruct v as [|r rs]; cbn in *; [lia|]. inversion F; assumption. Qed.
Lemma filter_all {A} (f : A -> bool) l : (forall x, In x l -> f x = true) -> filter f l = l.
Proof. induction l as [|x l IH]; intros H; cbn; [reflexivity|]. rewrite (H x) by (left; reflexivity). f_equal. apply IH. intros; apply H; right; assumption. Qed.

Section C77.
  Context (E : nenv) (w : variant) (m : mink) (b : base).
  Context (Hp : norm_ok (np_of m)) (V : valid_base b) (HG : is_gamma (gam E)).
  Notation p := (np_of m).
  Notation G := (gam E).

  Lemma kth_query_2 tree k : (2 <= k)%nat -> kth_query m tree (Z.of_nat k) = Ok (query m tree k).
  Proof.
    intros Hk. unfold kth_query. rewrite (proj2 (mink_ok_norm m) Hp). cbn [negb].
    destruct (Z.ltb_spec (Z.of_nat k) 1); [lia|]. destruct (Z.eqb_spec (Z.of_nat k) 1); [lia|]. rewrite Nat2Z.id. reflexivity.
  Qed.

  Lemma cross_sum N M d ps q k es : (1 <= d)%nat -> (1 <= N)%nat -> table N d (rows2d ps) -> table M d (rows2d q) -> (2 <= k <= M)%nat ->
    ref_radii p (rows2d ps) (rows2d q) k es -> (forall t, (t < N)%nat -> 0 < es t) ->
    kl_cross_entropy E (ksg_args w m b k) ps q
      = Ok ((psi M - psi k + corr w k + ln (lp_ball G p d (1 / 2)) + INR d * sumf (fun t => ln (2 * es t)) (seq 0 N) / INR M) / unit_of b).
  Proof.
    intros Hd HN Tp Tq Hk He Hpos. unfold kl_cross_entropy. rewrite (kl_check_ok w m b Hp) by lia. cbn [bind ksg_args n_noise].
    rewrite no_noise. cbn [bind nth ksg_args n_p n_id n_base]. rewrite (table_width N d) by assumption. rewrite (table_width M d) by (try assumption; lia).
    rewrite Nat.eqb_refl. cbn [negb]. rewrite kth_query_2 by lia. cbn [bind].
    rewrite (unit_ball_ok G HG) by assumption. cbn [bind]. rewrite psi_k_ok by lia. cbn [bind]. rewrite (proj1 Tq), digamma_ok by lia. cbn [bind].
    rewrite np_log_ok by (apply lp_ball_pos; try assumption; lra). cbn [bind].
    rewrite (map_query m _ _ k es) by (try assumption; rewrite (proj1 Tq); lia). rewrite (proj1 Tp).
    rewrite filter_all.
    2:{ intros x Hx. apply in_map_iff in Hx as (t & <- & Ht). apply in_seq in Ht. cbn. specialize (Hpos t ltac:(lia)). destruct (Rlt_dec 0 (es t)); [reflexivity|contradiction]. }
    rewrite (mapM_map_ok (fun t => Some (es t)) _ (fun t => ln (2 * es t))).
    2:{ intros t Ht. apply in_seq in Ht. apply np_log_ok. specialize (Hpos t ltac:(lia)). lra. }
    cbn [bind]. rewrite np_div_ok by (apply not_0_INR; lia). cbn [bind]. rewrite to_base_ok by exact V. do 2 f_equal.
    unfold sumR. rewrite sumf_map. ring.
  Qed.

  (** as many samples as reference points: the mean of psi(M) - psi(k) [+ 1/k] + ln (ball volume) over the samples *)
  Theorem C77_cross_entropy : forall N d ps q k es, (1 <= d)%nat -> table N d (rows2d ps) -> table N d (rows2d q) -> (2 <= k <= N)%nat ->
    ref_radii p (rows2d ps) (rows2d q) k es -> (forall t, (t < N)%nat -> 0 < es t) ->
    kl_cross_entropy E (ksg_args w m b k) ps q = Ok (mean (map (fun t => kl_value G w p N d k (es t)) (seq 0 N)) / unit_of b).
  Proof.
    intros N d ps q k es Hd Tp Tq Hk He Hpos. rewrite (cross_sum N N d ps q k es) by (try assumption; lia). f_equal. f_equal.
    rewrite mean_map, seq_length.
    rewrite (sumf_ext (fun t => kl_value G w p N d k (es t)) (fun t => (psi N - psi k + corr w k + ln (lp_ball G p d (1 / 2))) + INR d * ln (2 * es t))).
    - rewrite sumf_plus, sumf_const, sumf_scal, seq_length. field. apply not_0_INR. lia.
    - intros t Ht. apply in_seq in Ht. specialize (Hpos t ltac:(lia)). unfold kl_value.
      replace (es t) with (2 * es t * (1 / 2)) at 1 by field. rewrite lp_ball_scale.
      rewrite (ln_mult ((2 * es t) ^ d)) by (first [apply pow_lt; lra|apply lp_ball_pos; try assumption; lra]). rewrite ln_pow by lra. ring.
  Qed.
  (** the distances exist *)
  Theorem C77_reference_distance : forall ps q k, (1 <= k <= length (rows2d q))%nat -> exists es, ref_radii p (rows2d ps) (rows2d q) k es.
  Proof. intros ps q k Hk. apply ref_radii_exist. exact Hk. Qed.

  (** otherwise the sum over the N samples is divided by the number M of reference points *)
  Theorem C77_unequal_sizes_refuted : forall N M d ps q k es, (1 <= d)%nat -> (1 <= N)%nat -> table N d (rows2d ps) -> table M d (rows2d q) -> (2 <= k <= M)%nat ->
    ref_radii p (rows2d ps) (rows2d q) k es -> (forall t, (t < N)%nat -> 0 < es t) ->
    exists v, kl_cross_entropy E (ksg_args w m b k) ps q = Ok v /\
      v - mean (map (fun t => kl_value G w p M d k (es t)) (seq 0 N)) / unit_of b
        = (INR N / INR M - 1) * INR d * mean (map (fun t => ln (2 * es t)) (seq 0 N)) / unit_of b.
  Proof.
    intros N M d ps q k es Hd HN Tp Tq Hk He Hpos. eexists. split; [apply (cross_sum N M d ps q k es); assumption|].
    rewrite !mean_map, !seq_length.
    rewrite (sumf_ext (fun t => kl_value G w p M d k (es t)) (fun t => (psi M - psi k + corr w k + ln (lp_ball G p d (1 / 2))) + INR d * ln (2 * es t))).
    - rewrite sumf_plus, sumf_const, sumf_scal, seq_length. field. repeat split; try (apply not_0_INR; lia). apply unit_ne. exact V.
    - intros t Ht. apply in_seq in Ht. specialize (Hpos t ltac:(lia)). unfold kl_value.
      replace (es t) with (2 * es t * (1 / 2)) at 1 by field. rewrite lp_ball_scale.
      rewrite (ln_mult ((2 * es t) ^ d)) by (first [apply pow_lt; lra|apply lp_ball_pos; try assumption; lra]). rewrite ln_pow by lra. ring.
  Qed.
  (** k = 1, allowed by the documentation, is an IndexError *)
  Theorem C77_one_neighbour_refuted : forall N M d ps q, (1 <= N)%nat -> (1 <= M)%nat -> table N d (rows2d ps) -> table M d (rows2d q) ->
    kl_cross_entropy E (ksg_args w m b 1) ps q = Raise IndexError.
  Proof.
    intros N M d ps q HN HM Tp Tq. unfold kl_cross_entropy. rewrite (kl_check_ok w m b Hp) by lia. cbn [bind ksg_args n_noise].
    rewrite no_noise. cbn [bind nth ksg_args n_p n_id n_base]. rewrite (table_width N d), (table_width M d) by assumption.
    rewrite Nat.eqb_refl. cbn [negb]. unfold kth_query. rewrite (proj2 (mink_ok_norm m) Hp). reflexivity.
  Qed.
  (** different numbers of coordinates are rejected *)
  Theorem C77_dimension_mismatch : forall N M d d' ps q k, (1 <= k)%nat -> (1 <= N)%nat -> (1 <= M)%nat -> table N d (rows2d ps) -> table M d' (rows2d q) -> d <> d' ->
    kl_cross_entropy E (ksg_args w m b k) ps q = Raise ValueError.
  Proof.
    intros N M d d' ps q k Hk HN HM Tp Tq ND. unfold kl_cross_entropy. rewrite (kl_check_ok w m b Hp) by lia. cbn [bind ksg_args n_noise].
    rewrite no_noise. cbn [bind nth]. rewrite (table_width N d), (table_width M d') by assumption.
    destruct (Nat.eqb_spec d d'); [contradiction|]. reflexivity.
  Qed.

  (** the divergence of a sample from itself is not 0: it compares the distances of the (k-1)-th and the k-th neighbour,
      and is therefore at most 0 *)
  Theorem C77_self_divergence_refuted : forall n d a k es es', (1 <= d)%nat -> table n d (rows2d a) -> (2 <= k < n)%nat ->
    radii p n [rows2d a] k es -> radii p n [rows2d a] (k - 1) es' -> (forall t, (t < n)%nat -> 0 < es' t) ->
    exists v, kl_kld E (ksg_args w m b k) a a = Ok v /\
      v = INR d * mean (map (fun t => ln (es' t / es t)) (seq 0 n)) / unit_of b /\
      (big_base b -> v <= 0 /\ ((exists t, (t < n)%nat /\ es' t < es t) -> v < 0)).
  Proof.
    intros n d a k es es' Hd T Hk He He' Hpos'.
    assert (MO : forall t, (t < n)%nat -> es' t <= es t).
    { intros t Ht. destruct (Rle_lt_dec (es' t) (es t)) as [|L]; [assumption|exfalso].
      destruct (He t Ht) as (_ & _ & W). destruct (He' t Ht) as (_ & C & _).
      assert ((within p n [rows2d a] t (es t) <= closer p n [rows2d a] t (es' t))%nat); [|lia].
      unfold within, closer. apply filter_mono_len. intros u _. destruct (Rle_dec _ (es t)); [|discriminate]. intros _. destruct (Rlt_dec _ (es' t)); [reflexivity|lra]. }
    assert (Hpos : forall t, (t < n)%nat -> 0 < es t) by (intros t Ht; specialize (Hpos' t Ht); specialize (MO t Ht); lra).
    assert (RR : ref_radii p (rows2d a) (rows2d a) k es').
    { intros t Ht. rewrite (proj1 T) in Ht.
      destruct (query_point m (rows2d a) k (nth t (rows2d a) []) ltac:(rewrite (proj1 T); lia)) as (e & Q & KP).
      pose proof (query_is_kth m n [rows2d a] (k - 1) t (es' t) Ht ltac:(lia) (He' t Ht)) as Q'.
      rewrite single_jrows, single_jrow in Q' by apply T. replace (S (k - 1)) with k in Q' by lia. rewrite Q in Q'. injection Q' as ->. exact KP. }
    eexists. split; [|split; [reflexivity|]].
    - unfold kl_kld. rewrite (C77_cross_entropy n d a a k es') by (try assumption; lia). cbn [bind].
      rewrite (C75_value E w m b Hp V HG n d a k es) by (try assumption; lia). cbn [bind]. f_equal.
      rewrite !mean_map, !seq_length.
      rewrite (sumf_ext (fun t => kl_value G w p n d k (es' t)) (fun t => kl_value G w p n d k (es t) + INR d * ln (es' t / es t))).
      + rewrite sumf_plus, sumf_scal. field. split; [apply not_0_INR; lia|apply unit_ne; exact V].
      + intros t Ht. apply in_seq in Ht. specialize (Hpos t ltac:(lia)). specialize (Hpos' t ltac:(lia)). unfold kl_value.
        replace (es' t) with ((es' t / es t) * es t) at 1 by (field; lra). rewrite lp_ball_scale.
        assert (PQ : 0 < es' t / es t) by (apply Rdiv_lt_0_compat; assumption).
        rewrite (ln_mult ((es' t / es t) ^ d)) by (first [apply pow_lt; exact PQ|apply lp_ball_pos; assumption]). rewrite ln_pow by exact PQ. ring.
    - intros B. pose proof (upos b V B) as U.
      assert (TL : forall t, In t (seq 0 n) -> ln (es' t / es t) <= 0).
      { intros t Ht. apply in_seq in Ht. specialize (Hpos t ltac:(lia)). specialize (Hpos' t ltac:(lia)). specialize (MO t ltac:(lia)).
        rewrite ln_div by assumption. destruct MO as [L| ->]; [pose proof (ln_increasing _ _ Hpos' L); lra|lra]. }
      assert (Pd : 0 < INR d) by (apply lt_0_INR; lia).
      assert (Pn : 0 < INR n) by (apply lt_0_INR; lia).
      rewrite mean_map, seq_length.
      assert (SL : sumf (fun t => ln (es' t / es t)) (seq 0 n) <= 0).
      { replace 0 with (INR (length (seq 0 n)) * 0) by ring. rewrite <- sumf_const. apply sumf_le. exact TL. }
      set (S := sumf (fun t => ln (es' t / es t)) (seq 0 n)) in *.
      replace (INR d * (S / INR n) / unit_of b) with (S * (INR d / (INR n * unit_of b))) by (field; split; lra).
      assert (PC : 0 < INR d / (INR n * unit_of b)) by (apply Rdiv_lt_0_compat; [exact Pd|apply Rmult_lt_0_compat; assumption]).
      split; [nra|]. intros (t & Ht & L).
      assert (S < 0); [|nra]. unfold S.
      assert (IT : In t (seq 0 n)) by (apply in_seq; lia). apply in_split in IT as (l1 & l2 & SP). rewrite SP in *. rewrite sumf_app. cbn [sumf].
      assert (A1 : sumf (fun t => ln (es' t / es t)) l1 <= 0).
      { replace 0 with (INR (length l1) * 0) by ring. rewrite <- sumf_const. apply sumf_le. intros x Hx. apply TL, in_or_app. left. exact Hx. }
      assert (A2 : sumf (fun t => ln (es' t / es t)) l2 <= 0).
      { replace 0 with (INR (length l2) * 0) by ring. rewrite <- sumf_const. apply sumf_le. intros x Hx. apply TL, in_or_app. right. right. exact Hx. }
      assert (ln (es' t / es t) < 0); [|lra]. rewrite ln_div by auto. pose proof (ln_increasing _ _ (Hpos' t Ht) L). lra.
  Qed.
End C77.

(** k larger than the reference: not a finite number *)
Theorem C76_cross_too_many_refuted : forall E w m b N M d ps q k, norm_ok (np_of m) -> is_gamma (gam E) -> (1 <= d)%nat -> (1 <= N)%nat ->
  table N d (rows2d ps) -> table M d (rows2d q) -> (1 <= M < k)%nat -> kl_cross_entropy E (ksg_args w m b k) ps q = NonFinite.
Proof.
  intros E w m b N M d ps q k Hp HG Hd HN Tp Tq Hk. unfold kl_cross_entropy. rewrite (kl_check_ok w m b Hp) by lia. cbn [bind ksg_args n_noise].
  rewrite no_noise. cbn [bind nth ksg_args n_p n_id n_base]. rewrite (table_width N d) by assumption. rewrite (table_width M d) by (try assumption; lia).
  rewrite Nat.eqb_refl. cbn [negb]. rewrite (kth_query_2 m Hp) by lia. cbn [bind].
  rewrite (unit_ball_ok (gam E) HG) by assumption. cbn [bind]. rewrite psi_k_ok by lia. cbn [bind]. rewrite (proj1 Tq), digamma_ok by lia. cbn [bind].
  rewrite np_log_ok by (apply lp_ball_pos; try assumption; lra). cbn [bind].
  destruct (rows2d ps) as [|r rs] eqn:R; [destruct Tp as [L _]; cbn in L; lia|].
  assert (Q : query m (rows2d q) k r = None).
  { unfold query. apply nth_error_None. rewrite (Permutation_length (sortR_perm _)), map_length, (proj1 Tq). lia. }
  cbn [map filter]. rewrite Q. reflexivity.
Qed.
(** concrete instance: four distinct values, k = 2; the distances to the first and second neighbour differ *)
Example C77_example : table 4 1 (rows2d (F1 [0; 1; 3; 7])) /\ (2 <= 2 < 4)%nat.
Proof. split; [cbn; repeat constructor|lia]. Qed.
