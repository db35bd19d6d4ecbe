(** C74: ball volumes; C75: Kozachenko-Leonenko entropy. *)
From Coq Require Import Reals Lra Lia List ZArith Arith Bool Permutation.
From Verif Require Import Res RSum Spec SpecBase SpecGamma MBase PBase MTE MPct MNorm PropsPct MEst PEst PEst2 MCont SpecKern PKern PKern3 MKnn SpecKnn SpecKnn2 PKnn PKnn2 PropsKnn PKnn3.
Import ListNotations.
Local Open Scope R_scope.

(** ** C74: [unit_ball_volume(d, r, p)] *)
(** p = 2: the Euclidean ball, for the special-cased dimensions and the general formula alike *)
Theorem C74_euclidean : forall G d r, is_gamma G -> (1 <= d)%nat -> unit_ball_volume G d r (MP 2) = Ok (euclidean_ball d r).
Proof. intros G d r HG Hd. rewrite (unit_ball_ok G HG) by (try exact Hd; cbn; lra). f_equal. apply lp_ball_2. exact HG. Qed.
(** p = inf: the cube; p = 1: the cross-polytope (2r)^d / d!; one dimension: the interval of length 2r, for all p *)
Theorem C74_other_norms : forall G d r, is_gamma G -> (1 <= d)%nat ->
  unit_ball_volume G d r MInf = Ok ((2 * r) ^ d) /\
  unit_ball_volume G d r (MP 1) = Ok ((2 * r) ^ d / INR (fact d)) /\
  (forall m, norm_ok (np_of m) -> unit_ball_volume G 1 r m = Ok (2 * r)).
Proof.
  intros G d r HG Hd. split; [reflexivity|]. split.
  - rewrite (unit_ball_ok G HG) by (try exact Hd; cbn; lra). f_equal. apply lp_ball_p1. exact HG.
  - intros m Hm. rewrite (unit_ball_ok G HG) by (try lia; exact Hm). f_equal. apply lp_ball_d1; assumption.
Qed.
(** the general formula, positivity, and V(a r) = a^d V(r) *)
Theorem C74_scaling : forall G d m, is_gamma G -> (1 <= d)%nat -> norm_ok (np_of m) ->
  exists V : R -> R, (forall r, unit_ball_volume G d r m = Ok (V r)) /\ (forall r, V r = lp_ball G (np_of m) d r) /\
    (forall a r, V (a * r) = a ^ d * V r) /\ (forall r, 0 < r -> 0 < V r).
Proof.
  intros G d m HG Hd Hm. exists (lp_ball G (np_of m) d). split; [intros r; apply unit_ball_ok; assumption|]. split; [reflexivity|]. split.
  - intros a r. apply lp_ball_scale.
  - intros r Hr. apply lp_ball_pos; assumption.
Qed.
Example C74_example : is_gamma gamma_like. Proof. exact gamma_like_is_gamma. Qed.

(** ** C75: entropy *)
Section C75.
  Context (E : nenv) (w : variant) (m : mink) (b : base).
  Context (Hp : norm_ok (np_of m)) (V : valid_base b) (HG : is_gamma (gam E)).
  Notation p := (np_of m).
  Notation G := (gam E).

  Lemma kl_check_ok k : (1 <= k)%nat -> kl_check (ksg_args w m b k) = Ok (Z.of_nat k).
  Proof.
    intros Hk. unfold kl_check. cbn [n_k ksg_args n_noise n_p]. destruct (Z.leb_spec (Z.of_nat k) 0); [lia|].
    destruct (Rlt_dec 0 0); [lra|]. rewrite (proj2 (mink_ok_norm m) Hp). fold (ksg_args w m b k). rewrite id_ok_args. reflexivity.
  Qed.
  (** the local value: 0 for samples whose k-th neighbour is at distance 0 *)
  Definition kl_local n d k e : R := if Req_EM_T e 0 then 0 else kl_value G w p n d k e.

  Lemma kl_rows n ds vars i k es : (1 <= total_dim ds)%nat -> tabs n ds vars -> (1 <= k < n)%nat -> make_rows i = Ok (jrows n vars) ->
    radii p n vars k es ->
    kl_entropy_local E (ksg_args w m b k) i = Ok (map (fun t => kl_local n (total_dim ds) k (es t) / unit_of b) (seq 0 n)) /\
    kl_entropy E (ksg_args w m b k) i = Ok (mean (map (fun t => kl_local n (total_dim ds) k (es t)) (seq 0 n)) / unit_of b).
  Proof.
    intros Hd T Hk HR He.
    assert (A : kl_entropy_local E (ksg_args w m b k) i = Ok (map (fun t => kl_local n (total_dim ds) k (es t) / unit_of b) (seq 0 n))).
    { unfold kl_entropy_local. rewrite kl_check_ok by lia. cbn [bind]. rewrite HR. cbn [bind ksg_args n_noise]. rewrite no_noise. cbn [bind hd ksg_args n_p n_id n_base].
      rewrite kth_query_ok by (try assumption; lia). cbn [bind]. rewrite (jrows_width n ds) by (try assumption; lia). rewrite jrows_length.
      rewrite (unit_ball_ok G HG) by assumption. cbn [bind].
      rewrite psi_k_ok by lia. cbn [bind]. rewrite digamma_ok by lia. cbn [bind].
      pose proof (lp_ball_pos G HG p (total_dim ds) (1 / 2) Hp ltac:(lra)) as P.
      rewrite np_log_ok by exact P. cbn [bind]. unfold jrows at 2. apply mapM_map_ok. intros t Ht. apply in_seq in Ht.
      specialize (He t ltac:(lia)). rewrite (query_is_kth m n vars k t (es t)) by (try assumption; lia).
      unfold kl_local. destruct (Req_EM_T (es t) 0) as [Z|NZ]; [apply to_base_ok; exact V|].
      assert (Pe : 0 < es t) by (pose proof (kth_nonneg _ _ _ _ _ _ He); lra).
      rewrite np_log_ok by lra. cbn [bind]. rewrite to_base_ok by exact V. do 2 f_equal.
      unfold kl_value. replace (es t) with (2 * es t * (1 / 2)) at 2 by field. rewrite lp_ball_scale.
      rewrite (ln_mult ((2 * es t) ^ total_dim ds)) by (try exact P; apply pow_lt; lra). rewrite ln_pow by lra. ring. }
    split; [exact A|]. unfold kl_entropy. rewrite A. cbn [bind].
    rewrite mean_ok by (apply map_ne, seq_ne; lia). rewrite mean_map_div. reflexivity.
  Qed.

  (** one variable of any dimension, and a tuple of variables (joint entropy) *)
  Theorem C75_value : forall n d a k es, (1 <= d)%nat -> table n d (rows2d a) -> (1 <= k < n)%nat -> radii p n [rows2d a] k es ->
    (forall t, (t < n)%nat -> 0 < es t) ->
    kl_entropy E (ksg_args w m b k) (FArr a) = Ok (mean (map (fun t => kl_value G w p n d k (es t)) (seq 0 n)) / unit_of b).
  Proof.
    intros n d a k es Hd T Hk He Hpos.
    assert (TT : tabs n [d] [rows2d a]) by (apply Forall2_cons; [exact T|apply Forall2_nil]).
    assert (TD : total_dim [d] = d) by (cbn; lia).
    destruct (kl_rows n [d] [rows2d a] (FArr a) k es) as [_ R]; try assumption; [rewrite TD; exact Hd| |].
    { cbn [make_rows]. rewrite single_jrows by apply T. reflexivity. }
    rewrite R, TD. do 3 f_equal. apply map_ext_in. intros t Ht. apply in_seq in Ht. unfold kl_local.
    specialize (Hpos t ltac:(lia)). destruct (Req_EM_T (es t) 0); [lra|reflexivity].
  Qed.
  Theorem C75_joint_value : forall n ds cols k es, cols <> [] -> (1 <= fold_right Nat.add 0 ds)%nat -> tabs n ds (map rows2d cols) -> (1 <= k < n)%nat ->
    radii p n (map rows2d cols) k es -> (forall t, (t < n)%nat -> 0 < es t) ->
    kl_entropy E (ksg_args w m b k) (FTuple cols)
      = Ok (mean (map (fun t => kl_value G w p n (fold_right Nat.add 0%nat ds) k (es t)) (seq 0 n)) / unit_of b).
  Proof.
    intros n ds cols k es Hc Hd T Hk He Hpos.
    destruct (kl_rows n ds (map rows2d cols) (FTuple cols) k es) as [_ R]; try assumption.
    { apply make_rows_tuple; [exact Hc|eapply tabs_tables; exact T]. }
    rewrite R. do 3 f_equal. apply map_ext_in. intros t Ht. apply in_seq in Ht. unfold kl_local.
    specialize (Hpos t ltac:(lia)). destruct (Req_EM_T (es t) 0); [lra|reflexivity].
  Qed.
  (** samples with k coinciding others: their local value is 0, whatever the parameters *)
  Theorem C75_coinciding_samples : forall n d a k es, (1 <= d)%nat -> table n d (rows2d a) -> (1 <= k < n)%nat -> radii p n [rows2d a] k es ->
    exists ls, kl_entropy_local E (ksg_args w m b k) (FArr a) = Ok ls /\ length ls = n /\
      kl_entropy E (ksg_args w m b k) (FArr a) = Ok (mean ls) /\
      forall t, (t < n)%nat -> nth t ls 0 = if Req_EM_T (es t) 0 then 0 else kl_value G w p n d k (es t) / unit_of b.
  Proof.
    intros n d a k es Hd T Hk He.
    assert (TT : tabs n [d] [rows2d a]) by (apply Forall2_cons; [exact T|apply Forall2_nil]).
    assert (TD : total_dim [d] = d) by (cbn; lia).
    destruct (kl_rows n [d] [rows2d a] (FArr a) k es) as [A R]; try assumption; [rewrite TD; exact Hd| |].
    { cbn [make_rows]. rewrite single_jrows by apply T. reflexivity. }
    rewrite TD in *. eexists. split; [exact A|]. split; [rewrite map_length, seq_length; reflexivity|]. split; [rewrite R, mean_map_div; reflexivity|].
    intros t Ht. rewrite (nth_indep _ 0 ((fun t => kl_local n d k (es t) / unit_of b) 0%nat)) by (rewrite map_length, seq_length; exact Ht).
    rewrite (map_nth (fun t => kl_local n d k (es t) / unit_of b)), seq_nth by exact Ht. cbn [Nat.add]. unfold kl_local.
    destruct (Req_EM_T (es t) 0); [unfold Rdiv; ring|reflexivity].
  Qed.
End C75.

(** scaling all coordinates by [c] adds d ln c; isometries and the order of the samples do not matter *)
Lemma kl_transport E w m b n d a a' k (sg : nat -> nat) c es :
  norm_ok (np_of m) -> valid_base b -> is_gamma (gam E) ->
  (1 <= d)%nat -> table n d (rows2d a) -> table n d (rows2d a') -> (1 <= k < n)%nat -> 0 < c ->
  Permutation (map sg (seq 0 n)) (seq 0 n) ->
  (forall t u, (t < n)%nat -> (u < n)%nat ->
     dst (np_of m) (nth (sg t) (rows2d a') []) (nth (sg u) (rows2d a') []) = c * dst (np_of m) (nth t (rows2d a) []) (nth u (rows2d a) [])) ->
  radii (np_of m) n [rows2d a] k es -> (forall t, (t < n)%nat -> 0 < es t) ->
  exists H, kl_entropy E (ksg_args w m b k) (FArr a) = Ok H /\
    kl_entropy E (ksg_args w m b k) (FArr a') = Ok (H + INR d * ln c / unit_of b).
Proof.
  intros Hp V HG Hd T T' Hk Hc P D He Hpos. set (p := np_of m) in *.
  eexists. split; [apply (C75_value E w m b Hp V HG n d a k es); assumption|].
  destruct (radii_exist p n [rows2d a'] k Hk) as (es' & He').
  assert (SB : forall t, (t < n)%nat -> (sg t < n)%nat).
  { intros t Ht. assert (X : In (sg t) (seq 0 n)) by (apply (Permutation_in _ P), in_map, in_seq; lia). apply in_seq in X. lia. }
  assert (PO : forall t, (t < n)%nat -> Permutation (map sg (others n t)) (others n (sg t))).
  { intros t Ht.
    assert (Q : Permutation (map sg (t :: others n t)) (sg t :: others n (sg t))).
    { apply Permutation_trans with (map sg (seq 0 n)).
      - apply Permutation_map. apply NoDup_Permutation.
        + constructor; [rewrite others_in; tauto|unfold others; apply NoDup_filter, seq_NoDup].
        + apply seq_NoDup.
        + intros u. cbn [In]. rewrite others_in, in_seq. destruct (Nat.eq_dec u t); intuition lia.
      - apply Permutation_trans with (1 := P). apply NoDup_Permutation.
        + apply seq_NoDup.
        + constructor; [rewrite others_in; tauto|unfold others; apply NoDup_filter, seq_NoDup].
        + intros u. cbn [In]. rewrite others_in, in_seq. pose proof (SB t Ht). destruct (Nat.eq_dec u (sg t)); intuition lia. }
    cbn [map] in Q. apply Permutation_cons_inv in Q. exact Q. }
  assert (Et : forall t, (t < n)%nat -> es' (sg t) = c * es t).
  { intros t Ht. eapply kth_unique; [apply He', SB; exact Ht|]. apply (kth_ext p p n [rows2d a] [rows2d a'] k t (sg t) sg c); [exact Hc|apply PO; exact Ht| |apply He; exact Ht].
    intros u Hu. apply others_in in Hu as [Hu _]. rewrite !jdist_1. apply D; assumption. }
  assert (Hpos' : forall t, (t < n)%nat -> 0 < es' t).
  { intros t Ht. assert (X : In t (map sg (seq 0 n))) by (apply (Permutation_in _ (Permutation_sym P)), in_seq; lia).
    apply in_map_iff in X as (u & <- & Hu). apply in_seq in Hu. rewrite Et by lia. apply Rmult_lt_0_compat; [exact Hc|apply Hpos; lia]. }
  rewrite (C75_value E w m b Hp V HG n d a' k es') by assumption. f_equal.
  rewrite !mean_map, !seq_length. rewrite <- (sumf_perm _ _ _ P), sumf_map.
  assert (S1 : sumf (fun t => kl_value (gam E) w (np_of m) n d k (es' (sg t))) (seq 0 n)
     = sumf (fun t => kl_value (gam E) w (np_of m) n d k (es t)) (seq 0 n) + INR n * (INR d * ln c)).
  { rewrite <- (seq_length n 0) at 3. rewrite <- sumf_const, <- sumf_plus. apply sumf_ext. intros t Ht. apply in_seq in Ht.
    rewrite Et by lia. unfold kl_value. rewrite lp_ball_scale. rewrite ln_mult.
    - rewrite ln_pow by exact Hc. ring.
    - apply pow_lt. exact Hc.
    - apply lp_ball_pos; try assumption. apply Hpos. lia. }
  rewrite S1. field. split; [|apply not_0_INR; lia].
  clear - V. destruct b as [|r]; cbn in *; [lra|]. intros C. destruct V as [V1 V2]. apply V2. apply ln_inv; [exact V1|lra|rewrite ln_1; exact C].
Qed.
Theorem C75_scaling : forall E w m b n d a a' k (sg : nat -> nat) c es,
  norm_ok (np_of m) -> valid_base b -> is_gamma (gam E) ->
  (1 <= d)%nat -> table n d (rows2d a) -> table n d (rows2d a') -> (1 <= k < n)%nat -> 0 < c ->
  Permutation (map sg (seq 0 n)) (seq 0 n) ->
  (forall t u, (t < n)%nat -> (u < n)%nat ->
     dst (np_of m) (nth (sg t) (rows2d a') []) (nth (sg u) (rows2d a') []) = c * dst (np_of m) (nth t (rows2d a) []) (nth u (rows2d a) [])) ->
  radii (np_of m) n [rows2d a] k es -> (forall t, (t < n)%nat -> 0 < es t) ->
  exists H, kl_entropy E (ksg_args w m b k) (FArr a) = Ok H /\
    kl_entropy E (ksg_args w m b k) (FArr a') = Ok (H + INR d * ln c / unit_of b).
Proof. exact kl_transport. Qed.
Theorem C75_scaling_1d : forall E w m b n xs k c s es,
  norm_ok (np_of m) -> valid_base b -> is_gamma (gam E) -> length xs = n -> (1 <= k < n)%nat -> c <> 0 ->
  radii (np_of m) n [rows2d (F1 xs)] k es -> (forall t, (t < n)%nat -> 0 < es t) ->
  exists H, kl_entropy E (ksg_args w m b k) (FArr (F1 xs)) = Ok H /\
    kl_entropy E (ksg_args w m b k) (FArr (F1 (map (fun x => c * x + s) xs))) = Ok (H + ln (Rabs c) / unit_of b).
Proof.
  intros E w m b n xs k c s es Hp V HG L Hk Hc He Hpos.
  assert (T : forall l : list R, length l = n -> table n 1 (rows2d (F1 l))).
  { intros l Hl. cbn. split; [rewrite map_length; exact Hl|]. apply Forall_forall. intros x Hx. apply in_map_iff in Hx as (y & <- & _). reflexivity. }
  destruct (kl_transport E w m b n 1 (F1 xs) (F1 (map (fun x => c * x + s) xs)) k (fun t => t) (Rabs c) es) as (H & A & B);
    try assumption; try lia; try (apply T; rewrite ?map_length; exact L).
  - apply Rabs_pos_lt. exact Hc.
  - rewrite map_id. apply Permutation_refl.
  - intros t u Ht Hu. rewrite !(nth_F1 _ _ n) by (rewrite ?map_length; assumption). rewrite !dst1 by exact Hp.
    rewrite <- Rabs_mult. f_equal.
    rewrite !(nth_indep (map _ xs) 0 (c * 0 + s)) by (rewrite map_length; lia).
    rewrite !(map_nth (fun x => c * x + s)). ring.
  - exists H. split; [exact A|]. rewrite B. f_equal. cbn [INR]. rewrite Rmult_1_l. reflexivity.
Qed.

(** the scaling law fails when samples coincide: scaling three values by 2 adds only a third of ln 2 *)
Lemma c75_radii p : norm_ok p -> forall x, 0 < x ->
  radii p 3 [rows2d (F1 [0; 0; x])] 1 (fun t => if Nat.eqb t 2 then x else 0).
Proof.
  intros Hp x Hx.
  assert (D : forall t u, (t < 3)%nat -> (u < 3)%nat -> jdist p [rows2d (F1 [0; 0; x])] t u = Rabs (nth t [0; 0; x] 0 - nth u [0; 0; x] 0)).
  { intros t u Ht Hu. rewrite jdist_1, !(nth_F1 _ _ 3) by (try reflexivity; assumption). apply dst1. exact Hp. }
  intros t Ht. unfold kth_neighbour, closer, within.
  assert (FX : forall (f : R -> bool), filter (fun u => f (jdist p [rows2d (F1 [0; 0; x])] t u)) (others 3 t)
     = filter (fun u => f (Rabs (nth t [0; 0; x] 0 - nth u [0; 0; x] 0))) (others 3 t)).
  { intros f. apply filter_ext_in. intros u Hu. apply others_in in Hu as [Hu _]. rewrite D by assumption. reflexivity. }
  rewrite (FX (fun r => if Rlt_dec r _ then true else false)), (FX (fun r => if Rle_dec r _ then true else false)).
  assert (A0 : Rabs (0 - 0) = 0) by (rewrite Rminus_0_r; apply Rabs_R0).
  assert (A1 : Rabs (0 - x) = x) by (rewrite Rminus_0_l, Rabs_Ropp; apply Rabs_pos_eq; lra).
  assert (A2 : Rabs (x - 0) = x) by (rewrite Rminus_0_r; apply Rabs_pos_eq; lra).
  destruct t as [|[|[|t]]]; [| | |lia]; unfold others; cbn [seq filter Nat.eqb negb nth]; rewrite ?A0, ?A1, ?A2.
  - split; [exists 1%nat; split; [lia|]; split; [lia|]; rewrite D by lia; cbn [nth]; rewrite A0; reflexivity|].
    destruct (Rlt_dec 0 0); [lra|]. destruct (Rlt_dec x 0); [lra|]. destruct (Rle_dec 0 0); [|lra]. cbn. lia.
  - split; [exists 0%nat; split; [lia|]; split; [lia|]; rewrite D by lia; cbn [nth]; rewrite A0; reflexivity|].
    destruct (Rlt_dec 0 0); [lra|]. destruct (Rlt_dec x 0); [lra|]. destruct (Rle_dec 0 0); [|lra]. cbn. lia.
  - split; [exists 0%nat; split; [lia|]; split; [lia|]; rewrite D by lia; cbn [nth]; rewrite A2; reflexivity|].
    destruct (Rlt_dec x x); [lra|]. destruct (Rle_dec x x); [|lra]. cbn. lia.
Qed.
Theorem C75_scaling_refuted : forall E w m b, norm_ok (np_of m) -> valid_base b -> is_gamma (gam E) ->
  exists H, kl_entropy E (ksg_args w m b 1) (FArr (F1 [0; 0; 1])) = Ok H /\
    kl_entropy E (ksg_args w m b 1) (FArr (F1 (map (fun x => 2 * x) [0; 0; 1]))) = Ok (H + ln 2 / 3 / unit_of b).
Proof.
  intros E w m b Hp V HG.
  assert (T : forall x, table 3 1 (rows2d (F1 [0; 0; x]))) by (intros; cbn; repeat constructor).
  assert (G : forall x, 0 < x -> kl_entropy E (ksg_args w m b 1) (FArr (F1 [0; 0; x])) = Ok (kl_value (gam E) w (np_of m) 3 1 1 x / 3 / unit_of b)).
  { intros x Hx. destruct (C75_coinciding_samples E w m b Hp V HG 3 1 (F1 [0; 0; x]) 1 _ ltac:(lia) (T x) ltac:(lia) (c75_radii _ Hp x Hx)) as (ls & _ & L & -> & N).
    f_equal. destruct ls as [|l0 [|l1 [|l2 [|]]]]; try discriminate. pose proof (N 0%nat ltac:(lia)) as N0. pose proof (N 1%nat ltac:(lia)) as N1. pose proof (N 2%nat ltac:(lia)) as N2.
    cbn [nth Nat.eqb] in N0, N1, N2. destruct (Req_EM_T 0 0) as [_|C]; [|lra]. destruct (Req_EM_T x 0); [lra|]. subst. unfold mean, sumR. cbn. field.
    clear - V. destruct b as [|r]; cbn in *; [lra|]. intros C. destruct V as [V1 V2]. apply V2. apply ln_inv; [exact V1|lra|rewrite ln_1; exact C]. }
  eexists. split; [apply G; lra|]. cbn [map]. replace (2 * 0) with 0 by ring. rewrite G by lra. f_equal.
  unfold kl_value. rewrite !lp_ball_d1 by assumption. replace (2 * (2 * 1)) with (2 * 2) by ring. rewrite ln_mult by lra.
  replace (2 * 1) with 2 by ring. field.
  clear - V. destruct b as [|r]; cbn in *; [lra|]. intros C. destruct V as [V1 V2]. apply V2. apply ln_inv; [exact V1|lra|rewrite ln_1; exact C].
Qed.

(** the two variants differ by 1/k *)
Theorem C75_variants : forall E m b n d a k es, norm_ok (np_of m) -> valid_base b -> is_gamma (gam E) ->
  (1 <= d)%nat -> table n d (rows2d a) -> (1 <= k < n)%nat ->
  radii (np_of m) n [rows2d a] k es -> (forall t, (t < n)%nat -> 0 < es t) ->
  exists H, kl_entropy E (ksg_args Strict m b k) (FArr a) = Ok H /\
    kl_entropy E (ksg_args NonStrict m b k) (FArr a) = Ok (H + / INR k / unit_of b).
Proof.
  intros E m b n d a k es Hp V HG Hd T Hk He Hpos.
  eexists. split; [apply (C75_value E Strict m b Hp V HG n d a k es); assumption|].
  rewrite (C75_value E NonStrict m b Hp V HG n d a k es) by assumption. f_equal.
  rewrite !mean_map, !seq_length.
  rewrite (sumf_ext (fun t => kl_value (gam E) NonStrict (np_of m) n d k (es t)) (fun t => kl_value (gam E) Strict (np_of m) n d k (es t) + / INR k))
    by (intros; unfold kl_value, corr; ring).
  rewrite sumf_plus, sumf_const, seq_length. field.
  split; [apply not_0_INR; lia|]. split; [|apply not_0_INR; lia].
  clear - V. destruct b as [|r]; cbn in *; [lra|]. intros C. destruct V as [V1 V2]. apply V2. apply ln_inv; [exact V1|lra|rewrite ln_1; exact C].
Qed.

(** ** C76: parameters of the entropy estimator *)
Theorem C76_invalid_rejected : forall E (a : nargs) i,
  (n_k a = NFloat \/ (exists k, n_k a = NInt k /\ (k <= 0)%Z) \/ n_noise a < 0 \/ (exists q, n_p a = MP q /\ q < 1) \/ (n_id a <> 1 /\ n_id a <> 2)%Z) ->
  kl_entropy E a i = Raise ValueError /\ forall p q, kl_cross_entropy E a p q = Raise ValueError.
Proof.
  intros E a i H.
  assert (C : kl_check a = Raise ValueError).
  { unfold kl_check, id_ok. destruct H as [->|[(k & -> & Hk)|[Hn|[(q & Hq & L)|[H1 H2]]]]].
    - reflexivity.
    - destruct (Z.leb_spec k 0); [reflexivity|lia].
    - destruct (n_k a) as [k|]; [|reflexivity]. destruct (Z.leb k 0); [reflexivity|]. destruct (Rlt_dec (n_noise a) 0); [reflexivity|lra].
    - destruct (n_k a) as [k|]; [|reflexivity]. destruct (Z.leb k 0); [reflexivity|]. destruct (Rlt_dec (n_noise a) 0); [reflexivity|].
      rewrite Hq. cbn. destruct (Rle_dec 1 q); [lra|]. reflexivity.
    - destruct (n_k a) as [k|]; [|reflexivity]. destruct (Z.leb k 0); [reflexivity|]. destruct (Rlt_dec (n_noise a) 0); [reflexivity|].
      destruct (negb (mink_ok _)); [reflexivity|]. destruct (Z.eqb_spec (n_id a) 1); [contradiction|]. destruct (Z.eqb_spec (n_id a) 2); [contradiction|]. reflexivity. }
  unfold kl_entropy, kl_entropy_local, kl_cross_entropy. rewrite C. split; reflexivity.
Qed.
(** k at least the number of samples is not rejected: the result is not a finite number *)
Theorem C76_too_many_neighbours_refuted : forall E w m b n d a k, norm_ok (np_of m) -> is_gamma (gam E) -> (1 <= d)%nat ->
  table n d (rows2d a) -> (1 <= n <= k)%nat -> kl_entropy E (ksg_args w m b k) (FArr a) = NonFinite.
Proof.
  intros E w m b n d a k Hp HG Hd T Hk. unfold kl_entropy, kl_entropy_local. rewrite (kl_check_ok w m b Hp) by lia. cbn [bind make_rows ksg_args n_noise].
  rewrite no_noise. cbn [bind hd ksg_args n_p n_id n_base]. rewrite kth_query_ok by (try assumption; lia). cbn [bind].
  assert (W : width (rows2d a) = d).
  { unfold width. destruct T as [L F]. destruct (rows2d a) as [|r rs]; cbn in *; [lia|]. inversion F; assumption. }
  rewrite W, (unit_ball_ok (gam E) HG) by assumption. cbn [bind]. rewrite psi_k_ok by lia. cbn [bind].
  rewrite (proj1 T), digamma_ok by lia. cbn [bind]. rewrite np_log_ok by (apply lp_ball_pos; try assumption; lra). cbn [bind].
  destruct (rows2d a) as [|r rs] eqn:R; [destruct T as [L _]; cbn in L; lia|].
  cbn [mapM]. assert (Q : query m (r :: rs) (S k) r = None).
  { unfold query. apply nth_error_None. rewrite (Permutation_length (sortR_perm _)), map_length. destruct T as [L _]. cbn in *. lia. }
  rewrite Q. reflexivity.
Qed.
Example C75_example : table 3 1 (rows2d (F1 [0; 1; 5])) /\ (1 <= 1 < 3)%nat /\ exists es, radii None 3 [rows2d (F1 [0; 1; 5])] 1 es.
Proof. split; [cbn; repeat constructor|]. split; [lia|]. apply radii_exist. lia. Qed.
