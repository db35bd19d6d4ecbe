(** C79: parameters, coinciding samples and cross-entropies of the Renyi and Tsallis estimators. *)
From Coq Require Import Reals Lra Lia List ZArith Arith Bool Permutation.
From Verif Require Import Res RSum Spec SpecBase SpecGamma MBase PBase MTE MPct MNorm PropsPct MEst PEst PEst2 MCont SpecKern PKern PKern3 MKnn SpecKnn SpecKnn2 PKnn PKnn2 PropsKnn PKnn3 PropsKnn4 PropsKnn5 PKnn4 PropsKnn6 MFam.
Import ListNotations.
Local Open Scope R_scope.

(** both estimators, entropy and cross-entropy *)
Definition fam_cross (f : family) := match f with Renyi => renyi_cross_entropy | Tsallis => tsallis_cross_entropy end.
Definition fam_of (f : family) := match f with Renyi => renyi_of | Tsallis => tsallis_of end.
Lemma fam_entropy_eq f : fam_entropy f = expfam (fam_of f). Proof. destruct f; reflexivity. Qed.
Lemma fam_cross_eq f : fam_cross f = expfam_cross (fam_of f). Proof. destruct f; reflexivity. Qed.

(** ** invalid parameters *)
Theorem C79_invalid_rejected : forall f E (a : eargs) x p q,
  (e_q a = OOther \/ (exists r, e_q a = ONum r /\ r <= 0) \/ e_k a = NFloat \/ (exists k, e_k a = NInt k /\ (k <= 0)%Z)) ->
  fam_entropy f E a (FArr x) = Raise ValueError /\ fam_cross f E a p q = Raise ValueError.
Proof.
  intros f E a x p q H.
  assert (C : e_check a = Raise ValueError).
  { unfold e_check. destruct H as [->|[(r & -> & L)|[Hk|(k & Hk & L)]]]; [reflexivity| | |].
    - destruct (Rle_dec r 0); [reflexivity|contradiction].
    - destruct (e_q a); [|reflexivity]. destruct (Rle_dec _ 0); [reflexivity|]. rewrite Hk. reflexivity.
    - destruct (e_q a); [|reflexivity]. destruct (Rle_dec _ 0); [reflexivity|]. rewrite Hk. destruct (Z.leb_spec k 0); [reflexivity|lia]. }
  rewrite fam_entropy_eq, fam_cross_eq. unfold expfam, expfam_cross. cbn [make_rows bind]. rewrite C. split; reflexivity.
Qed.
(** too many neighbours: k >= N, or k > M for the cross-entropy; samples of different dimension *)
Theorem C79_too_many_rejected : forall f E b n d a k r, table n d (rows2d a) -> (1 <= n <= k)%nat -> 0 < r ->
  fam_entropy f E (ex_args k r b) (FArr a) = Raise ValueError.
Proof.
  intros f E b n d a k r T Hk Hr. rewrite fam_entropy_eq. unfold expfam. cbn [make_rows bind]. rewrite e_check_ok by (try lia; lra). cbn [bind fst snd].
  unfold components. cbn [bind]. rewrite (proj1 T). destruct (Z.ltb_spec (Z.of_nat n) (Z.of_nat k + 1)); [reflexivity|lia].
Qed.
Theorem C79_cross_too_many_rejected : forall f E b N M d p q k r, table N d (rows2d p) -> table M d (rows2d q) -> (1 <= N)%nat -> (1 <= M < k)%nat -> 0 < r ->
  fam_cross f E (ex_args k r b) p q = Raise ValueError.
Proof.
  intros f E b N M d p q k r Tp Tq HN Hk Hr. rewrite fam_cross_eq. unfold expfam_cross. rewrite e_check_ok by (try lia; lra). cbn [bind fst snd].
  unfold components. rewrite (table_width N d), (table_width M d), Nat.eqb_refl by (try assumption; lia). cbn [bind].
  rewrite (proj1 Tq). destruct (Z.ltb_spec (Z.of_nat M) (Z.of_nat k)); [reflexivity|lia].
Qed.
Theorem C79_cross_dimension_rejected : forall f E b N M d d' p q k r, table N d (rows2d p) -> table M d' (rows2d q) -> (1 <= N)%nat -> (1 <= M)%nat -> (1 <= k)%nat -> 0 < r ->
  d <> d' -> fam_cross f E (ex_args k r b) p q = Raise ValueError.
Proof.
  intros f E b N M d d' p q k r Tp Tq HN HM Hk Hr ND. rewrite fam_cross_eq. unfold expfam_cross. rewrite e_check_ok by (try lia; lra). cbn [bind fst snd].
  unfold components. rewrite (table_width N d), (table_width M d') by assumption. destruct (Nat.eqb_spec d d'); [contradiction|reflexivity].
Qed.

(** ** order k + 1: both estimators return 0, whatever the data; so the scaling law fails *)
Theorem C79_order_k_plus_one_refuted : forall f E b n d a k, is_gamma (gam E) -> table n d (rows2d a) -> (1 <= k < n)%nat ->
  fam_entropy f E (ex_args k (INR k + 1) b) (FArr a) = Ok 0.
Proof.
  intros f E b n d a k HG T Hk. rewrite fam_entropy_eq. destruct (radii_exist (Some 2) n [rows2d a] k Hk) as (es & He).
  assert (Pk : 0 < INR k) by (apply lt_0_INR; lia).
  unfold expfam. rewrite (rows1 n d a T). cbn [bind]. rewrite e_check_ok by (try lia; lra). cbn [bind fst snd].
  rewrite (components_ok (gam E) n [d] [rows2d a] k es) by (try assumption; apply tabs1; exact T). cbn [bind]. rewrite finite_ok. cbn [bind].
  assert (Q : exp_iq (gam E) (Z.of_nat k) (INR k + 1) (euclidean_ball (total_dim [d]) 1) (map es (seq 0 n)) (n - 1) (total_dim [d]) = Ok 0).
  { unfold exp_iq. rewrite <- INR_IZR_INZ. destruct (Req_EM_T _ _); [reflexivity|congruence]. }
  destruct f; cbn [fam_of]; unfold renyi_of, tsallis_of; (destruct (Req_EM_T (INR k + 1) 1); [lra|]); rewrite Q; cbn [bind]; destruct (Req_EM_T 0 0); reflexivity || congruence.
Qed.
(** orders between k+1 and k+2 are accepted but give no finite number *)
Theorem C79_large_order_refuted : forall f E b n d a k q es, valid_base b -> is_gamma (gam E) -> (forall x, -1 < x < 0 -> gam E (x + 1) = x * gam E x) ->
  table n d (rows2d a) -> (1 <= k < n)%nat -> INR k + 1 < q < INR k + 2 ->
  radii (Some 2) n [rows2d a] k es -> fam_entropy f E (ex_args k q b) (FArr a) = NonFinite.
Proof.
  intros f E b n d a k q es V HG HN T Hk Hq He. rewrite fam_entropy_eq.
  assert (Pk : 0 < INR k) by (apply lt_0_INR; lia).
  unfold expfam. rewrite (rows1 n d a T). cbn [bind]. rewrite e_check_ok by (try lia; lra). cbn [bind fst snd].
  rewrite (components_ok (gam E) n [d] [rows2d a] k es) by (try assumption; apply tabs1; exact T). cbn [bind]. rewrite finite_ok. cbn [bind].
  assert (Q : exp_iq (gam E) (Z.of_nat k) q (euclidean_ball (total_dim [d]) 1) (map es (seq 0 n)) (n - 1) (total_dim [d]) = NonFinite).
  { unfold exp_iq. rewrite <- INR_IZR_INZ. destruct (Req_EM_T q (INR k + 1)); [lra|].
    assert (GN : gam E (INR k + 1 - q) < 0).
    { specialize (HN (INR k + 1 - q) ltac:(lra)). pose proof (G_pos (gam E) HG (INR k + 1 - q + 1) ltac:(lra)). nra. }
    pose proof (G_pos (gam E) HG (INR k) Pk) as GK.
    rewrite np_div_ok by lra. cbn [bind]. unfold np_pow at 1.
    assert (NG : gam E (INR k) / gam E (INR k + 1 - q) < 0).
    { unfold Rdiv. pose proof (Rinv_lt_0_compat _ GN). nra. }
    destruct (Rlt_dec 0 _); [lra|]. destruct (Req_EM_T _ 0); [lra|]. reflexivity. }
  destruct f; cbn [fam_of]; unfold renyi_of, tsallis_of; (destruct (Req_EM_T q 1); [lra|]); cbn [ex_args e_base]; rewrite Q; reflexivity.
Qed.

(** ** coinciding samples *)
(** every sample coincides with k others: both estimators return 0 for every valid order *)
Theorem C79_all_coincide : forall f E b n d a k q, valid_base b -> is_gamma (gam E) -> (1 <= d)%nat -> table n d (rows2d a) -> (1 <= k < n)%nat -> 0 < q < INR k + 1 ->
  radii (Some 2) n [rows2d a] k (fun _ => 0) -> fam_entropy f E (ex_args k q b) (FArr a) = Ok 0.
Proof.
  intros f E b n d a k q V HG Hd T Hk Hq He. rewrite fam_entropy_eq.
  assert (Pk : 0 < INR k) by (apply lt_0_INR; lia).
  unfold expfam. rewrite (rows1 n d a T). cbn [bind]. rewrite e_check_ok by (try lia; lra). cbn [bind fst snd].
  rewrite (components_ok (gam E) n [d] [rows2d a] k (fun _ => 0)) by (try assumption; apply tabs1; exact T). cbn [bind]. rewrite finite_ok. cbn [bind ex_args e_base].
  rewrite td1. assert (Ln : INR n <> 0) by (apply not_0_INR; lia).
  assert (FZ : forall (g : R -> bool) l, (forall x, In x l -> g x = false) -> filter g l = []).
  { intros g l. induction l as [|x l IH]; intros H; cbn; [reflexivity|]. rewrite (H x) by (left; reflexivity). apply IH. intros; apply H; right; assumption. }
  destruct (Req_EM_T q 1) as [->|N1].
  - assert (I1 : exp_i1 (Z.of_nat k) (euclidean_ball d 1) (map (fun _ => 0) (seq 0 n)) (n - 1) d b = Ok 0).
    { unfold exp_i1. rewrite digamma_ok by lia. cbn [bind]. rewrite FZ.
      - cbn [mapM bind]. rewrite !map_length, seq_length, np_div_ok by exact Ln. f_equal. unfold sumR. cbn. unfold Rdiv. ring.
      - intros z Hz. apply in_map_iff in Hz as (r & <- & Hr). apply in_map_iff in Hr as (t & <- & _). rewrite pow_ne_zero by lia. rewrite Rmult_0_r.
        destruct (Rlt_dec 0 0); [lra|reflexivity]. }
    destruct f; cbn [fam_of]; unfold renyi_of, tsallis_of; (destruct (Req_EM_T 1 1); [exact I1|congruence]).
  - assert (IQ : exp_iq (gam E) (Z.of_nat k) q (euclidean_ball d 1) (map (fun _ => 0) (seq 0 n)) (n - 1) d = Ok 0).
    { unfold exp_iq. rewrite <- INR_IZR_INZ. destruct (Req_EM_T q (INR k + 1)); [reflexivity|].
      pose proof (G_pos (gam E) HG (INR k) Pk) as GK. pose proof (G_pos (gam E) HG (INR k + 1 - q) ltac:(lra)) as GQ.
      rewrite np_div_ok by lra. cbn [bind]. rewrite np_pow_pos by (apply Rdiv_lt_0_compat; assumption). cbn [bind].
      rewrite np_pow_pos by (repeat apply Rmult_lt_0_compat; [apply lt_0_INR; lia|apply exp_pos|apply euclid_pos; lra]). cbn [bind].
      rewrite FZ.
      - cbn [mapM bind]. rewrite map_length, seq_length, np_div_ok by exact Ln. f_equal. unfold sumR. cbn. unfold Rdiv. ring.
      - intros r Hr. apply in_map_iff in Hr as (t & <- & _). destruct (Rlt_dec 0 0); [lra|reflexivity]. }
    destruct f; cbn [fam_of]; unfold renyi_of, tsallis_of; (destruct (Req_EM_T q 1); [contradiction|]); rewrite IQ; cbn [bind]; destruct (Req_EM_T 0 0); reflexivity || congruence.
Qed.
(** some coincide: they are left out of the sum but counted in its divisor, so scaling three values by 2 adds a third of ln 2 *)
Lemma ball1 r : euclidean_ball 1 r = 2 * r. Proof. reflexivity. Qed.
Theorem C79_scaling_refuted : forall E b, valid_base b -> is_gamma (gam E) ->
  exists H, renyi_entropy E (ex_args 1 1 b) (FArr (F1 [0; 0; 1])) = Ok H /\
    renyi_entropy E (ex_args 1 1 b) (FArr (F1 (map (fun x => 2 * x) [0; 0; 1]))) = Ok (H + ln 2 / 3 / unit_of b).
Proof.
  intros E b V HG.
  assert (T : forall x, table 3 1 (rows2d (F1 [0; 0; x]))) by (intros x; cbn; repeat constructor).
  assert (X : forall x, 0 < x -> renyi_entropy E (ex_args 1 1 b) (FArr (F1 [0; 0; x])) = Ok ((ln (2 * exp (- psi 1) * 2 * x)) / 3 / unit_of b)).
  { intros x Hx. assert (N2 : norm_ok (Some 2)) by (cbn; lra). pose proof (c75_radii (Some 2) N2 x Hx) as He.
    unfold renyi_entropy, expfam. rewrite (rows1 3 1 _ (T x)). cbn [bind]. rewrite e_check_ok by (try lia; lra). cbn [bind fst snd].
    rewrite (components_ok (gam E) 3 [1%nat] [rows2d (F1 [0; 0; x])] 1 _ HG (tabs1 _ _ _ (T x)) ltac:(lia) He). cbn [bind]. rewrite finite_ok. cbn [bind ex_args e_base].
    rewrite td1, ball1. unfold renyi_of. destruct (Req_EM_T 1 1); [|congruence]. unfold exp_i1. rewrite digamma_ok by lia. cbn [bind seq map Nat.eqb Nat.sub pow filter].
    rewrite !Rmult_1_r, Rmult_0_r. destruct (Rlt_dec 0 0); [lra|]. pose proof (exp_pos (- psi 1)) as EP.
    assert (P : 0 < INR 2 * exp (- psi 1) * 2 * x) by (repeat apply Rmult_lt_0_compat; try assumption; cbn; lra).
    destruct (Rlt_dec 0 _); [|contradiction]. cbn [mapM]. rewrite log_base_ok by assumption. cbn [bind length].
    rewrite np_div_ok by (cbn; lra). f_equal. unfold sumR. cbn [sumf]. replace (INR 2) with 2 by (cbn; ring). replace (INR 3) with 3 by (cbn; ring). field. apply unit_ne. exact V. }
  eexists. split; [apply X; lra|]. cbn [map]. replace (2 * 0) with 0 by ring. rewrite X by lra. f_equal.
  pose proof (exp_pos (- psi 1)) as EP.
  replace (2 * exp (- psi 1) * 2 * (2 * 1)) with (2 * (2 * exp (- psi 1) * 2 * 1)) by ring.
  rewrite (ln_mult 2) by (try lra; repeat apply Rmult_lt_0_compat; lra). field. apply unit_ne. exact V.
Qed.

(** ** cross-entropy of p relative to q *)
Section cross.
  Context (E : nenv) (b : base) (V : valid_base b) (HG : is_gamma (gam E)).
  Lemma cross_rows of (val : (R -> R) -> base -> R -> nat -> nat -> nat -> list R -> R) N M d p q k r es :
    (forall G b k q rho n d, is_gamma G -> valid_base b -> (1 <= k)%nat -> q < INR k + 1 -> (1 <= n)%nat -> rho <> [] -> (forall r, In r rho -> 0 < r) ->
       of b q G (Z.of_nat k) (euclidean_ball d 1) rho n d = Ok (val G b q k n d rho)) ->
    table N d (rows2d p) -> table M d (rows2d q) -> (1 <= N)%nat -> (2 <= k <= M)%nat -> 0 < r < INR k + 1 ->
    ref_radii (Some 2) (rows2d p) (rows2d q) k es -> (forall t, (t < N)%nat -> 0 < es t) ->
    expfam_cross of E (ex_args k r b) p q = Ok (val (gam E) b r k M d (map es (seq 0 N))).
  Proof.
    intros HOF Tp Tq HN Hk Hr He Hpos. unfold expfam_cross. rewrite e_check_ok by (try lia; lra). cbn [bind fst snd].
    unfold components. rewrite (table_width N d), (table_width M d), Nat.eqb_refl by (try assumption; lia). cbn [bind].
    rewrite (proj1 Tq). destruct (Z.ltb_spec (Z.of_nat M) (Z.of_nat k)); [lia|]. rewrite (vm_ok (gam E) HG). cbn [bind].
    rewrite (kth_query_2 (MP 2)) by (try lia; cbn; lra). cbn [bind].
    rewrite (map_query (MP 2) _ _ k es) by (try assumption; rewrite (proj1 Tq); lia). rewrite (proj1 Tp), finite_ok. cbn [bind ex_args e_base].
    apply HOF; try assumption; try lia; try lra.
    - apply map_ne, seq_ne. lia.
    - intros x Hx. apply in_map_iff in Hx as (t & <- & Ht). apply in_seq in Ht. apply Hpos. lia.
  Qed.
  (** the same formulas with the distances of the N samples to the k-th nearest of the M reference points, and M instead of N - 1 *)
  Theorem C79_cross_value : forall N M d p q k r es, table N d (rows2d p) -> table M d (rows2d q) -> (1 <= N)%nat -> (2 <= k <= M)%nat -> 0 < r < INR k + 1 ->
    ref_radii (Some 2) (rows2d p) (rows2d q) k es -> (forall t, (t < N)%nat -> 0 < es t) ->
    (r <> 1 ->
      renyi_cross_entropy E (ex_args k r b) p q = Ok (ln (lps_integral (gam E) M d k r (map es (seq 0 N))) / (1 - r) / unit_of b) /\
      tsallis_cross_entropy E (ex_args k r b) p q = Ok ((1 - lps_integral (gam E) M d k r (map es (seq 0 N))) / (r - 1))) /\
    (r = 1 -> renyi_cross_entropy E (ex_args k r b) p q = Ok (lps_shannon M d k (map es (seq 0 N)) / unit_of b) /\
      tsallis_cross_entropy E (ex_args k r b) p q = Ok (lps_shannon M d k (map es (seq 0 N)) / unit_of b)).
  Proof.
    intros N M d p q k r es Tp Tq HN Hk Hr He Hpos. unfold renyi_cross_entropy, tsallis_cross_entropy.
    rewrite (cross_rows renyi_of renyi_value N M d p q k r es renyi_of_ok) by assumption.
    rewrite (cross_rows tsallis_of tsallis_value N M d p q k r es tsallis_of_ok) by assumption.
    unfold renyi_value, tsallis_value. destruct (Req_EM_T r 1); split; intros; try contradiction; split; reflexivity.
  Qed.
  (** k = 1, accepted by the parameter check, is an IndexError *)
  Theorem C79_cross_one_neighbour_refuted : forall f N M d p q r, table N d (rows2d p) -> table M d (rows2d q) -> (1 <= N)%nat -> (1 <= M)%nat -> 0 < r ->
    fam_cross f E (ex_args 1 r b) p q = Raise IndexError.
  Proof.
    intros f N M d p q r Tp Tq HN HM Hr. rewrite fam_cross_eq. unfold expfam_cross. rewrite e_check_ok by (try lia; lra). cbn [bind fst snd].
    unfold components. rewrite (table_width N d), (table_width M d), Nat.eqb_refl by assumption. cbn [bind].
    rewrite (proj1 Tq). destruct (Z.ltb_spec (Z.of_nat M) (Z.of_nat 1)); [lia|]. rewrite (vm_ok (gam E) HG). cbn [bind].
    unfold kth_query. rewrite (proj2 (mink_ok_norm (MP 2))) by (cbn; lra). reflexivity.
  Qed.
End cross.

(** concrete instances *)
Example C78_example : table 4 1 (rows2d (F1 [0; 1; 3; 7])) /\ (1 <= 2 < 4)%nat /\ 0 < 1 / 2 < INR 2 + 1 /\
  exists es, radii (Some 2) 4 [rows2d (F1 [0; 1; 3; 7])] 2 es /\ forall t, (t < 4)%nat -> 0 < es t.
Proof.
  split; [cbn; repeat constructor|]. split; [lia|]. split; [cbn; lra|].
  destruct (radii_exist (Some 2) 4 [rows2d (F1 [0; 1; 3; 7])] 2 ltac:(lia)) as (es & He). exists es. split; [exact He|].
  apply (radii_pos (Some 2) 4 (F1 [0; 1; 3; 7]) 2); [|exact He].
  intros t u Ht Hu N. rewrite !(nth_F1 _ _ 4) by (try reflexivity; assumption). rewrite dst1 by (cbn; lra). apply Rabs_pos_lt.
  destruct t as [|[|[|[|]]]]; try lia; destruct u as [|[|[|[|]]]]; try lia; cbn; lra.
Qed.
Example C79_coincide_example : radii (Some 2) 2 [rows2d (F1 [5; 5])] 1 (fun _ => 0).
Proof.
  assert (D : forall t u, (t < 2)%nat -> (u < 2)%nat -> jdist (Some 2) [rows2d (F1 [5; 5])] t u = 0).
  { intros t u Ht Hu. rewrite jdist_1, !(nth_F1 _ _ 2) by (try reflexivity; assumption). rewrite dst1 by (cbn; lra).
    destruct t as [|[|]]; try lia; destruct u as [|[|]]; try lia; cbn; rewrite Rminus_diag_eq by reflexivity; apply Rabs_R0. }
  intros t Ht. split; [exists (1 - t)%nat; split; [lia|]; split; [lia|]; rewrite D by lia; reflexivity|]. unfold closer, within, others.
  destruct t as [|[|]]; [| |lia]; cbn [seq filter Nat.eqb negb]; rewrite D by lia; (destruct (Rlt_dec 0 0); [lra|]); (destruct (Rle_dec 0 0); [|lra]); cbn; lia.
Qed.
Example C77_distances_example : exists es es', radii None 4 [rows2d (F1 [0; 1; 3; 7])] 2 es /\ radii None 4 [rows2d (F1 [0; 1; 3; 7])] (2 - 1) es' /\
  forall t, (t < 4)%nat -> 0 < es' t.
Proof.
  destruct (radii_exist None 4 [rows2d (F1 [0; 1; 3; 7])] 2 ltac:(lia)) as (es & He).
  destruct (radii_exist None 4 [rows2d (F1 [0; 1; 3; 7])] (2 - 1) ltac:(lia)) as (es' & He'). exists es, es'. split; [exact He|]. split; [exact He'|].
  apply (radii_pos None 4 (F1 [0; 1; 3; 7]) 1); [|exact He'].
  intros t u Ht Hu N. rewrite !(nth_F1 _ _ 4) by (try reflexivity; assumption). rewrite dst1 by exact Logic.I. apply Rabs_pos_lt.
  destruct t as [|[|[|[|]]]]; try lia; destruct u as [|[|[|[|]]]]; try lia; cbn; lra.
Qed.
