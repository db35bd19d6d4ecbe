(** C114: how Renyi and Tsallis estimates depend on their order. *)
From Coq Require Import Reals Lra Lia List ZArith Arith Bool Permutation.
From Verif Require Import Res RSum Spec SpecBase SpecGamma MBase PBase MTE MPct MNorm PropsPct MEst PEst PEst2 MCont SpecKern PKern PKern2 PKern3 MKnn SpecKnn SpecKnn2 PKnn PKnn2 PropsKnn PKnn3 PropsKnn4 PropsKnn5 PKnn4 PropsKnn6 MFam PropsKnn7 SpecFam PFam PropsFam SpecOrder PGamma PGamma2 POrder PropsOrder.
Import ListNotations.
Local Open Scope R_scope.

(** exp of a convex combination *)
Lemma exp_convex x y t : 0 <= t <= 1 -> exp (t * x + (1 - t) * y) <= t * exp x + (1 - t) * exp y.
Proof.
  intros Ht. pose proof (ln_concave (exp x) (exp y) t (exp_pos x) (exp_pos y) Ht) as L. rewrite !ln_exp in L.
  assert (P : 0 < t * exp x + (1 - t) * exp y) by (pose proof (exp_pos x); pose proof (exp_pos y); nra).
  rewrite <- (exp_ln (t * exp x + (1 - t) * exp y)) by exact P.
  destruct L as [L|L]; [left; apply exp_increasing; exact L|rewrite L; lra].
Qed.

(** slopes from 0 of a function that is convex above [- w] *)
Section Slope.
  Variables (Phi : R -> R) (w m : R).
  Hypothesis Hw : 0 < w.
  Hypothesis Z0 : Phi 0 = 0.
  Hypothesis Cv : forall s t z, - w < s -> - w < t -> 0 <= z <= 1 -> Phi (z * s + (1 - z) * t) <= z * Phi s + (1 - z) * Phi t.
  Hypothesis Tg : forall t, - w < t -> t * m <= Phi t.
  Definition slope_at (t : R) : R := if Req_EM_T t 0 then m else Phi t / t.
  Lemma slope_at_mono s t : - w < s -> s <= t -> slope_at s <= slope_at t.
  Proof.
    intros Ws [L| ->]; [|lra]. unfold slope_at.
    assert (Pos : forall u, 0 < u -> m <= Phi u / u).
    { intros u Hu. apply Rmult_le_reg_r with u; [exact Hu|]. replace (Phi u / u * u) with (Phi u) by (field; lra). rewrite Rmult_comm. apply Tg. lra. }
    assert (Neg : forall u, - w < u -> u < 0 -> Phi u / u <= m).
    { intros u Wu Hu. apply Ropp_le_cancel. apply Rmult_le_reg_r with (- u); [lra|]. replace (- (Phi u / u) * - u) with (Phi u) by (field; lra).
      replace (- m * - u) with (u * m) by ring. apply Tg. exact Wu. }
    destruct (Req_EM_T s 0) as [ ->|Ns]; destruct (Req_EM_T t 0) as [ ->|Nt]; try lra; [apply Pos; lra|apply Neg; lra|].
    destruct (Rlt_or_le s 0) as [S0|S0]; destruct (Rlt_or_le t 0) as [T0|T0]; try lra.
    - assert (Q : 0 < / - s) by (apply Rinv_0_lt_compat; lra).
      assert (Z : 0 <= - t * / - s <= 1).
      { split; [apply Rmult_le_pos; lra|]. apply Rmult_le_reg_r with (- s); [lra|]. rewrite Rmult_assoc, Rinv_l, Rmult_1_r by lra. lra. }
      pose proof (Cv s 0 _ Ws ltac:(lra) Z) as C. rewrite Z0 in C. replace (- t * / - s * s + (1 - - t * / - s) * 0) with t in C by (field; lra).
      apply Ropp_le_cancel. apply Rmult_le_reg_r with (- t); [lra|]. replace (- (Phi t / t) * - t) with (Phi t) by (field; lra).
      replace (- (Phi s / s) * - t) with (- t * / - s * Phi s) by (field; lra). lra.
    - apply Rle_trans with m; [apply Neg; lra|apply Pos; lra].
    - assert (Q : 0 < / t) by (apply Rinv_0_lt_compat; lra).
      assert (Z : 0 <= s * / t <= 1).
      { split; [apply Rmult_le_pos; lra|]. apply Rmult_le_reg_r with t; [lra|]. rewrite Rmult_assoc, Rinv_l, Rmult_1_r by lra. lra. }
      pose proof (Cv t 0 _ ltac:(lra) ltac:(lra) Z) as C. rewrite Z0 in C. replace (s * / t * t + (1 - s * / t) * 0) with s in C by (field; lra).
      apply Rmult_le_reg_r with s; [lra|]. replace (Phi s / s * s) with (Phi s) by (field; lra). replace (Phi t / t * s) with (s * / t * Phi t) by (field; lra). lra.
  Qed.
End Slope.
(** a tangent from a derivative *)
Lemma tangent_of (Phi : R -> R) w m : 0 < w -> Phi 0 = 0 ->
  (forall s t z, - w < s -> - w < t -> 0 <= z <= 1 -> Phi (z * s + (1 - z) * t) <= z * Phi s + (1 - z) * Phi t) ->
  derivable_pt_lim Phi 0 m -> forall t, - w < t -> t * m <= Phi t.
Proof.
  intros Hw Z0 Cv D t Wt. destruct (Rle_or_lt (t * m) (Phi t)) as [|L]; [assumption|exfalso].
  assert (Nt : t <> 0) by (intros ->; rewrite Z0 in L; lra). pose proof (Rabs_pos_lt t Nt) as Pt.
  set (eps := (t * m - Phi t) / (2 * Rabs t)). assert (Pe : 0 < eps) by (unfold eps; apply Rdiv_lt_0_compat; lra).
  destruct (D eps Pe) as (d & Hd).
  set (z := Rmin 1 (d / (2 * Rabs t))). assert (P2 : 0 < d / (2 * Rabs t)) by (apply Rdiv_lt_0_compat; [apply cond_pos|lra]).
  assert (Pz : 0 < z) by (unfold z; apply Rmin_pos; lra). assert (Z1 : z <= 1) by apply Rmin_l. assert (Z2 : z <= d / (2 * Rabs t)) by apply Rmin_r.
  assert (Nz : z * t <> 0) by (apply Rmult_integral_contrapositive_currified; lra).
  assert (B : Rabs (z * t) < d).
  { rewrite Rabs_mult, (Rabs_pos_eq z) by lra. apply Rle_lt_trans with (d / (2 * Rabs t) * Rabs t); [apply Rmult_le_compat_r; lra|].
    replace (d / (2 * Rabs t) * Rabs t) with (d / 2) by (field; lra). pose proof (cond_pos d). lra. }
  specialize (Hd (z * t) Nz B). rewrite Rplus_0_l, Z0, Rminus_0_r in Hd.
  pose proof (Cv t 0 z Wt ltac:(lra) ltac:(lra)) as C. rewrite Z0 in C. replace (z * t + (1 - z) * 0) with (z * t) in C by ring.
  assert (E : Rabs (Phi (z * t) - z * t * m) < z * Rabs t * eps).
  { replace (Phi (z * t) - z * t * m) with (z * t * (Phi (z * t) / (z * t) - m)) by (field; split; lra).
    rewrite Rabs_mult. replace (z * Rabs t) with (Rabs (z * t)) by (rewrite Rabs_mult, (Rabs_pos_eq z) by lra; reflexivity).
    apply Rmult_lt_compat_l; [apply Rabs_pos_lt; exact Nz|exact Hd]. }
  assert (E2 : z * Rabs t * eps = z * (t * m - Phi t) / 2) by (unfold eps; field; lra).
  rewrite E2 in E. apply Rabs_def2 in E. nra.
Qed.

Section LSE.
  Variable a : list R.
  Hypothesis Ha : a <> [].
  Let Phi (t : R) : R := ln (mean (map (fun x => exp (t * x)) a)).
  Lemma mean_exp_pos t : 0 < mean (map (fun x => exp (t * x)) a).
  Proof.
    unfold mean. rewrite map_length. apply Rdiv_lt_0_compat; [|apply lt_0_INR; destruct a; [congruence|cbn; lia]].
    unfold sumR. rewrite sumf_map. destruct a as [|x l]; [congruence|]. cbn [sumf].
    apply Rplus_lt_le_0_compat; [apply exp_pos|]. apply sumf_nonneg. intros y _. left. apply exp_pos.
  Qed.
  Lemma mean_le (f g : R -> R) : (forall x, In x a -> f x <= g x) -> mean (map f a) <= mean (map g a).
  Proof.
    intros H. unfold mean. rewrite !map_length. unfold sumR. rewrite !sumf_map. apply Rmult_le_compat_r.
    - left. apply Rinv_0_lt_compat, lt_0_INR. destruct a; [congruence|cbn; lia].
    - apply sumf_le. exact H.
  Qed.
  Lemma mean_lin (f g : R -> R) u v : mean (map (fun x => u * f x + v * g x) a) = u * mean (map f a) + v * mean (map g a).
  Proof.
    unfold mean. rewrite !map_length. unfold sumR. rewrite !sumf_map. rewrite (sumf_plus (fun x => u * f x) (fun x => v * g x)). rewrite (sumf_scal u f), (sumf_scal v g).
    change (sumf (fun x => f x) a) with (sumf f a). change (sumf (fun x => g x) a) with (sumf g a). unfold Rdiv. ring.
  Qed.
  Lemma Phi_0 : Phi 0 = 0.
  Proof.
    unfold Phi, mean. rewrite map_length. unfold sumR. rewrite sumf_map.
    rewrite (sumf_ext _ (fun _ => 1)) by (intros; rewrite Rmult_0_l; apply exp_0). rewrite sumf_const.
    replace (_ / _) with 1 by (field; apply not_0_INR; destruct a; [congruence|discriminate]). apply ln_1.
  Qed.
  Lemma Phi_convex s t z : 0 <= z <= 1 -> Phi (z * s + (1 - z) * t) <= z * Phi s + (1 - z) * Phi t.
  Proof.
    intros Hz. pose proof (mean_exp_pos s) as Ps. pose proof (mean_exp_pos t) as Pt. pose proof (mean_exp_pos (z * s + (1 - z) * t)) as Pm.
    set (c := z * Phi s + (1 - z) * Phi t).
    assert (B : mean (map (fun x => exp ((z * s + (1 - z) * t) * x)) a) <= exp c).
    { replace (exp c) with (z * exp c + (1 - z) * exp c) by ring.
      assert (Es : exp c = (exp c * exp (- Phi s)) * mean (map (fun x => exp (s * x)) a)).
      { replace (mean (map (fun x => exp (s * x)) a)) with (exp (Phi s)) by (apply exp_ln; exact Ps). rewrite Rmult_assoc, <- exp_plus.
        rewrite Rplus_opp_l, exp_0. ring. }
      assert (Et : exp c = (exp c * exp (- Phi t)) * mean (map (fun x => exp (t * x)) a)).
      { replace (mean (map (fun x => exp (t * x)) a)) with (exp (Phi t)) by (apply exp_ln; exact Pt). rewrite Rmult_assoc, <- exp_plus.
        rewrite Rplus_opp_l, exp_0. ring. }
      rewrite Es at 1. rewrite Et at 2. rewrite <- !Rmult_assoc.
      rewrite <- (mean_lin (fun x => exp (s * x)) (fun x => exp (t * x))). apply mean_le. intros x _.
      replace (exp ((z * s + (1 - z) * t) * x)) with (exp c * exp (z * (s * x - Phi s) + (1 - z) * (t * x - Phi t))).
      2:{ rewrite <- exp_plus. f_equal. unfold c. ring. }
      pose proof (exp_convex (s * x - Phi s) (t * x - Phi t) z Hz) as C.
      replace (exp (s * x - Phi s)) with (exp (- Phi s) * exp (s * x)) in C by (rewrite <- exp_plus; f_equal; ring).
      replace (exp (t * x - Phi t)) with (exp (- Phi t) * exp (t * x)) in C by (rewrite <- exp_plus; f_equal; ring).
      pose proof (exp_pos c) as Pc. apply (Rmult_le_compat_l (exp c)) in C; [|lra].
      eapply Rle_trans; [exact C|right; ring]. }
    unfold Phi at 1. rewrite <- (ln_exp c). destruct B as [B|B]; [left; apply ln_increasing; assumption|rewrite B; lra].
  Qed.
  (** Jensen *)
  Lemma Phi_tangent t : t * mean a <= Phi t.
  Proof.
    pose proof (mean_exp_pos t) as P. unfold Phi. rewrite <- (ln_exp (t * mean a)).
    assert (B : exp (t * mean a) <= mean (map (fun x => exp (t * x)) a)).
    { assert (LP : INR (length a) <> 0) by (apply not_0_INR; destruct a; [congruence|discriminate]).
      replace (exp (t * mean a)) with (mean (map (fun x => exp (t * mean a) * (1 - t * mean a) * 1 + exp (t * mean a) * t * x) a)).
      2:{ rewrite (mean_lin (fun _ => 1) (fun x => x)), map_id.
          replace (mean (map (fun _ => 1) a)) with 1; [ring|]. unfold mean. rewrite map_length. unfold sumR. rewrite sumf_map, sumf_const. field. exact LP. }
      apply mean_le. intros x _.
      replace (exp (t * x)) with (exp (t * mean a) * exp (t * x - t * mean a)) by (rewrite <- exp_plus; f_equal; ring).
      pose proof (exp_ineq1_le (t * x - t * mean a)) as Q. pose proof (exp_pos (t * mean a)). nra. }
    destruct B as [B|B]; [left; apply ln_increasing; [apply exp_pos|exact B]|rewrite B; lra].
  Qed.
  (** the slope from 0 *)
  Definition lse_slope (t : R) : R := slope_at Phi (mean a) t.
  Lemma lse_mono s t : s <= t -> lse_slope s <= lse_slope t.
  Proof.
    intros L. apply (slope_at_mono Phi (Rabs s + 1)); [pose proof (Rabs_pos s); lra|exact Phi_0| | | |exact L].
    - intros; apply Phi_convex; assumption.
    - intros; apply Phi_tangent.
    - pose proof (Rle_abs (- s)) as Q. rewrite Rabs_Ropp in Q. lra.
  Qed.
  (** ... lies between the smallest and the largest element *)
  Lemma slope_bounds lo hi t : (forall x, In x a -> lo <= x <= hi) -> lo <= lse_slope t <= hi.
  Proof.
    intros H. assert (LP : 0 < INR (length a)) by (apply lt_0_INR; destruct a; [congruence|cbn; lia]).
    assert (K : forall c, mean (map (fun _ => c) a) = c) by (intros c; unfold mean; rewrite map_length; unfold sumR; rewrite sumf_map, sumf_const; field; lra).
    assert (B : forall u, Rmin (u * lo) (u * hi) <= Phi u <= Rmax (u * lo) (u * hi)).
    { intros u. pose proof (mean_exp_pos u) as P. unfold Phi. rewrite <- (ln_exp (Rmin _ _)), <- (ln_exp (Rmax _ _)).
      assert (X : forall x, In x a -> Rmin (u * lo) (u * hi) <= u * x <= Rmax (u * lo) (u * hi)).
      { intros x Hx. destruct (H x Hx). destruct (Rle_or_lt 0 u); [rewrite Rmin_left, Rmax_right by nra; nra|rewrite Rmin_right, Rmax_left by nra; nra]. }
      assert (EM : forall y z, y <= z -> exp y <= exp z) by (intros y z [L| ->]; [left; apply exp_increasing; exact L|lra]).
      assert (LM : forall y z, 0 < y -> y <= z -> ln y <= ln z) by (intros y z Y [L| ->]; [left; apply ln_increasing; assumption|lra]).
      split; apply LM; try apply exp_pos; try exact P.
      - rewrite <- (K (exp (Rmin (u * lo) (u * hi)))). apply mean_le. intros x Hx. apply EM, X, Hx.
      - rewrite <- (K (exp (Rmax (u * lo) (u * hi)))). apply mean_le. intros x Hx. apply EM, X, Hx. }
    assert (LH : lo <= hi) by (destruct a as [|x l]; [congruence|]; pose proof (H x (or_introl eq_refl)); lra).
    unfold lse_slope, slope_at. destruct (Req_EM_T t 0) as [ ->|N].
    - split; [rewrite <- (K lo)|rewrite <- (K hi)]; rewrite <- (map_id a) at 2; rewrite ?map_id.
      + rewrite <- (map_id a) at 2. apply mean_le. intros x Hx. apply H, Hx.
      + rewrite <- (map_id a) at 1. apply mean_le. intros x Hx. apply H, Hx.
    - specialize (B t). destruct (Rlt_or_le 0 t) as [T|T].
      + rewrite Rmin_left, Rmax_right in B by nra. split; apply Rmult_le_reg_r with t; try exact T; replace (Phi t / t * t) with (Phi t) by (field; lra); lra.
      + rewrite Rmin_right, Rmax_left in B by nra. split; apply Ropp_le_cancel; apply Rmult_le_reg_r with (- t); try lra;
          replace (- (Phi t / t) * - t) with (Phi t) by (field; lra); lra.
  Qed.
End LSE.

(** the part of the estimate that comes from the gamma function, not from the data *)
Definition gamma_term (G : R -> R) (k : nat) (q : R) : R :=
  if Req_EM_T q 1 then psi k else (ln (G (INR k + 1 - q)) - ln (G (INR k))) / (1 - q).

Section C114.
  Context (E : nenv) (b : base) (V : valid_base b) (HG : is_gamma (gam E)).
  Notation G := (gam E).
  Notation "'U'" := (unit_of b).

  (** the estimate is the slope of a log-sum-exp less the gamma term *)
  Lemma renyi_slope n d a k q es : table n d (rows2d a) -> (1 <= k < n)%nat -> 0 < q < INR k + 1 ->
    radii (Some 2) n [rows2d a] k es -> (forall t, (t < n)%nat -> 0 < es t) ->
    renyi_entropy E (ex_args k q b) (FArr a) =
      Ok ((lse_slope (map (fun e => ln (INR (n - 1) * euclidean_ball d e)) (map es (seq 0 n))) (1 - q) - gamma_term G k q) / U).
  Proof.
    intros T Hk Hq He Hpos.
    assert (NE : map es (seq 0 n) <> []) by (apply PKern3.map_ne, seq_ne; lia).
    assert (PP : forall e, In e (map es (seq 0 n)) -> 0 < INR (n - 1) * euclidean_ball d e).
    { intros e Hin. apply in_map_iff in Hin as (t & <- & Ht). apply in_seq in Ht. apply Rmult_lt_0_compat; [apply lt_0_INR; lia|apply euclid_pos, Hpos; lia]. }
    assert (Pk : 0 < INR k) by (apply lt_0_INR; lia). pose proof (unit_ne b V) as UN.
    assert (LP : INR (length (map es (seq 0 n))) <> 0) by (apply not_0_INR; rewrite map_length, seq_length; lia).
    unfold renyi_entropy. rewrite (expfam_rows renyi_of renyi_value E b n [d] [rows2d a] (FArr a) k q es renyi_of_ok) by (try assumption; try (apply tabs1; exact T); apply (rows1 n d a T)).
    rewrite td1. f_equal. unfold renyi_value, lse_slope, slope_at, gamma_term. set (ds := map es (seq 0 n)) in *.
    destruct (Req_EM_T q 1) as [ ->|N1].
    - destruct (Req_EM_T (1 - 1) 0); [|lra]. f_equal. unfold lps_shannon, mean. rewrite !map_length. unfold sumR. rewrite !sumf_map.
      rewrite (sumf_ext (fun e => ln (INR (n - 1) * euclidean_ball d e) - psi k) (fun e => ln (INR (n - 1) * euclidean_ball d e) + - psi k)) by (intros; reflexivity).
      rewrite sumf_plus, sumf_const. field. exact LP.
    - destruct (Req_EM_T (1 - q) 0); [lra|]. f_equal. rewrite <- Rdiv_minus_distr. f_equal. unfold lps_integral.
      pose proof (G_pos G HG (INR k) Pk) as GK. pose proof (G_pos G HG (INR k + 1 - q) ltac:(lra)) as GQ.
      assert (M : 0 < mean (map (fun e => Rpower (INR (n - 1) * euclidean_ball d e) (1 - q)) ds)).
      { unfold mean. rewrite map_length. apply Rdiv_lt_0_compat; [|apply lt_0_INR; destruct ds; [congruence|cbn; lia]].
        unfold sumR. rewrite sumf_map. destruct ds as [|x l]; [congruence|]. cbn [sumf].
        apply Rplus_lt_le_0_compat; [apply exp_pos|]. apply sumf_nonneg. intros y _. left. apply exp_pos. }
      rewrite ln_mult; [|apply Rdiv_lt_0_compat; assumption|exact M]. rewrite ln_div by assumption.
      rewrite map_map. unfold Rpower. ring.
  Qed.

  (** apart from the gamma term, a Renyi estimate does not increase with its order *)
  Theorem C114_renyi_order : forall n d a k q q', table n d (rows2d a) -> (1 <= k < n)%nat -> separated n k [rows2d a] ->
    0 < q -> q <= q' -> q' < INR k + 1 ->
    exists h h', renyi_entropy E (ex_args k q b) (FArr a) = Ok h /\ renyi_entropy E (ex_args k q' b) (FArr a) = Ok h' /\
      h' * U + gamma_term G k q' <= h * U + gamma_term G k q.
  Proof.
    intros n d a k q q' T Hk Hs Hq L Hq'. destruct (radii_exist (Some 2) n [rows2d a] k Hk) as (es & He).
    assert (Hpos : forall t, (t < n)%nat -> 0 < es t) by (intros t Ht; apply (Hs t); [exact Ht|apply He; exact Ht]).
    do 2 eexists. split; [apply (renyi_slope n d a k q es); try assumption; lra|]. split; [apply (renyi_slope n d a k q' es); try assumption; lra|].
    pose proof (unit_ne b V) as UN.
    match goal with |- ?x / U * U + ?y <= ?z / U * U + ?w => replace (x / U * U) with x by (field; exact UN); replace (z / U * U) with z by (field; exact UN) end.
    match goal with |- lse_slope ?l _ - _ + _ <= _ => pose proof (lse_mono l ltac:(apply PKern3.map_ne, PKern3.map_ne, seq_ne; lia) (1 - q') (1 - q) ltac:(lra)) as X end.
    lra.
  Qed.
  (** it lies between the values for the smallest and the largest neighbour distance *)
  Theorem C114_renyi_range : forall n d a k q lo hi, table n d (rows2d a) -> (1 <= k < n)%nat -> 0 < q < INR k + 1 -> 0 < lo ->
    (forall t e, (t < n)%nat -> kth_neighbour (Some 2) n [rows2d a] k t e -> lo <= e <= hi) ->
    exists h, renyi_entropy E (ex_args k q b) (FArr a) = Ok h /\
      ln (INR (n - 1) * euclidean_ball d lo) <= h * U + gamma_term G k q <= ln (INR (n - 1) * euclidean_ball d hi).
  Proof.
    intros n d a k q lo hi T Hk Hq Hlo Hb. destruct (radii_exist (Some 2) n [rows2d a] k Hk) as (es & He).
    assert (HB : forall t, (t < n)%nat -> lo <= es t <= hi) by (intros t Ht; apply (Hb t); [exact Ht|apply He; exact Ht]).
    eexists. split; [apply (renyi_slope n d a k q es); try assumption; intros t Ht; pose proof (HB t Ht); lra|].
    pose proof (unit_ne b V) as UN. match goal with |- _ <= ?x / U * U + _ <= _ => replace (x / U * U) with x by (field; exact UN) end.
    match goal with |- _ <= lse_slope ?l ?t - _ + _ <= _ => pose proof (slope_bounds l ltac:(apply PKern3.map_ne, PKern3.map_ne, seq_ne; lia)
      (ln (INR (n - 1) * euclidean_ball d lo)) (ln (INR (n - 1) * euclidean_ball d hi)) t) as X end.
    assert (N0 : 0 < INR (n - 1)) by (apply lt_0_INR; lia).
    assert (MN : forall x y, 0 < x -> x <= y -> ln (INR (n - 1) * euclidean_ball d x) <= ln (INR (n - 1) * euclidean_ball d y)).
    { intros x y Px Lxy. assert (B : euclidean_ball d x <= euclidean_ball d y).
      { rewrite (euclid_pow d x), (euclid_pow d y). apply Rmult_le_compat_r; [left; apply euclid_pos; lra|]. apply pow_incr. lra. }
      pose proof (euclid_pos d x Px) as B1. assert (C : INR (n - 1) * euclidean_ball d x <= INR (n - 1) * euclidean_ball d y) by (apply Rmult_le_compat_l; lra).
      destruct C as [C|C]; [left; apply ln_increasing; [apply Rmult_lt_0_compat; assumption|exact C]|rewrite C; lra]. }
    lapply X; [lra|]. intros x Hx. rewrite map_map in Hx. apply in_map_iff in Hx as (t & <- & Ht). apply in_seq in Ht.
    pose proof (HB t ltac:(lia)). split; apply MN; lra.
  Qed.

  (** ** the gamma term works in the other direction *)
  Theorem C114_gamma_term_order : log_convex G -> forall k q q', (1 <= k)%nat -> q <= q' -> q' < INR k + 1 ->
    gamma_term G k q' <= gamma_term G k q.
  Proof.
    intros HC k q q' Hk L Hq'. assert (Pk : 0 < INR k) by (apply lt_0_INR; lia).
    set (Phi := fun t => ln (G (INR k + t)) - ln (G (INR k))).
    assert (X : forall q, gamma_term G k q = slope_at Phi (psi k) (1 - q)).
    { intros z. unfold gamma_term, slope_at, Phi. destruct (Req_EM_T z 1); destruct (Req_EM_T (1 - z) 0); try lra.
      replace (INR k + 1 - z) with (INR k + (1 - z)) by ring. reflexivity. }
    rewrite !X. clear X.
    assert (Z0 : Phi 0 = 0) by (unfold Phi; rewrite Rplus_0_r; ring).
    assert (Cv : forall s t z, - INR k < s -> - INR k < t -> 0 <= z <= 1 -> Phi (z * s + (1 - z) * t) <= z * Phi s + (1 - z) * Phi t).
    { intros s t z Ws Wt Hz. unfold Phi. pose proof (HC (INR k + s) (INR k + t) z ltac:(lra) ltac:(lra) Hz) as C.
      replace (z * (INR k + s) + (1 - z) * (INR k + t)) with (INR k + (z * s + (1 - z) * t)) in C by ring. lra. }
    apply (slope_at_mono Phi (INR k)); try assumption; try lra.
    apply (tangent_of Phi (INR k)); try assumption; try lra. unfold Phi.
    replace (psi k) with (psi k - 0) by ring.
    apply (derivable_pt_lim_minus (fun t => ln (G (INR k + t))) (fun _ => ln (G (INR k)))); [apply lnG_deriv; assumption|apply derivable_pt_lim_const].
  Qed.
  (** samples whose neighbours are all equally far: the estimate does not decrease *)
  Theorem C114_equidistant_refuted : log_convex G -> forall n d a k q q' r, table n d (rows2d a) -> (1 <= k < n)%nat -> 0 < r ->
    (forall t e, (t < n)%nat -> kth_neighbour (Some 2) n [rows2d a] k t e -> e = r) -> 0 < q -> q <= q' -> q' < INR k + 1 ->
    exists h h', renyi_entropy E (ex_args k q b) (FArr a) = Ok h /\ renyi_entropy E (ex_args k q' b) (FArr a) = Ok h' /\ h * U <= h' * U.
  Proof.
    intros HC n d a k q q' r T Hk Hr He Hq L Hq'.
    destruct (C114_renyi_range n d a k q r r T Hk ltac:(lra) Hr) as (h & H1 & H2); [intros t e Ht K; rewrite (He t e Ht K); lra|].
    destruct (C114_renyi_range n d a k q' r r T Hk ltac:(lra) Hr) as (h' & H1' & H2'); [intros t e Ht K; rewrite (He t e Ht K); lra|].
    exists h, h'. split; [exact H1|]. split; [exact H1'|]. pose proof (C114_gamma_term_order HC k q q' ltac:(lia) L Hq'). lra.
  Qed.
  (** two samples: the entropies of order 3/2 are larger than those of order 1/2 *)
  Theorem C114_order_refuted : exists r, 0 < r /\
    (exists h h', renyi_entropy E (ex_args 1 (1 / 2) b) (FArr (F1 [0; r])) = Ok h /\ renyi_entropy E (ex_args 1 (3 / 2) b) (FArr (F1 [0; r])) = Ok h' /\ h * U < h' * U) /\
    (exists h h', tsallis_entropy E (ex_args 1 (1 / 2) b) (FArr (F1 [0; r])) = Ok h /\ tsallis_entropy E (ex_args 1 (3 / 2) b) (FArr (F1 [0; r])) = Ok h' /\ h < h').
  Proof.
    exists (1 / 4). split; [lra|]. pose proof PI_RGT_0 as PP. pose proof (unit_ne b V) as UN.
    assert (T : table 2 1 (rows2d (F1 [0; 1 / 4]))) by (cbn; repeat constructor).
    assert (He : radii (Some 2) 2 [rows2d (F1 [0; 1 / 4])] 1 (fun _ => 1 / 4)).
    { destruct (radii_exist (Some 2) 2 [rows2d (F1 [0; 1 / 4])] 1 ltac:(lia)) as (es & He). intros t Ht.
      assert (X : es t = 1 / 4).
      { destruct (He t Ht) as ((u & Hu & Nu & ->) & _). rewrite jdist_1. cbn [rows2d map].
        destruct t as [|[|t]]; destruct u as [|[|u]]; try lia; cbn [nth]; rewrite dst1 by (cbn; lra); [rewrite Rabs_left|rewrite Rabs_right]; lra. }
      pose proof (He t Ht) as K. rewrite X in K. exact K. }
    assert (Hp : forall t : nat, (t < 2)%nat -> 0 < 1 / 4) by (intros; lra).
    destruct HG as (GP & G1 & Gh & GR).
    assert (G32 : G (3 / 2) = sqrt PI / 2) by (replace (3 / 2) with (1 / 2 + 1) by field; rewrite GR by lra; rewrite Gh; field).
    assert (SP : 0 < sqrt PI) by (apply sqrt_lt_R0; exact PP).
    assert (Pi2 : 2 < PI) by (pose proof PI2_1; lra).
    assert (K2 : INR 1 = 1) by reflexivity.
    assert (Ic : forall q, q < 2 -> lps_integral G (2 - 1) 1 1 q (map (fun _ => 1 / 4) (seq 0 2)) = 1 / G (2 - q) * exp (- ((1 - q) * ln 2))).
    { intros q Lq. pose proof (GP (2 - q) ltac:(lra)) as GQ. unfold lps_integral, mean. cbn [seq map length Nat.sub]. unfold sumR. cbn [sumf]. rewrite ball1, K2, G1. replace (1 + 1 - q) with (2 - q) by ring.
      unfold Rpower. replace (1 * (2 * (1 / 4))) with (/ 2) by field. rewrite ln_Rinv by lra. replace ((1 - q) * - ln 2) with (- ((1 - q) * ln 2)) by ring.
      replace (INR 2) with 2 by (cbn; ring). field. lra. }
    destruct (C78_value E b V (conj GP (conj G1 (conj Gh GR))) 2 1 (F1 [0; 1 / 4]) 1 (1 / 2) (fun _ => 1 / 4) T ltac:(lia) ltac:(cbn; lra) ltac:(lra) He Hp) as (P1 & R1 & T1).
    destruct (C78_value E b V (conj GP (conj G1 (conj Gh GR))) 2 1 (F1 [0; 1 / 4]) 1 (3 / 2) (fun _ => 1 / 4) T ltac:(lia) ltac:(cbn; lra) ltac:(lra) He Hp) as (P2 & R2 & T2).
    rewrite Ic in P1, R1, T1 by lra. rewrite Ic in P2, R2, T2 by lra. replace (2 - 1 / 2) with (3 / 2) in * by field. replace (2 - 3 / 2) with (1 / 2) in * by field. rewrite G32, Gh in *.
    set (j := exp (1 / 2 * ln 2)). assert (Pj : 0 < j) by apply exp_pos.
    assert (JJ : j * j = 2) by (unfold j; rewrite <- exp_plus; replace (1 / 2 * ln 2 + 1 / 2 * ln 2) with (ln 2) by field; apply exp_ln; lra).
    assert (SS : sqrt PI * sqrt PI = PI) by (apply sqrt_sqrt; lra).
    assert (JS : j < sqrt PI) by nra.
    set (i := j / sqrt PI). assert (I0 : 0 < i) by (apply Rdiv_lt_0_compat; assumption).
    assert (I1 : i < 1) by (apply Rmult_lt_reg_r with (sqrt PI); [exact SP|]; unfold i; replace (j / sqrt PI * sqrt PI) with j by (field; lra); lra).
    assert (E1 : 1 / (sqrt PI / 2) * exp (- ((1 - 1 / 2) * ln 2)) = i).
    { replace ((1 - 1 / 2) * ln 2) with (1 / 2 * ln 2) by field. rewrite exp_Ropp. fold j. unfold i. replace (1 / (sqrt PI / 2) * / j) with (2 * / j / sqrt PI) by (field; lra).
      rewrite <- JJ at 1. field. lra. }
    assert (E2 : 1 / sqrt PI * exp (- ((1 - 3 / 2) * ln 2)) = i).
    { replace (- ((1 - 3 / 2) * ln 2)) with (1 / 2 * ln 2) by field. fold j. unfold i. field. lra. }
    rewrite E1 in *. rewrite E2 in *.
    assert (LI : ln i < 0) by (rewrite <- ln_1; apply ln_increasing; assumption).
    split; do 2 eexists; (split; [eassumption|split; [eassumption|]]).
    - assert (Q : forall x c v, v <> 0 -> c <> 0 -> x / c / v * v = x / c) by (intros; field; auto).
      rewrite !Q by (exact UN || lra). replace (ln i / (1 - 1 / 2)) with (2 * ln i) by field. replace (ln i / (1 - 3 / 2)) with (- 2 * ln i) by field. lra.
    - replace ((1 - i) / (1 / 2 - 1)) with (- 2 * (1 - i)) by (field; lra). replace ((1 - i) / (3 / 2 - 1)) with (2 * (1 - i)) by (field; lra). lra.
  Qed.
End C114.

(** the hypotheses are met: four samples with distinct pairwise distances, and two samples *)
Example C114_example : exists E b n a k, valid_base b /\ is_gamma (gam E) /\ log_convex (gam E) /\ unit_of b <> 1 /\
  table n 1 (rows2d a) /\ (1 <= k < n)%nat /\ separated n k [rows2d a] /\ (0 < 1 / 2 /\ 1 / 2 <= 5 / 2 /\ 5 / 2 < INR k + 1).
Proof.
  exists (mkNenv gamma (fun _ => 0)), (BNum 2), 4%nat, (F1 [0; 1; 3; 7]), 2%nat.
  assert (N1 : NoDup [0; 1; 3; 7]) by (repeat constructor; cbn; intuition lra).
  split; [cbn; lra|]. split; [apply gamma_is_gamma|]. split; [apply gamma_log_convex|].
  split; [cbn; rewrite <- (ln_exp 1); intros X; apply ln_inv in X; [pose proof (exp_ineq1 1 ltac:(lra)); lra|lra|apply exp_pos]|].
  split; [cbn; repeat constructor|]. split; [lia|]. split; [apply distinct_separated; apply (distinct_1d _ N1)|cbn; lra].
Qed.
(** two samples at distance 2: every nearest neighbour is at distance 2 *)
Example C114_equidistant_example : table 2 1 (rows2d (F1 [1; 3])) /\
  (forall t e, (t < 2)%nat -> kth_neighbour (Some 2) 2 [rows2d (F1 [1; 3])] 1 t e -> e = 2).
Proof.
  split; [cbn; repeat constructor|]. intros t e Ht ((u & Hu & Nu & ->) & _). rewrite jdist_1. cbn [rows2d map].
  destruct t as [|[|t]]; destruct u as [|[|u]]; try lia; cbn [nth]; rewrite dst1 by (cbn; lra); [rewrite Rabs_left|rewrite Rabs_right]; lra.
Qed.
