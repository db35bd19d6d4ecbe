(** C64, C65: kernel cross-entropy, Kullback-Leibler and Jensen-Shannon divergence. *)
From Coq Require Import Reals Lra Lia List ZArith Arith Bool Permutation.
From Verif Require Import Res RSum Spec SpecTE SpecTEc SpecBase MBase PBase MTE PTE2 MPct MNorm MCont SpecKern MKern PKern PKern2 PKern3 PKern4 PKern5 PropsKern PropsKern2.
Import ListNotations.
Local Open Scope R_scope.

Lemma nref_nnear h rs t : (t < length rs)%nat -> nnear h (length rs) [rs] t = nref h rs (nth t rs []).
Proof.
  intros Ht. unfold nnear, nref. cbn [forallb].
  rewrite (filter_ext_in' _ (fun u => near h (nth t rs []) (nth u rs []))) by (intros; apply andb_true_r).
  rewrite <- (filter_map_length (fun u => nth u rs []) (near h (nth t rs []))).
  rewrite (map_nth_seq (fun u => u)), map_id. reflexivity.
Qed.

Lemma kdensity_ref h d rs t : (t < length rs)%nat -> kdensity h (length rs) d [rs] t = refdensity h d rs (nth t rs []).
Proof. intros Ht. unfold kdensity, refdensity. rewrite nref_nnear by exact Ht. reflexivity. Qed.

Lemma KH_points h d rs : KH h (length rs) d [rs] = mean (map (fun x => - ln (refdensity h d rs x)) rs).
Proof.
  unfold KH. f_equal. rewrite <- (map_nth_seq _ rs []). apply map_ext_in. intros t Ht. apply in_seq in Ht.
  rewrite kdensity_ref by lia. reflexivity.
Qed.

Lemma nref_le h ref x : (nref h ref x <= length ref)%nat.
Proof. apply filter_len. Qed.
Lemma nref_self h ref x : 0 < h -> In x ref -> (1 <= nref h ref x)%nat.
Proof.
  intros Hh Hx. unfold nref. assert (In x (filter (near h x) ref)) by (apply filter_In; split; [exact Hx|apply near_refl; exact Hh]).
  destruct (filter _ _); [contradiction|cbn; lia].
Qed.
Lemma refdensity_pos h d ref x : 0 < h -> (1 <= nref h ref x)%nat -> 0 < refdensity h d ref x.
Proof.
  intros Hh H. unfold refdensity. pose proof (nref_le h ref x).
  apply Rdiv_lt_0_compat; [|apply pow_lt; exact Hh]. apply Rdiv_lt_0_compat; apply lt_0_INR; lia.
Qed.

Lemma kde_at E h N d ref q w : 0 < h -> workers_ok w -> table N d ref -> (0 < N)%nat -> q <> [] -> Forall (fun p => length p = d) q ->
  kde E ref (BwNum h) (Some q) KBox w = Ok (squeeze (map (refdensity h d ref) q)).
Proof.
  intros Hh W [L F] HN Hq Fq. unfold kde. destruct (Rle_dec h 0) as [X|_]; [lra|].
  assert (WR : width ref = d) by (unfold width; destruct ref as [|p ref]; [cbn in L; lia|inversion F; assumption]).
  assert (WQ : width q = d) by (unfold width; destruct q as [|p q]; [congruence|inversion Fq; assumption]).
  rewrite WR, WQ, Nat.eqb_refl. cbn [bind].
  assert (WW : (Z.leb w 0 && negb (Z.eqb w (-1))) = false).
  { destruct W as [W| ->]; [|reflexivity]. destruct (Z.leb_spec w 0); [lia|reflexivity]. }
  rewrite WW. rewrite (mapM_ok _ (refdensity h d ref)); [reflexivity|].
  intros x _. unfold np_div. destruct (Req_EM_T _ _) as [X|_].
  - exfalso. apply Rmult_integral in X as [X|X]; [apply (not_0_INR (length ref)); [lia|exact X]|].
    revert X. apply pow_nonzero. lra.
  - f_equal. unfold refdensity, nref, ball_le.
    rewrite (filter_ext_in' (near h x) (fun y => if Rle_dec (dist MInf x y) (h / 2) then true else false))
      by (intros; apply near_dist; exact Hh).
    field. split; [apply not_0_INR; lia|apply pow_nonzero; lra].
Qed.

(** ** C64: cross-entropy: the mean over the samples of - ln (density of the reference); samples without any
    reference point in their box count as zero *)
Theorem C64_cross_entropy : forall E h w b n N d samples ref,
  0 < h -> (0 < cpus E)%Z -> workers_ok w -> valid_base b -> (2 <= n)%nat -> (1 <= N)%nat ->
  table n d (rows2d samples) -> table N d (rows2d ref) ->
  kernel_cross_entropy E (box_args h w b) samples ref =
  Ok (mean (map (fun x => if Nat.eqb (nref h (rows2d ref) x) 0 then 0 else - ln (refdensity h d (rows2d ref) x))
                (rows2d samples)) / unit_of b).
Proof.
  intros E h w b n N d samples ref Hh HC HW HV Hn HN Ts Tr. unfold kernel_cross_entropy. cbn [box_args k_bw k_kern k_base].
  set (q := rows2d samples) in *. set (rf := rows2d ref) in *.
  assert (Lq : length q = n) by apply Ts.
  assert (Hq : q <> []) by (intros X; rewrite X in Lq; cbn in Lq; lia).
  assert (HWW : workers_ok (n_workers E (box_args h w b))) by (apply n_workers_ok; auto).
  assert (HN' : (0 < N)%nat) by lia.
  rewrite (kde_at E h N d rf q _ Hh HWW Tr HN' Hq (proj2 Ts)).
  cbn [bind]. destruct (base_guard_ok b HV) as [-> _]. cbn [bind].
  rewrite squeeze_long by (rewrite map_length; lia).
  set (pos := fun p => if Rlt_dec 0 p then true else false).
  rewrite (mapM_ok _ (fun p => ln p / unit_of b)).
  2:{ intros p Hp. apply filter_In in Hp as [_ Hp]. unfold pos in Hp. destruct (Rlt_dec 0 p); [|discriminate].
      apply log_base_ok; assumption. }
  cbn [bind]. rewrite map_length, Lq. unfold np_div.
  destruct (Req_EM_T (INR n) 0) as [X|_]; [exfalso; apply (not_0_INR n); [lia|exact X]|].
  f_equal. rewrite mean_map, Lq. unfold sumR. rewrite sumf_map, sumf_div.
  rewrite (sumf_ext (fun x => if Nat.eqb (nref h rf x) 0 then 0 else - ln (refdensity h d rf x))
    (fun x => - (if Nat.eqb (nref h rf x) 0 then 0 else ln (refdensity h d rf x))))
    by (intros x _; destruct (Nat.eqb _ 0); ring).
  rewrite sumf_opp.
  assert (S : sumf ln (filter pos (map (refdensity h d rf) q))
     = sumf (fun x => if Nat.eqb (nref h rf x) 0 then 0 else ln (refdensity h d rf x)) q).
  { clear -Hh. induction q as [|x q IH]; [reflexivity|]. cbn [map filter sumf].
    destruct (Nat.eqb_spec (nref h rf x) 0) as [Z|Z].
    - assert (R0 : refdensity h d rf x = 0) by (unfold refdensity; rewrite Z; cbn [INR]; unfold Rdiv; ring).
      rewrite R0. unfold pos at 1. destruct (Rlt_dec 0 0); [lra|]. rewrite IH. ring.
    - pose proof (refdensity_pos h d rf x Hh ltac:(lia)) as P. unfold pos at 1. destruct (Rlt_dec 0 _); [|contradiction].
      cbn [sumf]. rewrite IH. reflexivity. }
  rewrite S. field. split; [apply not_0_INR; lia|apply unit_ne; exact HV].
Qed.

(** against itself: the entropy, so that the divergence vanishes *)
Theorem C64_self : forall E h w b n d a,
  0 < h -> (0 < cpus E)%Z -> workers_ok w -> valid_base b -> (2 <= n)%nat -> table n d (rows2d a) ->
  kernel_cross_entropy E (box_args h w b) a a = kernel_entropy E (box_args h w b) (FArr a) /\
  kernel_kld E (box_args h w b) a a = Ok 0.
Proof.
  intros E h w b n d a Hh HC HW HV Hn T.
  assert (X : kernel_cross_entropy E (box_args h w b) a a = Ok (KH h n d [rows2d a] / unit_of b)).
  { rewrite (C64_cross_entropy E h w b n n d a a) by (auto; lia). do 2 f_equal.
    rewrite <- (proj1 T). rewrite KH_points. f_equal. apply map_ext_in. intros x Hx.
    pose proof (nref_self h (rows2d a) x Hh Hx). destruct (Nat.eqb_spec (nref h (rows2d a) x) 0); [lia|reflexivity]. }
  pose proof (proj2 (C59_kernel_entropy E h w b Hh HC HW HV a n d Hn T)) as Y.
  split; [congruence|]. unfold kernel_kld. rewrite X, Y. cbn [bind]. f_equal. ring.
Qed.

(** where the first data set has mass and the second has none the divergence is neither infinite nor rejected; it
    can even be negative: here - ln 2 for disjoint supports *)
Theorem C64_kld_negative_refuted : forall E w, (0 < cpus E)%Z -> workers_ok w ->
  kernel_kld E (box_args 1 w BE) (F1 [0; 2]) (F1 [10; 12]) = Ok (- ln 2).
Proof.
  intros E w HC HW. unfold kernel_kld.
  assert (T1 : table 2 1 (rows2d (F1 [0; 2]))) by (split; repeat constructor).
  assert (T2 : table 2 1 (rows2d (F1 [10; 12]))) by (split; repeat constructor).
  rewrite (C64_cross_entropy E 1 w BE 2 2 1); auto; try lra; try exact Logic.I.
  rewrite (proj2 (C59_kernel_entropy E 1 w BE ltac:(lra) HC HW Logic.I (F1 [0; 2]) 2 1 ltac:(lia) T1)). cbn [bind unit_of].
  assert (N0 : nref 1 (rows2d (F1 [10; 12])) [0] = 0%nat) by (unfold nref; cbn [rows2d map filter]; repeat near_solve; reflexivity).
  assert (N2 : nref 1 (rows2d (F1 [10; 12])) [2] = 0%nat) by (unfold nref; cbn [rows2d map filter]; repeat near_solve; reflexivity).
  change (rows2d (F1 [0; 2])) with ([[0]; [2]] : list pt). cbn [map]. rewrite N0, N2. cbn [Nat.eqb].
  assert (A0 : nnear 1 2 [[[0]; [2]]] 0 = 1%nat) by nnear_calc.
  assert (A1 : nnear 1 2 [[[0]; [2]]] 1 = 1%nat) by nnear_calc.
  unfold KH. cbn [seq map]. unfold kdensity. rewrite A0, A1. unfold mean, sumR. cbn [sumf length INR pow].
  replace (1 / (1 + 1) / (1 * 1)) with (/ 2) by field. rewrite ln_Rinv by lra. f_equal. field.
Qed.

(** ** C65: Jensen-Shannon divergence *)
Lemma fconcat_F2 vs d ns : vs <> [] -> Forall2 (fun n v => (0 < n)%nat /\ table n d v) ns vs -> fconcat (map F2 vs) = Ok (F2 (concat vs)).
Proof.
  intros Hv F.
  assert (W : Forall (fun v => width v = d) vs).
  { clear Hv. induction F as [|n v ns vs [Hn T] F IH]; constructor; [|exact IH].
    destruct T as [L T]. unfold width. destruct v; [cbn in L; lia|]. inversion T. cbn [hd]. assumption. }
  destruct vs as [|v vs]; [congruence|]. cbn [map fconcat]. change (F2 v :: map F2 vs) with (map F2 (v :: vs)).
  rewrite mapM_map. rewrite (mapM_ok _ (fun v => v)); [rewrite map_id; reflexivity|].
  intros x Hx. rewrite Forall_forall in W. rewrite (W x Hx), (W v (or_introl eq_refl)), Nat.eqb_refl. reflexivity.
Qed.

Lemma fconcat_F1 xs : xs <> [] -> fconcat (map F1 xs) = Ok (F1 (concat xs)).
Proof.
  intros Hx. destruct xs as [|x xs]; [congruence|]. cbn [map fconcat]. change (F1 x :: map F1 xs) with (map F1 (x :: xs)).
  rewrite mapM_map. rewrite (mapM_ok _ (fun v => v)); [rewrite map_id; reflexivity|]. intros; reflexivity.
Qed.

Lemma kernel_entropy_F1 E a xs : kernel_entropy E a (FArr (F1 xs)) = kernel_entropy E a (FArr (F2 (pts xs))).
Proof. reflexivity. Qed.

(** one-dimensional data sets are data sets of one-coordinate points *)
Theorem C65_one_dimensional : forall E a (xs : list (list R)), xs <> [] -> Forall (fun x => x <> []) xs ->
  kernel_jsd E a (map F1 xs) = kernel_jsd E a (map F2 (map pts xs)).
Proof.
  intros E a xs Hx F. unfold kernel_jsd. rewrite fconcat_F1 by exact Hx.
  rewrite (fconcat_F2 (map pts xs) 1 (map (@length R) xs)).
  - cbn [bind]. rewrite kernel_entropy_F1. unfold pts at 1. rewrite concat_map. fold pts.
    change (map (map (fun x => [x])) xs) with (map pts xs).
    rewrite !mapM_map, !map_length. cbn [rows2d].
    replace (mapM (fun x => kernel_entropy E a (FArr (F1 x))) xs) with (mapM (fun x => kernel_entropy E a (FArr (F2 (pts x)))) xs); [reflexivity|].
    clear. induction xs as [|x xs IH]; [reflexivity|]. cbn [mapM]. rewrite IH. reflexivity.
  - destruct xs; [congruence|discriminate].
  - clear Hx. induction F as [|x xs Hx F IH]; cbn [map]; constructor; [|exact IH].
    split; [destruct x; [congruence|cbn; lia]|]. apply pts_table. reflexivity.
Qed.

Definition KHp (h : R) (d : nat) (rs : list pt) : R := mean (map (fun x => - ln (refdensity h d rs x)) rs).

Lemma kernel_jsd_ok E h w b d ns vs : 0 < h -> (0 < cpus E)%Z -> workers_ok w -> valid_base b -> vs <> [] ->
  Forall2 (fun n v => (2 <= n)%nat /\ table n d v) ns vs ->
  kernel_jsd E (box_args h w b) (map F2 vs) =
  Ok ((KHp h d (concat vs) - sumR (map (KHp h d) vs) / INR (length vs)) / unit_of b).
Proof.
  intros Hh HC HW HV Hv F. unfold kernel_jsd.
  assert (F' : Forall2 (fun n v => (0 < n)%nat /\ table n d v) ns vs).
  { clear -F. induction F as [|n v ns vs [Hn T] F IH]; constructor; [split; [lia|exact T]|exact IH]. }
  rewrite (fconcat_F2 vs d ns Hv F'). cbn [bind].
  assert (TC : table (length (concat vs)) d (concat vs) /\ (2 <= length (concat vs))%nat).
  { split.
    - split; [reflexivity|]. clear -F. induction F as [|n v ns vs [_ [_ T]] F IH]; [constructor|]. cbn. apply Forall_app. split; assumption.
    - destruct F as [|n v ns vs [Hn [L _]] F]; [congruence|]. cbn. rewrite app_length. lia. }
  destruct TC as [TC LC].
  rewrite (proj2 (C59_kernel_entropy E h w b Hh HC HW HV (F2 (concat vs)) _ d LC TC)). cbn [bind rows2d].
  rewrite KH_points. fold (KHp h d (concat vs)).
  rewrite mapM_map. rewrite (mapM_ok _ (fun v => KHp h d v / unit_of b)).
  - cbn [bind]. f_equal. rewrite map_length.
    assert (S : sumR (map (fun v => KHp h d v / unit_of b) vs) = sumR (map (KHp h d) vs) / unit_of b).
    { clear. induction vs as [|v vs IH]; unfold sumR in *; cbn [map sumf]; [unfold Rdiv; ring|]. rewrite IH. unfold Rdiv. ring. }
    rewrite S. unfold Rdiv. ring.
  - intros v Hv'. assert (T : exists n, (2 <= n)%nat /\ table n d v).
    { clear -F Hv'. induction F as [|n x ns vs H F IH]; [contradiction|]. destruct Hv' as [->|Hv']; [exists n; exact H|auto]. }
    destruct T as (n & Hn & T).
    rewrite (proj2 (C59_kernel_entropy E h w b Hh HC HW HV (F2 v) n d Hn T)). cbn [rows2d].
    rewrite <- (proj1 T), KH_points. reflexivity.
Qed.

Lemma nref_app h a c x : nref h (a ++ c) x = (nref h a x + nref h c x)%nat.
Proof. unfold nref. rewrite filter_app, app_length. reflexivity. Qed.
Lemma nref_concat_ge h v vs x : In v vs -> (nref h v x <= nref h (concat vs) x)%nat.
Proof.
  induction vs as [|u vs IH]; intros H; [contradiction|]. cbn [concat]. rewrite nref_app.
  destruct H as [->|H]; [lia|]. specialize (IH H). lia.
Qed.
Lemma length_concat_eq {A} (vs : list (list A)) n : Forall (fun v => length v = n) vs -> length (concat vs) = (length vs * n)%nat.
Proof. induction 1 as [|v vs L F IH]; cbn; [reflexivity|]. rewrite app_length, IH, L. reflexivity. Qed.

(** order of the data sets *)
Theorem C65_symmetric : forall E h w b d ns vs vs',
  0 < h -> (0 < cpus E)%Z -> workers_ok w -> valid_base b -> vs <> [] ->
  Forall2 (fun n v => (2 <= n)%nat /\ table n d v) ns vs -> Permutation vs vs' ->
  exists v, kernel_jsd E (box_args h w b) (map F2 vs) = Ok v /\ kernel_jsd E (box_args h w b) (map F2 vs') = Ok v.
Proof.
  intros E h w b d ns vs vs' Hh HC HW HV Hv F P.
  assert (F' : exists ns', Forall2 (fun n v => (2 <= n)%nat /\ table n d v) ns' vs').
  { apply Forall2_swap in F. destruct (Permutation_Forall2 P F) as (ns' & _ & F'). exists ns'. apply Forall2_swap in F'. exact F'. }
  destruct F' as (ns' & F').
  assert (Hv' : vs' <> []) by (intros ->; apply Permutation_sym, Permutation_nil in P; congruence).
  eexists. split; [apply (kernel_jsd_ok E h w b d ns vs Hh HC HW HV Hv F)|].
  rewrite (kernel_jsd_ok E h w b d ns' vs' Hh HC HW HV Hv' F'). do 2 f_equal.
  rewrite (Permutation_length P). f_equal; [|unfold sumR; rewrite (sumf_perm' _ _ _ (Permutation_map (KHp h d) P)); reflexivity].
  assert (PC : Permutation (concat vs) (concat vs')).
  { clear -P. induction P; cbn; auto; [apply Permutation_app_head; assumption| |etransitivity; eassumption].
    rewrite !app_assoc. apply Permutation_app_tail. apply Permutation_app_comm. }
  unfold KHp. rewrite !mean_map, (Permutation_length PC). f_equal.
  rewrite (sumf_perm' _ _ _ (Permutation_sym PC)). apply sumf_ext. intros x _. unfold refdensity, nref.
  rewrite (perm_filter_len _ _ _ PC), (Permutation_length PC). reflexivity.
Qed.

(** equal data sets: zero *)
Theorem C65_zero_for_equal : forall E h w b n d v k,
  0 < h -> (0 < cpus E)%Z -> workers_ok w -> valid_base b -> (2 <= n)%nat -> table n d v -> (1 <= k)%nat ->
  kernel_jsd E (box_args h w b) (map F2 (repeat v k)) = Ok 0.
Proof.
  intros E h w b n d v k Hh HC HW HV Hn T Hk.
  rewrite (kernel_jsd_ok E h w b d (repeat n k) (repeat v k)); auto.
  2:{ destruct k; [lia|discriminate]. }
  2:{ clear Hk. induction k; cbn; constructor; auto. }
  f_equal. rewrite repeat_length.
  assert (HL : length v = n) by apply T.
  assert (KR : forall x, nref h (concat (repeat v k)) x = (k * nref h v x)%nat).
  { intros x. clear. induction k; [reflexivity|]. cbn [repeat concat]. rewrite nref_app, IHk. reflexivity. }
  assert (LR : length (concat (repeat v k)) = (k * n)%nat).
  { rewrite (length_concat_eq _ n), repeat_length; [reflexivity|]. apply Forall_forall. intros u Hu. apply repeat_spec in Hu. subst u. exact HL. }
  assert (RD : forall x, refdensity h d (concat (repeat v k)) x = refdensity h d v x).
  { intros x. unfold refdensity. rewrite KR, LR, HL, !mult_INR. field.
    repeat split; try (apply pow_nonzero; lra); apply not_0_INR; lia. }
  assert (S1 : KHp h d (concat (repeat v k)) = KHp h d v).
  { unfold KHp. rewrite !mean_map, LR, HL. rewrite (sumf_ext _ (fun x => - ln (refdensity h d v x))) by (intros; rewrite RD; reflexivity).
    assert (SR : forall f : pt -> R, sumf f (concat (repeat v k)) = INR k * sumf f v).
    { intros f. clear. induction k; [cbn; ring|]. cbn [repeat concat]. rewrite sumf_app, IHk, S_INR. ring. }
    rewrite SR, mult_INR. field. split; apply not_0_INR; lia. }
  assert (S2 : sumR (map (KHp h d) (repeat v k)) = INR k * KHp h d v).
  { unfold sumR. clear. induction k; [cbn; ring|]. cbn [repeat map sumf]. rewrite IHk, S_INR. ring. }
  rewrite S1, S2. field. split; [apply not_0_INR; lia|apply unit_ne; exact HV].
Qed.

(** data sets of equal size: at most ln (number of data sets) *)
Theorem C65_upper_bound : forall E h w b n d vs,
  0 < h -> (0 < cpus E)%Z -> workers_ok w -> valid_base b -> big_base b -> (2 <= n)%nat -> vs <> [] ->
  Forall (fun v => table n d v) vs ->
  exists v, kernel_jsd E (box_args h w b) (map F2 vs) = Ok v /\ v <= ln (INR (length vs)) / unit_of b.
Proof.
  intros E h w b n d vs Hh HC HW HV HB Hn Hv F.
  assert (F2' : Forall2 (fun n v => (2 <= n)%nat /\ table n d v) (map (fun _ => n) vs) vs).
  { clear Hv. induction F; cbn; constructor; auto. }
  eexists. split; [apply (kernel_jsd_ok E h w b d _ vs Hh HC HW HV Hv F2')|].
  pose proof (unit_pos b HV HB) as U. unfold Rdiv at 1 3. apply Rmult_le_compat_r; [left; apply Rinv_0_lt_compat; exact U|].
  set (m := length vs). assert (Hm : 0 < INR m) by (apply lt_0_INR; unfold m; destruct vs; [congruence|cbn; lia]).
  assert (HN : 0 < INR n) by (apply lt_0_INR; lia).
  assert (LC : length (concat vs) = (m * n)%nat).
  { apply length_concat_eq. eapply Forall_impl; [|exact F]. intros v T. apply T. }
  assert (G : forall v x, In v vs -> In x v -> - ln (refdensity h d (concat vs) x) <= - ln (refdensity h d v x) + ln (INR m)).
  { intros v x Hv' Hx. assert (Lv : length v = n) by (rewrite Forall_forall in F; apply F; exact Hv').
    pose proof (nref_self h v x Hh Hx) as N1. pose proof (nref_concat_ge h v vs x Hv') as N2.
    pose proof (le_INR _ _ N1) as N1'. cbn [INR] in N1'. apply le_INR in N2.
    assert (D : refdensity h d v x / INR m <= refdensity h d (concat vs) x).
    { unfold refdensity. rewrite LC, Lv, mult_INR. pose proof (pow_lt h d Hh).
      replace (INR (nref h v x) / INR n / h ^ d / INR m) with (INR (nref h v x) * / (INR m * INR n) * / h ^ d) by (field; lra).
      unfold Rdiv. apply Rmult_le_compat_r; [left; apply Rinv_0_lt_compat; lra|].
      apply Rmult_le_compat_r; [left; apply Rinv_0_lt_compat; nra|exact N2]. }
    pose proof (refdensity_pos h d v x Hh N1) as P.
    assert (P2 : 0 < refdensity h d v x / INR m) by (apply Rdiv_lt_0_compat; assumption).
    assert (L : ln (refdensity h d v x / INR m) <= ln (refdensity h d (concat vs) x)).
    { destruct D as [D|D]; [left; apply ln_increasing; assumption|rewrite D; lra]. }
    unfold Rdiv in L. rewrite ln_mult, ln_Rinv in L; try assumption; [lra|apply Rinv_0_lt_compat; exact Hm]. }
  assert (S : sumf (fun x => - ln (refdensity h d (concat vs) x)) (concat vs)
    <= sumR (map (fun v => INR n * (KHp h d v + ln (INR m))) vs)).
  { assert (Gen : forall us, incl us vs -> sumf (fun x => - ln (refdensity h d (concat vs) x)) (concat us)
       <= sumR (map (fun v => INR n * (KHp h d v + ln (INR m))) us)).
    { induction us as [|u us IH]; intros I; [cbn; unfold sumR; cbn; lra|].
      unfold sumR in *. cbn [concat map sumf]. rewrite sumf_app.
      assert (Hu : In u vs) by (apply I; left; reflexivity).
      assert (Lu : length u = n) by (rewrite Forall_forall in F; apply F; exact Hu).
      specialize (IH ltac:(intros y Hy; apply I; right; exact Hy)).
      assert (X : sumf (fun x => - ln (refdensity h d (concat vs) x)) u <= sumf (fun x => - ln (refdensity h d u x) + ln (INR m)) u)
        by (apply sumf_le; intros x Hx; apply G; assumption).
      rewrite sumf_plus, sumf_const, Lu in X.
      replace (INR n * (KHp h d u + ln (INR m))) with (sumf (fun x => - ln (refdensity h d u x)) u + INR n * ln (INR m)); [lra|].
      unfold KHp. rewrite mean_map, Lu. field. lra. }
    apply Gen. intros y Hy. exact Hy. }
  unfold KHp at 1. rewrite mean_map, LC, mult_INR.
  assert (S2 : sumR (map (fun v => INR n * (KHp h d v + ln (INR m))) vs)
     = INR n * (sumR (map (KHp h d) vs) + INR m * ln (INR m))).
  { unfold m. clear. generalize (ln (INR (length vs))) as c. intros c. induction vs as [|v vs IH]; [cbn; unfold sumR; cbn; ring|].
    unfold sumR in *. cbn [map sumf]. rewrite IH. change (length (v :: vs)) with (S (length vs)). rewrite S_INR. ring. }
  rewrite S2 in S.
  apply (Rmult_le_reg_r (INR m * INR n)); [nra|].
  replace ((sumf (fun x => - ln (refdensity h d (concat vs) x)) (concat vs) / (INR m * INR n) - sumR (map (KHp h d) vs) / INR m) * (INR m * INR n))
    with (sumf (fun x => - ln (refdensity h d (concat vs) x)) (concat vs) - INR n * sumR (map (KHp h d) vs)) by (field; lra).
  lra.
Qed.

(** unlike the divergence it estimates, the value can be negative *)
Theorem C65_negative_refuted : forall E w, (0 < cpus E)%Z -> workers_ok w ->
  exists v, kernel_jsd E (box_args (6 / 5) w BE) [F2 [[0]; [1]]; F2 [[1 / 2]; [1 / 2]]] = Ok v /\ v < 0.
Proof.
  intros E w HC HW.
  set (A := [[0]; [1]] : list pt). set (B := [[1 / 2]; [1 / 2]] : list pt).
  assert (F : Forall2 (fun n v => (2 <= n)%nat /\ table n 1 v) [2; 2]%nat [A; B]).
  { repeat constructor. }
  eexists. split; [apply (kernel_jsd_ok E (6 / 5) w BE 1 [2; 2]%nat [A; B] ltac:(lra) HC HW Logic.I ltac:(discriminate) F)|].
  unfold KHp, sumR. cbn [concat map app sumf]. unfold A at 1 2 3, B at 1 2 3. cbn [app map]. unfold refdensity.
  assert (C0 : nref (6 / 5) [[0]; [1]; [1 / 2]; [1 / 2]] [0] = 3%nat) by (unfold nref; cbn [filter]; repeat near_solve; reflexivity).
  assert (C1 : nref (6 / 5) [[0]; [1]; [1 / 2]; [1 / 2]] [1] = 3%nat) by (unfold nref; cbn [filter]; repeat near_solve; reflexivity).
  assert (C2 : nref (6 / 5) [[0]; [1]; [1 / 2]; [1 / 2]] [1 / 2] = 4%nat) by (unfold nref; cbn [filter]; repeat near_solve; reflexivity).
  assert (A0 : nref (6 / 5) A [0] = 1%nat) by (unfold nref, A; cbn [filter]; repeat near_solve; reflexivity).
  assert (A1 : nref (6 / 5) A [1] = 1%nat) by (unfold nref, A; cbn [filter]; repeat near_solve; reflexivity).
  assert (B0 : nref (6 / 5) B [1 / 2] = 2%nat) by (unfold nref, B; cbn [filter]; repeat near_solve; reflexivity).
  unfold A at 1, B at 1. cbn [map length]. rewrite ?C0, ?C1, ?C2.
  fold A B. rewrite A0, A1, B0. unfold mean, sumR. cbn [sumf length]. unfold A, B. cbn [length].
  assert (L : forall c k, 0 < c -> 0 < k -> ln (c / k / (6 / 5) ^ 1) = ln c - ln k - ln (6 / 5)).
  { intros c k Hc Hk. rewrite pow_1. unfold Rdiv at 1 2. rewrite !ln_mult, !ln_Rinv; try lra; try (apply Rinv_0_lt_compat; lra).
    apply Rmult_lt_0_compat; [lra|apply Rinv_0_lt_compat; lra]. }
  replace (INR 1) with 1 by reflexivity. replace (INR 2) with 2 by (cbn; lra). replace (INR 3) with 3 by (cbn; lra). replace (INR 4) with 4 by (cbn; lra).
  rewrite !L by lra. cbn [unit_of]. rewrite ln_1.
  assert (L4 : ln 4 = 2 * ln 2) by (replace 4 with (2 * 2) by ring; rewrite ln_mult by lra; ring).
  rewrite L4.
  assert (ln 2 < ln 3) by (apply ln_increasing; lra).
  assert (ln 8 < ln 9) by (apply ln_increasing; lra).
  assert (L8 : ln 8 = 3 * ln 2) by (replace 8 with (2 * 2 * 2) by ring; rewrite !ln_mult by lra; ring).
  assert (L9 : ln 9 = 2 * ln 3) by (replace 9 with (3 * 3) by ring; rewrite ln_mult by lra; ring).
  lra.
Qed.
