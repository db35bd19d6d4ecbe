(** Property theorems C107: the discrete entropy in double precision. *)
From Coq Require Import Reals Lra Lia List ZArith Arith Bool Permutation Psatz Sorted.
From Flocq Require Import Core Relative.
From Verif Require Import Res RSum Spec SpecBase SpecEst SpecInput Info Info2 Ord MBase MData MEntropy PBase PEntropy PEst PEst5 POrd2 MFloat SpecFloat PFloat PFloat2.
Import ListNotations.
Local Open Scope R_scope.

Lemma one_value (xs : list Z) : xs <> [] -> (Forall (fun v => count xs v = length xs) (unique xs) <-> forall x y, In x xs -> In y xs -> x = y).
Proof.
  intros NE. rewrite Forall_forall. split.
  - intros Q x y Hx Hy. destruct (Z.eq_dec x y) as [e|n]; [exact e|exfalso].
    pose proof (Q x (proj2 (unique_In xs x) Hx)) as Qx. pose proof (proj1 (count_occ_In Z.eq_dec xs y) Hy) as Cy.
    unfold count in Qx. change (@eq_dec Z _) with Z.eq_dec in Qx. clear Q Hx Hy NE. induction xs as [|z zs IH]; [simpl in Cy; lia|].
    pose proof (count_occ_bound Z.eq_dec x zs). cbn [count_occ length] in Qx, Cy.
    destruct (Z.eq_dec z x) as [->|zx]; [|lia]. destruct (Z.eq_dec x y); [contradiction|]. apply IH; lia.
  - intros Q v Hv. apply (proj1 (unique_In xs v)) in Hv. unfold count. change (@eq_dec Z _) with Z.eq_dec.
    assert (G : forall ys, incl ys xs -> count_occ Z.eq_dec ys v = length ys).
    { induction ys as [|y ys IH]; intros I0; [reflexivity|]. cbn [count_occ length]. destruct (Z.eq_dec y v) as [_|n].
      - f_equal. apply IH. intros a Ha. apply I0. right. exact Ha.
      - exfalso. apply n. apply Q; [apply I0; left; reflexivity|exact Hv]. }
    apply G, incl_refl.
Qed.

(** the exact plug-in entropy, up to rounding; never negative; zero exactly for constant data *)
Theorem C107_entropy_float : forall E eps b i,
  accurate eps E -> 0 <= eps <= / 10 -> float_base b -> usable i -> (Z.of_nat (input_size i) <= 2 ^ 53)%Z ->
  exists h hf, entropy_discrete b i = Ok h /\ f_entropy E b i = Ok hf /\
    0 <= hf /\ (hf = 0 <-> forall r s, In r (sample i) -> In s (sample i) -> r = s) /\
    let g := gam E b eps (length (distinct (sample i))) in
    Rabs (hf - h) <= g * h + (1 + g) * (2 * uro / unit_of b).
Proof.
  intros E eps b i Ac Ee Fb U NB. destruct (usable_data i U) as (xs & D & NE & SP & L). rewrite <- L in NB.
  destruct (f_plogp_bounds E eps b xs Ac Ee Fb NE NB) as (hf & H1 & H2 & H3 & H4). cbv zeta in H4.
  assert (EE : Ent (sample i) = Ent xs) by (apply Ent_partition; exact SP).
  exists (Ent xs / unit_of b), hf. split.
  { unfold entropy_discrete. rewrite D. cbn [bind]. apply discrete_simple_ok. apply big_valid, float_big, Fb. }
  split; [unfold f_entropy; rewrite D; cbn [bind]; exact H1|]. split; [exact H2|]. split.
  - rewrite H3, (one_value xs NE). rewrite <- (Ent_zero_iff xs NE), <- EE. apply Ent_zero_iff. apply sample_ne, U.
  - cbv zeta. replace (length (distinct (sample i))) with (length (unique xs)); [exact H4|].
    rewrite unique_length. symmetry. exact (nvals_partition _ _ SP).
Qed.
Print Assumptions C107_entropy_float.

(** local values *)
Lemma f_lookup xs : lookup_data (combine (dd_uniq (dd_of xs)) (f_probabilities (dd_of xs))) (dd_of xs) =
  Ok (map (fun v => f_prob (Z.of_nat (count xs v)) (Z.of_nat (length xs))) xs).
Proof.
  unfold lookup_data. cbn [dd_data dd_of]. apply mapM_ok. intros x Hx. unfold dget_exn. rewrite f_probs_dd. cbn [dd_uniq dd_of].
  rewrite dget_combine by (apply unique_In; exact Hx). reflexivity.
Qed.

Theorem C107_local_float : forall E eps b i,
  accurate eps E -> 0 <= eps <= / 10 -> float_base b -> usable i -> (Z.of_nat (input_size i) <= 2 ^ 53)%Z ->
  exists ls, f_local E b i = Ok ls /\ length ls = input_size i /\
    forall t, (t < input_size i)%nat ->
      let p := prob (sample i) (nth t (sample i) []) in let l := - ln p / unit_of b in let e := base_eps b eps in
      0 <= nth t ls 0 /\ (nth t ls 0 = 0 <-> p = 1) /\
      Rabs (nth t ls 0 - l) <= e * l + (1 + e) * (2 * uro / unit_of b).
Proof.
  intros E eps b i Ac Ee Fb U NB. destruct (usable_data i U) as (xs & D & NE & SP & L). rewrite <- L in *.
  assert (SL : length (sample i) = length xs) by apply SP.
  pose proof (base_eps_range b eps Ee) as BR. pose proof uro_pos as U0. pose proof (unit_range b Fb) as UR.
  set (q := fun v => f_prob (Z.of_nat (count xs v)) (Z.of_nat (length xs))).
  assert (T : forall v, In v xs -> exists w, f_log_base E b (q v) = Ok w /\ 0 <= - w /\ (w = 0 <-> prob xs v = 1) /\
     let l := - ln (prob xs v) / unit_of b in let e := base_eps b eps in Rabs (- w - l) <= e * l + (1 + e) * (2 * uro / unit_of b)).
  { intros v Hv. assert (Hu : In v (unique xs)) by (apply unique_In; exact Hv).
    destruct (term_bounds E eps b _ _ Ac Ee Fb (counts_range xs v Hu) NB) as (w & Hw & B0 & B1 & B2 & B3 & _). cbv zeta in B0, B2. rewrite <- prob_IZR in B0, B2.
    exists w. split; [exact Hw|]. split; [exact B1|]. split.
    - rewrite B3. unfold prob. assert (N0 : INR (length xs) <> 0) by (apply not_0_INR; destruct xs; [congruence|discriminate]). split; intros Q.
      + apply Nat2Z.inj in Q. rewrite Q. field. exact N0.
      + f_equal. apply INR_eq. apply (Rmult_eq_reg_r (/ INR (length xs))); [|apply Rinv_neq_0_compat; exact N0]. rewrite Rinv_r by exact N0. exact Q.
    - cbv zeta. set (l := - ln (prob xs v) / unit_of b) in *. set (e := base_eps b eps) in *. set (dl := 2 * uro / unit_of b) in *.
      assert (dl0 : 0 < dl) by (unfold dl; apply Rdiv_lt_0_compat; lra). assert (0 <= e * dl) by (apply Rmult_le_pos; lra). apply Rabs_le. lra. }
  exists (map (fun v => - logof E b (q v)) xs). split.
  - unfold f_local. rewrite D. cbn [bind]. rewrite f_lookup. cbn [bind]. fold q. rewrite (mapM_ok _ (logof E b)).
    + cbn [bind]. rewrite !map_map. reflexivity.
    + intros x Hx. apply in_map_iff in Hx. destruct Hx as (v & <- & Hv). destruct (T v Hv) as (w & Hw & _). rewrite (logof_ok _ _ _ _ Hw). exact Hw.
  - rewrite map_length. split; [reflexivity|]. intros t Ht. cbv zeta.
    assert (PE : prob (sample i) (nth t (sample i) []) = prob xs (nth t xs 0%Z)).
    { unfold prob. rewrite SL, (count_nth_partition (sample i) xs [] 0%Z t SP) by lia. reflexivity. }
    rewrite PE. destruct (T (nth t xs 0%Z) (nth_In xs 0%Z Ht)) as (w & Hw & B1 & B2 & B3). cbv zeta in B3.
    assert (NT : nth t (map (fun v => - logof E b (q v)) xs) 0 = - w).
    { rewrite (nth_indep _ 0 (- logof E b (q 0%Z))) by (rewrite map_length; exact Ht). rewrite (map_nth (fun v => - logof E b (q v))). rewrite (logof_ok _ _ _ _ Hw). reflexivity. }
    rewrite NT. split; [exact B1|]. split; [|exact B3]. rewrite <- B2. split; lra.
Qed.
Print Assumptions C107_local_float.

(** ** bit-for-bit invariances, for any summation order and any logarithms *)
Lemma unique_by_members (xs ys : list Z) : (forall v, In v xs <-> In v ys) -> unique xs = unique ys.
Proof.
  intros Q. apply (sorted_unique (@Ord.lt Z _)); [|apply unique_sorted|apply unique_sorted|].
  - intros x y A B. exact (lt_irrefl x (lt_trans x y x A B)).
  - apply NoDup_Permutation; [apply unique_NoDup|apply unique_NoDup|]. intros v. rewrite !unique_In. apply Q.
Qed.
Lemma f_entropy_1d E b xs : xs <> [] -> f_entropy E b (EArr (A1 xs)) = f_plogp E b (f_probabilities (dd_of xs)).
Proof. intros NE. unfold f_entropy. cbn [make_data]. rewrite from_data_dd by exact NE. reflexivity. Qed.

(** reordering the sample changes no bit of the result *)
Theorem C107_order_bitwise : forall E b xs ys, Permutation xs ys -> f_entropy E b (EArr (A1 xs)) = f_entropy E b (EArr (A1 ys)).
Proof.
  intros E b xs ys P. destruct xs as [|x0 xr]; [apply Permutation_nil in P; subst; reflexivity|]. set (xs := x0 :: xr) in *.
  assert (NX : xs <> []) by discriminate. assert (NY : ys <> []) by (intros ->; apply Permutation_sym, Permutation_nil in P; discriminate).
  rewrite !f_entropy_1d by assumption. rewrite !f_probs_dd. f_equal.
  rewrite (unique_by_members xs ys) by (intros v; split; [apply Permutation_in; exact P|apply Permutation_in, Permutation_sym; exact P]).
  rewrite (Permutation_length P). apply map_ext. intros v. rewrite (count_perm xs ys v P). reflexivity.
Qed.
Print Assumptions C107_order_bitwise.

(** renaming the symbols without changing their order changes no bit *)
Theorem C107_rename_bitwise : forall E b (f : Z -> Z) xs, (forall x y, In x xs -> In y xs -> (x < y)%Z -> (f x < f y)%Z) ->
  f_entropy E b (EArr (A1 (map f xs))) = f_entropy E b (EArr (A1 xs)).
Proof.
  intros E b f xs M. destruct (list_eq_dec Z.eq_dec xs []) as [->|NE]; [reflexivity|].
  assert (NF : map f xs <> []) by (destruct xs; [congruence|discriminate]).
  assert (INJ : forall x y, In x xs -> In y xs -> f x = f y -> x = y).
  { intros x y Hx Hy Q. destruct (Z.lt_trichotomy x y) as [l|[e|l]]; [pose proof (M x y Hx Hy l); lia|exact e|pose proof (M y x Hy Hx l); lia]. }
  assert (UM : unique (map f xs) = map f (unique xs)).
  { apply (sorted_unique (@Ord.lt Z _)).
    - intros x y A B. exact (lt_irrefl x (lt_trans x y x A B)).
    - apply unique_sorted.
    - assert (G : forall l, incl l xs -> StronglySorted (@Ord.lt Z _) l -> StronglySorted (@Ord.lt Z _) (map f l)).
      { induction l as [|v l IH]; intros I0 S0; [constructor|]. inversion S0 as [|? ? S1 F1]; subst. cbn [map]. constructor.
        - apply IH; [intros a Ha; apply I0; right; exact Ha|exact S1].
        - rewrite Forall_forall in *. intros w Hw. apply in_map_iff in Hw. destruct Hw as (a & <- & Ha). specialize (F1 a Ha).
          apply Z.compare_lt_iff in F1. apply Z.compare_lt_iff. apply M; [apply I0; left; reflexivity|apply I0; right; exact Ha|exact F1]. }
      apply G; [intros v Hv; exact (proj1 (unique_In xs v) Hv)|apply unique_sorted].
    - apply NoDup_Permutation; [apply unique_NoDup| |].
      + assert (G : forall l, incl l xs -> NoDup l -> NoDup (map f l)).
        { induction l as [|v l IH]; intros I0 N0; [constructor|]. inversion N0 as [|? ? N1 N2]; subst. cbn [map]. constructor.
          - intros Hv. apply in_map_iff in Hv. destruct Hv as (a & Q & Ha). apply N1. rewrite <- (INJ a v); [exact Ha|apply I0; right; exact Ha|apply I0; left; reflexivity|exact Q].
          - apply IH; [intros a Ha; apply I0; right; exact Ha|exact N2]. }
        apply G; [intros v Hv; exact (proj1 (unique_In xs v) Hv)|apply unique_NoDup].
      + intros v. rewrite unique_In, !in_map_iff. split; intros (a & Q & Ha); exists a; (split; [exact Q|]); apply unique_In; exact Ha. }
  rewrite !f_entropy_1d by assumption. rewrite !f_probs_dd, UM, map_map, map_length. f_equal. apply map_ext_in. intros v Hv.
  assert (Hx : In v xs) by exact (proj1 (unique_In xs v) Hv). f_equal. f_equal. clear UM NF NE M Hv.
  assert (G : forall l, incl l xs -> count_occ Z.eq_dec (map f l) (f v) = count_occ Z.eq_dec l v).
  { induction l as [|a l IH]; intros I0; [reflexivity|]. cbn [map count_occ]. rewrite IH by (intros c Hc; apply I0; right; exact Hc).
    destruct (Z.eq_dec (f a) (f v)) as [e|n]; destruct (Z.eq_dec a v) as [e'|n']; try reflexivity; exfalso; [apply n', INJ; [apply I0; left; reflexivity|exact Hx|exact e]|apply n; congruence]. }
  unfold count. change (@eq_dec Z _) with Z.eq_dec. apply G, incl_refl.
Qed.
Print Assumptions C107_rename_bitwise.

(** any other renaming stays within the two error bounds *)
Theorem C107_rename_close : forall E eps b i j,
  accurate eps E -> 0 <= eps <= / 10 -> float_base b -> usable i -> usable j -> (Z.of_nat (input_size i) <= 2 ^ 53)%Z ->
  same_partition (sample i) (sample j) ->
  exists h hi hj, entropy_discrete b i = Ok h /\ f_entropy E b i = Ok hi /\ f_entropy E b j = Ok hj /\
    let g := gam E b eps (length (distinct (sample i))) in
    Rabs (hi - hj) <= 2 * (g * h + (1 + g) * (2 * uro / unit_of b)).
Proof.
  intros E eps b i j Ac Ee Fb Ui Uj NB SP.
  assert (Lij : input_size j = input_size i) by (rewrite <- (sample_length i Ui), <- (sample_length j Uj); symmetry; apply SP).
  destruct (C107_entropy_float E eps b i Ac Ee Fb Ui NB) as (h & hi & H1 & H2 & _ & _ & H3).
  rewrite <- Lij in NB. destruct (C107_entropy_float E eps b j Ac Ee Fb Uj NB) as (h' & hj & J1 & J2 & _ & _ & J3). cbv zeta in *.
  assert (HH : h' = h).
  { destruct (usable_data i Ui) as (xs & D & _ & Px & _). destruct (usable_data j Uj) as (ys & D' & _ & Py & _).
    pose proof (big_valid b (float_big b Fb)) as V. unfold entropy_discrete in H1, J1. rewrite D in H1. rewrite D' in J1. cbn [bind] in H1, J1. rewrite discrete_simple_ok in H1, J1 by exact V.
    assert (EX : Ent xs = Ent ys). { rewrite <- (Ent_partition _ _ Px), <- (Ent_partition _ _ Py). apply Ent_partition, SP. } congruence. }
  assert (KK : length (distinct (sample j)) = length (distinct (sample i))) by (symmetry; exact (nvals_partition _ _ SP)).
  rewrite HH, KK in J3. exists h, hi, hj. split; [exact H1|]. split; [exact H2|]. split; [exact J2|].
  replace (hi - hj) with ((hi - h) - (hj - h)) by ring. eapply Rle_trans; [apply Rabs_triang|]. rewrite Rabs_Ropp. lra.
Qed.
Print Assumptions C107_rename_close.

(** a plain form of the error factor *)
Lemma pow_bernoulli n : (1 + uro) ^ n * (1 - INR n * uro) <= 1.
Proof.
  pose proof uro_pos as U0. induction n as [|n IH]; [simpl; lra|]. cbn [pow]. rewrite S_INR.
  assert (P : 0 < (1 + uro) ^ n) by (apply pow_lt; lra). pose proof (pos_INR n) as I0.
  apply Rle_trans with ((1 + uro) ^ n * (1 - INR n * uro)); [|exact IH].
  rewrite (Rmult_comm (1 + uro)), Rmult_assoc. apply Rmult_le_compat_l; [lra|].
  assert (0 <= INR n * uro * uro) by (apply Rmult_le_pos; [apply Rmult_le_pos; lra|lra]). assert (0 <= uro * uro) by (apply Rmult_le_pos; lra). lra.
Qed.
Theorem C107_factor_small : forall E eps b n, 0 <= eps <= / 10 ->
  let m := INR (depth (f_order E n) + 2) * uro in m <= / 4 -> gam E b eps n <= 2 * (m + base_eps b eps).
Proof.
  intros E eps b n Ee m M. pose proof (base_eps_range b eps Ee) as BR. unfold gam. pose proof (pow_bernoulli (depth (f_order E n) + 2)) as B.
  fold m in B. set (c := (1 + uro) ^ (depth (f_order E n) + 2)) in *. set (e := base_eps b eps) in *.
  assert (M0 : 0 <= m) by (apply Rmult_le_pos; [apply pos_INR|pose proof uro_pos; lra]).
  assert (C : c <= 1 + 4 / 3 * m).
  { apply (Rmult_le_reg_r (1 - m)); [lra|]. eapply Rle_trans; [exact B|]. assert (0 <= m * (/ 4 - m)) by (apply Rmult_le_pos; lra). lra. }
  assert (c * (1 + e) <= (1 + 4 / 3 * m) * (1 + e)) by (apply Rmult_le_compat_r; lra).
  assert (m * e <= m * / 4) by (apply Rmult_le_compat_l; lra). lra.
Qed.
Print Assumptions C107_factor_small.

(** example: exact logarithms and left-to-right summation are accurate with [eps = 0], and so is any environment whose
    logarithms are the rounded ones on the range in use *)
Fixpoint left_sum (n : nat) : stree := match n with 0%nat => Leaf 0 | S m => Node (left_sum m) (Leaf (S m)) end.
Definition ideal : fenv := mkFenv ln (fun x => ln x / ln 2) (fun x => ln x / ln 10) (fun n => left_sum (n - 1)).
Lemma left_leaves n : leaves (left_sum n) = seq 0 (S n).
Proof. induction n as [|n IH]; [reflexivity|]. cbn [left_sum leaves]. rewrite IH. symmetry. apply (seq_S (S n) 0). Qed.
Lemma left_depth n : depth (left_sum n) = n.
Proof. induction n as [|n IH]; [reflexivity|]. cbn [left_sum depth]. rewrite IH. simpl. lia. Qed.
Example C107_ideal_accurate : accurate 0 ideal.
Proof.
  assert (Z : forall r, log_within 0 r (fun x => ln x / ln r)) by (intros r x _; replace (ln x / ln r - ln x / ln r) with 0 by ring; rewrite Rabs_R0; lra).
  repeat split; try apply Z.
  - intros x _. cbn [f_log ideal]. rewrite ln_exp. unfold Rdiv. rewrite Rinv_1, Rmult_1_r. replace (ln x - ln x) with 0 by ring. rewrite Rabs_R0. lra.
  - intros n Hn. cbn [f_order ideal]. rewrite left_leaves. replace (S (n - 1)) with n by lia. apply Permutation_refl.
Qed.

(** the exact value is hit for two equally frequent symbols in base 2 *)
Example C107_fair_coin : exists hf, f_entropy ideal (BNum 2) (EArr (A1 [0; 1]%Z)) = Ok hf /\ Rabs (hf - 1) <= 1 / 10 ^ 14.
Proof.
  assert (FB : float_base (BNum 2)). { cbn [float_base]. split; [lra|]. apply Rle_trans with (2 ^ 1); [lra|]. apply Rle_pow; [lra|lia]. }
  assert (US : usable (EArr (A1 [0; 1]%Z))) by (split; [simpl; lia|exact Logic.I]).
  destruct (C107_entropy_float ideal 0 (BNum 2) (EArr (A1 [0; 1]%Z)) C107_ideal_accurate ltac:(lra) FB US ltac:(simpl; lia)) as (h & hf & H1 & H2 & _ & _ & H3).
  exists hf. split; [exact H2|]. cbv zeta in H3.
  assert (h1 : h = 1).
  { rewrite entropy_1d in H1; [|apply big_valid, float_big, FB|discriminate]. injection H1 as <-. unfold Ent. cbn [unit_of].
    change (distinct [0%Z; 1%Z]) with [0%Z; 1%Z]. cbn [sumf]. unfold prob. change (count [0%Z; 1%Z] 0%Z) with 1%nat. change (count [0%Z; 1%Z] 1%Z) with 1%nat. cbn [length].
    replace (INR 1 / INR 2) with (/ 2) by (simpl; field). rewrite ln_Rinv by lra. field. pose proof ln_lt_2. lra. }
  rewrite h1 in H3. change (length (distinct (sample (EArr (A1 [0%Z; 1%Z]))))) with 2%nat in H3.
  assert (G : gam ideal (BNum 2) 0 2 = (1 + uro) ^ 3 - 1).
  { unfold gam, base_eps. destruct (Req_EM_T 2 2); [|contradiction]. cbn [f_order ideal]. rewrite left_depth. change (2 - 1 + 2)%nat with 3%nat. ring. }
  rewrite G in H3. cbn [unit_of] in H3. eapply Rle_trans; [exact H3|]. pose proof ln_lt_2. pose proof uro_pos as U0.
  assert (US1 : uro <= / (8 * 10 ^ 15)) by (unfold uro; apply Rinv_le_contravar; [|]; lra).
  assert (I2 : 2 * uro / ln 2 <= 4 * uro).
  { apply (Rmult_le_reg_r (ln 2)); [lra|]. unfold Rdiv. rewrite Rmult_assoc, Rinv_l, Rmult_1_r by lra. assert (uro * (/ 2) <= uro * ln 2) by (apply Rmult_le_compat_l; lra). lra. }
  assert (P3 : (1 + uro) ^ 3 <= 1 + 4 * uro) by (cbn [pow]; nra).
  set (c := (1 + uro) ^ 3) in *. set (k := 2 * uro / ln 2) in *. assert (0 < k) by (unfold k; apply Rdiv_lt_0_compat; lra).
  assert (C2 : c * k <= (1 + 4 * uro) * (4 * uro)) by (assert (0 <= c) by (unfold c; apply pow_le; lra); apply Rmult_le_compat; lra).
  assert (uro * uro <= uro * 1) by (apply Rmult_le_compat_l; lra). lra.
Qed.
