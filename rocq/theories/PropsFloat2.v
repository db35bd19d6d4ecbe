(** Property theorems C109: mutual information, conditional mutual information and transfer entropies in double precision. *)
From Coq Require Import Reals Lra Lia List ZArith Arith Bool Permutation Psatz.
From Flocq Require Import Core Relative.
From Verif Require Import Res RSum Spec SpecBase SpecEst SpecTE Info Info2 Ord MBase MData MEntropy MMI MTE PBase PEntropy PEst PCoo PMI PMI2 PMI4 PMI5 PCMI PCMI2 PTE2
  PropsMI PropsTE MFloat SpecFloat MFloat2 PFloat PFloat2 PFloat3 PFloat4 PFloat5 PFloat6 POrd2 PropsFloat.
Import ListNotations.
Local Open Scope R_scope.

Lemma mi_err_pos E b eps k n : 0 <= eps <= / 10 -> 0 <= mi_err E b eps k n.
Proof.
  intros Ee. unfold mi_err. pose proof (err_consts b eps k Ee). pose proof uro_pos. pose proof (pos_INR k).
  assert (1 <= (1 + uro) ^ depth (f_order E n)) by (apply pow_R1_Rle; lra).
  assert (0 <= (3 * INR k + 2) * ((1 + uro) ^ depth (f_order E n) - 1)) by (apply Rmult_le_pos; lra). lra.
Qed.
Lemma lnN_pos (n : nat) : (0 < n)%nat -> 0 <= ln (INR n).
Proof. intros L. apply ln_nonneg. change 1 with (INR 1). apply le_INR. lia. Qed.
Lemma bound_pos E b eps k n m : 0 <= eps <= / 10 -> float_base b -> (0 < m)%nat -> 0 <= mi_err E b eps k n * (ln (INR m) / unit_of b).
Proof.
  intros Ee Fb L. pose proof (unit_range b Fb). apply Rmult_le_pos; [apply mi_err_pos; exact Ee|]. apply Rmult_le_pos; [apply lnN_pos; exact L|].
  left. apply Rinv_0_lt_compat. lra.
Qed.

Lemma short_const {A} (xs : list A) : (length xs <= 1)%nat -> forall x y, In x xs -> In y xs -> x = y.
Proof. destruct xs as [|a [|b r]]; cbn [length]; intros L x y Hx Hy; [destruct Hx| |lia]. destruct Hx as [<-|[]]. destruct Hy as [<-|[]]. reflexivity. Qed.

(** ** two variables *)
Theorem C109_mutual_information : forall E eps b xs ys,
  accurate eps E -> 0 <= eps <= / 10 -> float_base b -> length xs = length ys -> xs <> [] -> small2 (length xs) ->
  exists v, f_mi_api E b (Some 0%Z) [xs; ys] = Ok v /\ 0 <= v /\
    Rabs (v - MI xs ys / unit_of b) <= mi_err E b eps 2 (nvals (combine xs ys)) * (ln (INR (length xs)) / unit_of b) /\
    ((forall x y, In x xs -> In y xs -> x = y) \/ (forall x y, In x ys -> In y ys -> x = y) -> v = 0).
Proof.
  intros E eps b xs ys Ac Ee Fb L NE SM. pose proof (unit_range b Fb) as UR.
  assert (NEy : ys <> []) by (intros ->; destruct xs; [congruence|discriminate]).
  assert (N0 : (0 < length xs)%nat) by (destruct xs; [congruence|simpl; lia]).
  unfold f_mi_api. cbn [map]. rewrite mi_init_2 by exact L. cbn [bind].
  pose proof (bound_pos E b eps 2 (nvals (combine xs ys)) (length xs) Ee Fb N0) as BP.
  assert (CONST : length (unique xs) = 1%nat \/ length (unique ys) = 1%nat -> f_mi_2d E b (A1 xs) (A1 ys) = Ok 0 /\ MI xs ys = 0).
  { intros C. split.
    - unfold f_mi_2d. rewrite (coo_of_ok [A1 xs; A1 ys] (length xs)) by (try discriminate; repeat constructor; simpl; auto; lia). cbn [bind].
      assert (A0 : length (marginal (the_coo [A1 xs; A1 ys]) 0) = length (unique xs)) by (unfold marginal; rewrite map_length, seq_length; reflexivity).
      assert (A1' : length (marginal (the_coo [A1 xs; A1 ys]) 1) = length (unique ys)) by (unfold marginal; rewrite map_length, seq_length; reflexivity).
      rewrite A0, A1'. destruct C as [->| ->]; [reflexivity|]. rewrite orb_true_r. reflexivity.
    - destruct C as [C|C]; [apply MI_const_l; auto; apply unique_1_const; exact C|]. rewrite MI_sym by exact L. apply MI_const_l; auto. apply unique_1_const; exact C. }
  destruct (Nat.eq_dec (length (unique xs)) 1) as [Cx|Nx]; [|destruct (Nat.eq_dec (length (unique ys)) 1) as [Cy|Ny]].
  - destruct (CONST (or_introl Cx)) as (-> & ->). exists 0. split; [reflexivity|]. split; [lra|]. split; [|reflexivity].
    unfold Rdiv at 1. rewrite Rmult_0_l, Rminus_0_r, Rabs_R0. exact BP.
  - destruct (CONST (or_intror Cy)) as (-> & ->). exists 0. split; [reflexivity|]. split; [lra|]. split; [|reflexivity].
    unfold Rdiv at 1. rewrite Rmult_0_l, Rminus_0_r, Rabs_R0. exact BP.
  - assert (N2 : (2 <= length xs)%nat).
    { destruct (le_lt_dec 2 (length xs)) as [Q|Q]; [exact Q|exfalso]. apply Nx. apply const_unique_1; [exact NE|]. apply short_const. lia. }
    destruct (f_mi_2d_ok (A1 xs) (A1 ys) (length xs) eq_refl (eq_sym L) N2 E eps b Ac Ee Fb SM Nx Ny) as (s & E1 & E2).
    exists (Rmax s 0). split; [exact E1|]. split; [apply Rmax_r|].
    assert (HL2 : all_len (length xs) [xs; ys]) by (repeat constructor; auto).
    pose proof (mi_value_1d (length xs) [xs; ys] ltac:(discriminate) N0 HL2) as EV. cbn [map] in EV. rewrite EV, TotalCorr_2 in E2 by auto.
    assert (JL : length (unique (coo_rows [A1 xs; A1 ys])) = nvals (combine xs ys)).
    { rewrite (joint_levels [A1 xs; A1 ys] (length xs)) by (auto; try discriminate; repeat constructor; simpl; auto; lia).
      change [A1 xs; A1 ys] with (map A1 [xs; ys]). rewrite (distinct_rows_singletons (length xs) [xs; ys] HL2). rewrite rows_of_2_distinct by (auto; lia). reflexivity. }
    rewrite JL in E2. split.
    + assert (M0 : 0 <= MI xs ys / unit_of b) by (apply Rmult_le_pos; [apply MI_nonneg; exact L|left; apply Rinv_0_lt_compat; lra]).
      eapply Rle_trans; [|exact E2]. unfold Rmax. destruct (Rle_dec s 0) as [S0|S0]; [|apply Rle_refl].
      rewrite Rabs_left1 by lra. rewrite Rabs_left1 by lra. lra.
    + intros [C|C]; exfalso; [apply Nx|apply Ny]; apply const_unique_1; assumption.
Qed.
Print Assumptions C109_mutual_information.

(** with an offset: the value of the shifted pair *)
Lemma f_mi_reduce E b o xs ys u v : mi_init (Some o) [A1 xs; A1 ys] = Ok [A1 u; A1 v] -> length u = length v ->
  f_mi_api E b (Some o) [xs; ys] = f_mi_api E b (Some 0%Z) [u; v].
Proof. intros I L. unfold f_mi_api. cbn [map]. rewrite I, mi_init_2 by exact L. reflexivity. Qed.
Theorem C109_mutual_information_offset : forall E eps b xs ys o,
  accurate eps E -> 0 <= eps <= / 10 -> float_base b -> length xs = length ys -> (0 < o < length xs)%nat -> small2 (length xs - o) ->
  let n := (length xs - o)%nat in
  (exists v, f_mi_api E b (Some (Z.of_nat o)) [xs; ys] = Ok v /\ 0 <= v /\
    Rabs (v - MI (firstn n xs) (skipn o ys) / unit_of b) <= mi_err E b eps 2 (nvals (combine (firstn n xs) (skipn o ys))) * (ln (INR n) / unit_of b)) /\
  (exists v, f_mi_api E b (Some (- Z.of_nat o)%Z) [xs; ys] = Ok v /\ 0 <= v /\
    Rabs (v - MI (skipn o xs) (firstn n ys) / unit_of b) <= mi_err E b eps 2 (nvals (combine (skipn o xs) (firstn n ys))) * (ln (INR n) / unit_of b)).
Proof.
  intros E eps b xs ys o Ac Ee Fb L O SM n.
  assert (L1 : length (firstn n xs) = n) by (unfold n; rewrite firstn_length; lia).
  assert (L2 : length (skipn o ys) = n) by (unfold n; rewrite skipn_length; lia).
  assert (L3 : length (firstn n ys) = n) by (unfold n; rewrite firstn_length; lia).
  assert (L4 : length (skipn o xs) = n) by (unfold n; rewrite skipn_length; lia).
  assert (NP : (0 < n)%nat) by (unfold n; lia).
  assert (NE1 : firstn n xs <> []) by (intros Q; rewrite Q in L1; cbn in L1; lia).
  assert (NE4 : skipn o xs <> []) by (intros Q; rewrite Q in L4; cbn in L4; lia).
  split.
  - rewrite (f_mi_reduce E b (Z.of_nat o) xs ys (firstn n xs) (skipn o ys)); [|unfold mi_init|congruence].
    + destruct (C109_mutual_information E eps b (firstn n xs) (skipn o ys) Ac Ee Fb ltac:(congruence) NE1) as (v & E1 & E2 & E3 & _); [rewrite L1; exact SM|].
      exists v. rewrite L1 in E3. auto.
    + cbn [length Nat.ltb Nat.leb andb hd forallb nth arr_len]. rewrite <- L, Nat.eqb_refl. cbn [andb negb].
      destruct (Z.ltb_spec 0 (Z.of_nat o)); [|lia]. rewrite Nat2Z.id. unfold arr_drop_last, arr_skip. reflexivity.
  - rewrite (f_mi_reduce E b (- Z.of_nat o) xs ys (skipn o xs) (firstn n ys)); [|unfold mi_init|congruence].
    + destruct (C109_mutual_information E eps b (skipn o xs) (firstn n ys) Ac Ee Fb ltac:(congruence) NE4) as (v & E1 & E2 & E3 & _); [rewrite L4; exact SM|].
      exists v. rewrite L4 in E3. auto.
    + cbn [length Nat.ltb Nat.leb andb hd forallb nth arr_len]. rewrite <- L, Nat.eqb_refl. cbn [andb negb].
      destruct (Z.ltb_spec 0 (- Z.of_nat o)); [lia|]. destruct (Z.ltb_spec (- Z.of_nat o) 0); [|lia]. rewrite Z.opp_involutive, Nat2Z.id. unfold arr_drop_last, arr_skip, n. rewrite L. reflexivity.
Qed.
Print Assumptions C109_mutual_information_offset.

(** ** many variables (total correlation), none of them constant *)
Theorem C109_many_variables : forall E eps b n cols,
  accurate eps E -> 0 <= eps <= / 10 -> float_base b -> (2 < length cols)%nat -> Forall (fun c => length c = n) cols -> (Z.of_nat n <= 2 ^ 53)%Z ->
  (Z.of_nat n ^ Z.of_nat (length cols) < 2 ^ 64)%Z -> Forall (fun c => exists x y : Z, In x c /\ In y c /\ x <> y) cols ->
  exists v, f_mi_api E b (Some 0%Z) cols = Ok v /\
    Rabs (v - TotalCorr 0%Z n cols / unit_of b) <= mi_err E b eps (length cols) (nvals (rows_of 0%Z n cols)) * (ln (INR n) / unit_of b).
Proof.
  intros E eps b n cols Ac Ee Fb Hk HL NB NW NC. unfold f_mi_api.
  rewrite (mi_init_0 (map A1 cols) n) by (rewrite ?map_length; auto using all_len_arr; lia). cbn [bind].
  assert (NE : map A1 cols <> []) by (destruct cols; [simpl in Hk; lia|discriminate]).
  assert (N2 : (2 <= n)%nat).
  { destruct cols as [|c r]; [simpl in Hk; lia|]. inversion HL as [|? ? Lc _]; subst. inversion NC as [|? ? (x & y & Hx & Hy & D) _]; subst.
    destruct (le_lt_dec 2 (length c)) as [Q|Q]; [exact Q|exfalso]. apply D. apply (short_const c); [lia|assumption|assumption]. }
  assert (ARR : Forall (fun a => arr_len a = n) (map A1 cols)) by (apply all_len_arr; exact HL).
  assert (NCe : existsb (fun a => Nat.eqb (nlevels a) 1) (map A1 cols) = false).
  { apply not_true_is_false. intros Q. apply existsb_exists in Q. destruct Q as (a & Ha & Q). apply in_map_iff in Ha. destruct Ha as (c & <- & Hc).
    apply Nat.eqb_eq in Q. cbn [nlevels] in Q. rewrite Forall_forall in NC. destruct (NC c Hc) as (x & y & Hx & Hy & D). apply D. apply (unique_1_const c Q); assumption. }
  assert (NWW : no_wrap (map A1 cols) n) by (apply no_wrap_small; auto; [lia|rewrite map_length; exact NW]).
  destruct (f_mi_nd_ok (map A1 cols) n ARR NE N2 E eps b Ac Ee Fb NB ltac:(rewrite map_length; lia) NWW NCe) as (v & E1 & E2).
  exists v. split.
  - destruct cols as [|c1 [|c2 [|c3 r]]]; cbn [length] in Hk; try lia. exact E1.
  - rewrite map_length in E2. rewrite (joint_levels (map A1 cols) n ARR NE ltac:(lia)), distinct_rows_singletons in E2 by exact HL.
    rewrite mi_value_1d in E2; [exact E2| |lia|exact HL]. destruct cols; [simpl in Hk; lia|discriminate].
Qed.
Print Assumptions C109_many_variables.

(** ** conditional mutual information *)
Lemma f_cmi_close E eps b x y zs n v : accurate eps E -> 0 <= eps <= / 10 -> float_base b -> arr_len x = n -> arr_len y = n -> length zs = n -> (0 < n)%nat -> small2 n ->
  cmi_global b None [x; y] (A1 zs) = Ok v ->
  exists s, f_cmi E b [x; y] (A1 zs) = Ok s /\ Rabs (s - v) <= mi_err E b eps 2 (length (unique (coo_rows [x; y; A1 zs]))) * (ln (INR n) / unit_of b).
Proof.
  intros Ac Ee Fb Lx Ly Lz N0 SM EX. pose proof (two_len x y n Lx Ly) as Hv.
  pose proof (al_len [x; y] zs n Hv Lz) as HL. pose proof (al_ne [x; y] zs) as HNE.
  destruct (early [x; y] zs) eqn:EA.
  - assert (EV : v = 0).
    { unfold cmi_global in EX. rewrite (coo_of_ok _ n HL HNE) in EX. cbn [bind] in EX. rewrite ndim_k1, early_eq, EA in EX. congruence. }
    exists 0. split.
    + unfold f_cmi. rewrite (coo_of_ok _ n HL HNE). cbn [bind]. rewrite ndim_k1, early_eq, EA. reflexivity.
    + rewrite EV, Rminus_0_r, Rabs_R0. apply bound_pos; assumption.
  - assert (N2 : (2 <= n)%nat).
    { destruct (le_lt_dec 2 n) as [Q|Q]; [exact Q|exfalso]. assert (n1 : n = 1%nat) by lia.
      assert (Uz : length (unique zs) = 1%nat).
      { assert (L1 : length zs = 1%nat) by congruence. clear -L1. apply const_unique_1; [intros ->; discriminate L1|apply short_const; rewrite L1; apply Nat.le_refl]. }
      assert (Ux : nlevels x = 1%nat).
      { assert (L1 : arr_len x = 1%nat) by congruence. clear -L1. destruct x as [r|r]; cbn [arr_len nlevels] in *; (apply const_unique_1; [intros ->; discriminate L1|apply short_const; rewrite L1; apply Nat.le_refl]). }
      unfold early in EA. cbn [existsb] in EA. rewrite Ux, Uz in EA. discriminate. }
    destruct (f_cmi_ok x y zs n Lx Ly Lz N2 E eps b Ac Ee Fb SM EA) as (s & E1 & E2). exists s. split; [exact E1|].
    assert (CS : cmi_small [x; y] n).
    { unfold cmi_small. change (Nat.max 2 (length [x; y])) with 2%nat. change (Z.of_nat 2) with 2%Z. rewrite Z.pow_2_r. unfold small2 in SM. change (2 ^ 64)%Z with (2 ^ 32 * 2 ^ 32)%Z. clear -SM N0. nia. }
    rewrite (cmi_global_ok [x; y] zs n Hv Lz N0 b None (big_valid b (float_big b Fb)) ltac:(simpl; lia) CS EA) in EX.
    cbn [add_corr] in EX. assert (EV : v = cmi_value [x; y] zs n / unit_of b) by congruence. rewrite EV. exact E2.
Qed.

(** the stored cells are the distinct triples *)
Lemma cells3 {A B C} `{EqDec A} `{EqDec B} `{EqDec C} x y zs n (X : list A) (Y : list B) (W : list C) : (0 < n)%nat -> length zs = n ->
  same_partition (arr_rows x) X -> same_partition (arr_rows y) Y -> same_partition zs W -> arr_len x = n -> arr_len y = n ->
  length (unique (coo_rows [x; y; A1 zs])) = nvals (combine (combine X Y) W).
Proof.
  intros N0 Lz (PX1 & PX2) (PY1 & PY2) (PW1 & PW2) Lx Ly. pose proof (two_len x y n Lx Ly) as Hv.
  pose proof (al_len [x; y] zs n Hv Lz) as HL. pose proof (al_ne [x; y] zs) as HNE. change ([x; y] ++ [A1 zs]) with [x; y; A1 zs] in *.
  rewrite (joint_levels [x; y; A1 zs] n HL HNE N0). unfold nvals. apply distinct_length_partition.
  rewrite arr_rows_len in PX1, PX2, PY1, PY2. split.
  - rewrite rows_of_length, !combine_length. lia.
  - intros i j dx [[d1 d2] d3] Hi Hj. rewrite rows_of_length in Hi, Hj. unfold rows_of. rewrite !nth_map_seq by assumption. cbn [map].
    rewrite !combine_nth by (rewrite ?combine_length; lia).
    specialize (PX2 i j [] d1 ltac:(lia) ltac:(lia)). specialize (PY2 i j [] d2 ltac:(lia) ltac:(lia)). specialize (PW2 i j 0%Z d3 ltac:(lia) ltac:(lia)).
    assert (EZ : forall t, (t < n)%nat -> nth t (arr_rows (A1 zs)) [] = [nth t zs 0%Z]) by (intros t Ht; apply (arr_at_A1 zs t); lia). rewrite !EZ by assumption.
    rewrite !pair_equal_spec. split; intros Q.
    + assert (Q1 : nth i (arr_rows x) [] = nth j (arr_rows x) []) by congruence. assert (Q2 : nth i (arr_rows y) [] = nth j (arr_rows y) []) by congruence. assert (Q3 : nth i zs 0%Z = nth j zs 0%Z) by congruence. tauto.
    + destruct Q as ((Q1 & Q2) & Q3). apply PX2 in Q1. apply PY2 in Q2. apply PW2 in Q3. congruence.
Qed.
Lemma singles_partition (xs : list Z) : same_partition (arr_rows (A1 xs)) xs.
Proof. cbn [arr_rows]. apply singletons_partition. Qed.

Theorem C109_conditional_mutual_information : forall E eps b xs ys zs,
  accurate eps E -> 0 <= eps <= / 10 -> float_base b -> length xs = length ys -> length xs = length zs -> xs <> [] -> small2 (length xs) ->
  let e := mi_err E b eps 2 (nvals (combine (combine xs ys) zs)) * (ln (INR (length xs)) / unit_of b) in
  exists v, f_cmi_api E b [A1 xs; A1 ys] (RArr (A1 zs)) = Ok v /\ Rabs (v - CMI xs ys zs / unit_of b) <= e /\ - e <= v.
Proof.
  intros E eps b xs ys zs Ac Ee Fb L1 L2 NE SM e. pose proof (big_valid b (float_big b Fb)) as V. pose proof (unit_range b Fb) as UR.
  assert (N0 : (0 < length xs)%nat) by (destruct xs; [congruence|simpl; lia]).
  destruct (cmi2_general b None xs ys zs V L1 L2 N0 SM Logic.I) as (EX & _). rewrite Rplus_0_r in EX.
  destruct (f_cmi_close E eps b (A1 xs) (A1 ys) zs (length xs) _ Ac Ee Fb eq_refl (eq_sym L1) (eq_sym L2) N0 SM EX) as (s & E1 & E2).
  assert (C0 : 0 <= CMI xs ys zs / unit_of b) by (apply Rmult_le_pos; [apply CMI_nonneg; congruence|left; apply Rinv_0_lt_compat; lra]).
  rewrite (cells3 (A1 xs) (A1 ys) zs (length xs) xs ys zs N0 (eq_sym L2) (singles_partition xs) (singles_partition ys) (same_partition_refl zs) eq_refl (eq_sym L1)) in E2. fold e in E2.
  exists s. split; [|split; [exact E2|apply Rabs_le_inv in E2; lra]].
  unfold f_cmi_api. cbn [reduce_joint_space bind]. assert (CI : cmi_init [A1 xs; A1 ys] (length zs) = Ok tt) by (unfold cmi_init; cbn [arr_len]; rewrite <- L1, <- L2, Nat.eqb_refl; reflexivity).
  rewrite CI. exact E1.
Qed.
Print Assumptions C109_conditional_mutual_information.

(** ** transfer entropy *)
Theorem C109_transfer_entropy : forall E eps b xs ys l k s,
  accurate eps E -> 0 <= eps <= / 10 -> float_base b -> length ys = length xs -> (1 <= l)%nat -> (1 <= k)%nat -> (1 <= s)%nat ->
  (Nat.max k l * s < length xs)%nat -> small2 (length xs) ->
  let ts := base_times (length xs) (Nat.max k l * s) s in
  let df := presents 0%Z ys ts in let sh := pasts 0%Z xs s l ts in let dh := pasts 0%Z ys s k ts in
  let e := mi_err E b eps 2 (nvals (combine (combine df sh) dh)) * (ln (INR (length ts)) / unit_of b) in
  exists v, f_te_api E b (A1 xs) (A1 ys) (te_kw l k s) = Ok v /\ Rabs (v - CMI df sh dh / unit_of b) <= e /\ - e <= v.
Proof.
  intros E eps b xs ys l k s Ac Ee Fb Ly Hl Hk Hs Hd SM ts df sh dh e. pose proof (big_valid b (float_big b Fb)) as V. pose proof (unit_range b Fb) as UR.
  pose proof (C19_te_is_conditional_mi b xs ys l k s (length xs) V eq_refl Ly Hl Hk Hs Hd SM) as EX. fold ts df sh dh in EX. cbv zeta in EX.
  assert (HT : forall b', In b' ts -> (b' < length xs)%nat).
  { intros b' Hb'. unfold ts in Hb'. rewrite base_times_In in Hb' by exact Hs. lia. }
  assert (LT : length ts = nrows (length xs) (Nat.max k l * s) s) by apply base_times_length.
  assert (T0 : (0 < length ts)%nat) by (rewrite LT; apply nrows_pos; assumption).
  unfold te_discrete, te_gen in EX. unfold f_te_api. cbn [a_prop a_offset a_step a_src a_dest te_kw] in *. rewrite te_init_plain in * by (cbn [arr_len]; congruence). cbn [bind fst snd] in *.
  rewrite (te_obs_ok (A1 xs) (A1 ys) l k s (length xs) Hl Hk Hs eq_refl Ly RNone ltac:(discriminate) Hd Logic.I) in *. cbn [bind] in *. fold ts in EX. fold ts.
  rewrite !flat_pasts_1d, flat_presents_1d in * by (try assumption; intros b' Hb'; rewrite ?Ly; apply HT; exact Hb').
  fold df sh dh in EX. fold df sh dh. unfold te_form in EX. cbn [reduce_joint_space bind] in *.
  assert (Ldf : length df = length ts) by (unfold df; apply presents_length). assert (Lsh : length sh = length ts) by (unfold sh; apply pasts_length). assert (Ldh : length dh = length ts) by (unfold dh; apply pasts_length).
  assert (SM' : small2 (length ts)) by (rewrite LT; apply small_rows; assumption).
  destruct (f_cmi_close E eps b (A2 (map (fun v => [v]) df)) (A2 sh) (reduce_rows dh) (length ts) _ Ac Ee Fb ltac:(cbn [arr_len]; rewrite map_length; exact Ldf) Lsh ltac:(rewrite reduce_rows_length; exact Ldh) T0 SM' EX) as (v & E1 & E2).
  assert (RP : same_partition (reduce_rows dh) dh).
  { destruct (reduce_rows_partition dh) as (P1 & P2). split; [symmetry; exact P1|]. intros i j dx dy Hi Hj. rewrite <- P1 in Hi, Hj. symmetry. apply P2; assumption. }
  rewrite (cells3 (A2 (map (fun v => [v]) df)) (A2 sh) (reduce_rows dh) (length ts) df sh dh T0 ltac:(rewrite reduce_rows_length; exact Ldh) (singletons_partition df) (same_partition_refl sh) RP
     ltac:(cbn [arr_len]; rewrite map_length; exact Ldf) Lsh) in E2. fold e in E2.
  assert (C0 : 0 <= CMI df sh dh / unit_of b) by (apply Rmult_le_pos; [apply CMI_nonneg; congruence|left; apply Rinv_0_lt_compat; lra]).
  exists v. split; [exact E1|]. split; [exact E2|apply Rabs_le_inv in E2; lra].
Qed.
Print Assumptions C109_transfer_entropy.

(** ** conditional transfer entropy *)
Theorem C109_conditional_transfer_entropy : forall E eps b xs ys zs l k m s,
  accurate eps E -> 0 <= eps <= / 10 -> float_base b -> length ys = length xs -> length zs = length xs ->
  (1 <= l)%nat -> (1 <= k)%nat -> (1 <= m)%nat -> (1 <= s)%nat ->
  (Nat.max (Nat.max k l) m * s < length xs)%nat -> small2 (length xs) ->
  let ts := base_times (length xs) (Nat.max (Nat.max k l) m * s) s in
  let df := presents 0%Z ys ts in let sh := pasts 0%Z xs s l ts in let dh := pasts 0%Z ys s k ts in let ch := pasts 0%Z zs s m ts in
  let e := mi_err E b eps 2 (nvals (combine (combine df sh) (combine dh ch))) * (ln (INR (length ts)) / unit_of b) in
  exists v, f_cte_api E b (A1 xs) (A1 ys) (RArr (A1 zs)) (cte_kw l k m s) = Ok v /\
    Rabs (v - CMI df sh (combine dh ch) / unit_of b) <= e /\ - e <= v.
Proof.
  intros E eps b xs ys zs l k m s Ac Ee Fb Ly Lz Hl Hk Hm Hs Hd SM ts df sh dh ch e. pose proof (big_valid b (float_big b Fb)) as V. pose proof (unit_range b Fb) as UR.
  pose proof (C24_cte_is_conditional_mi b xs ys zs l k m s (length xs) V eq_refl Ly Lz Hl Hk Hm Hs Hd SM) as EX. cbv zeta in EX. fold ts in EX. fold df sh dh ch in EX.
  assert (HT : forall b', In b' ts -> (b' < length xs)%nat).
  { intros b' Hb'. unfold ts in Hb'. rewrite base_times_In in Hb' by exact Hs. lia. }
  assert (LT : length ts = nrows (length xs) (Nat.max (Nat.max k l) m * s) s) by apply base_times_length.
  assert (T0 : (0 < length ts)%nat) by (rewrite LT; apply nrows_pos; assumption).
  unfold cte_discrete, cte_gen in EX. unfold f_cte_api. cbn [reduce_joint_space bind] in *. cbn [a_prop a_offset a_step a_src a_dest a_cond cte_kw] in *.
  rewrite (cte_init_plain (A1 xs) (A1 ys) (A1 zs) (length xs) eq_refl Ly Lz) in *. cbn [bind fst snd] in *.
  rewrite (cte_obs_ok (A1 xs) (A1 ys) l k s (length xs) Hl Hk Hs eq_refl Ly (A1 zs) m RNone Hm Lz ltac:(discriminate) Hd Logic.I) in *. cbn [bind] in *. fold ts in EX. fold ts.
  rewrite !flat_pasts_1d, flat_presents_1d in * by (try assumption; intros b' Hb'; rewrite ?Ly, ?Lz; apply HT; exact Hb').
  fold df sh dh ch in EX. fold df sh dh ch. unfold cte_form in EX. cbn [reduce_joint_space bind] in *.
  assert (Ldf : length df = length ts) by (unfold df; apply presents_length). assert (Lsh : length sh = length ts) by (unfold sh; apply pasts_length). assert (Ldh : length dh = length ts) by (unfold dh; apply pasts_length). assert (Lch : length ch = length ts) by (unfold ch; apply pasts_length).
  rewrite (column_stack_2 dh ch) in * by congruence. unfold rmap in *. cbn [bind] in *.
  assert (P : same_partition (hcat [dh; ch]) (combine dh ch)).
  { apply (hcat_partition _ _ k); [congruence|]. intros r Hr. unfold dh, pasts in Hr. apply in_map_iff in Hr. destruct Hr as (b' & <- & _). apply past_length. }
  set (h := hcat [dh; ch]) in *. assert (Lh : length h = length ts) by (destruct P as [P _]; rewrite P, combine_length; lia).
  assert (SM' : small2 (length ts)) by (rewrite LT; apply small_rows; assumption).
  destruct (f_cmi_close E eps b (A2 (map (fun v => [v]) df)) (A2 sh) (reduce_rows h) (length ts) _ Ac Ee Fb ltac:(cbn [arr_len]; rewrite map_length; exact Ldf) Lsh ltac:(rewrite reduce_rows_length; exact Lh) T0 SM' EX) as (v & E1 & E2).
  assert (RP : same_partition (reduce_rows h) (combine dh ch)).
  { destruct (reduce_rows_partition h) as (P1 & P2). destruct P as (P3 & P4). split; [congruence|]. intros i j dx dy Hi Hj. rewrite <- P1 in Hi, Hj. rewrite <- (P4 i j [] dy Hi Hj). symmetry. apply P2; assumption. }
  rewrite (cells3 (A2 (map (fun v => [v]) df)) (A2 sh) (reduce_rows h) (length ts) df sh (combine dh ch) T0 ltac:(rewrite reduce_rows_length; exact Lh) (singletons_partition df) (same_partition_refl sh) RP
     ltac:(cbn [arr_len]; rewrite map_length; exact Ldf) Lsh) in E2. fold e in E2.
  assert (C0 : 0 <= CMI df sh (combine dh ch) / unit_of b).
  { apply Rmult_le_pos; [apply CMI_nonneg; rewrite ?combine_length; lia|left; apply Rinv_0_lt_compat; lra]. }
  exists v. split; [exact E1|]. split; [exact E2|apply Rabs_le_inv in E2; lra].
Qed.
Print Assumptions C109_conditional_transfer_entropy.

Lemma list_by_index {A} (d : A) (l : list A) : map (fun t => nth t l d) (seq 0 (length l)) = l.
Proof.
  induction l as [|x l IH]; [reflexivity|]. cbn [length seq map nth]. f_equal. rewrite <- seq_shift, map_map. exact IH.
Qed.
(** ** reordering the samples of all variables in the same way changes no bit of the result, for any logarithms and any summation order *)
Definition reorder (p : list nat) (c : list Z) : list Z := map (fun t => nth t c 0%Z) p.
Lemma reorder_perm p (c : list Z) : Permutation p (seq 0 (length c)) -> Permutation (reorder p c) c.
Proof.
  intros P. apply Permutation_trans with (map (fun t => nth t c 0%Z) (seq 0 (length c))); [apply Permutation_map; exact P|].
  rewrite list_by_index. apply Permutation_refl.
Qed.
Lemma unique_perm {A} `{Cmp A} (xs ys : list A) : Permutation xs ys -> unique xs = unique ys.
Proof.
  intros Q. apply (sorted_unique (@Ord.lt A _)); [|apply unique_sorted|apply unique_sorted|].
  - intros x y U V. exact (lt_irrefl x (lt_trans x y x U V)).
  - apply NoDup_Permutation; [apply unique_NoDup|apply unique_NoDup|]. intros v. rewrite !unique_In. split; [apply Permutation_in; exact Q|apply Permutation_in; symmetry; exact Q].
Qed.
Lemma codes_reorder p (c : list Z) : Permutation p (seq 0 (length c)) -> codes (A1 (reorder p c)) = map (fun t => nth t (codes (A1 c)) 0%nat) p.
Proof.
  intros P. cbn [codes]. unfold inverse. rewrite (unique_perm _ _ (reorder_perm p c P)). unfold reorder at 1. rewrite map_map. apply map_ext_in. intros t Ht.
  assert (T : (t < length c)%nat) by (apply (Permutation_in _ P) in Ht; apply in_seq in Ht; lia).
  rewrite (nth_indep _ 0%nat ((fun x => index_of x (unique c)) 0%Z)) by (rewrite map_length; exact T). rewrite (map_nth (fun x => index_of x (unique c))). reflexivity.
Qed.
Lemma coo_reorder p n cols : cols <> [] -> Forall (fun c => length c = n) cols -> Permutation p (seq 0 n) -> coo_of (map A1 (map (reorder p) cols)) = coo_of (map A1 cols).
Proof.
  intros NE HL P. assert (LP : length p = n) by (rewrite (Permutation_length P), seq_length; reflexivity).
  assert (HL' : Forall (fun c => length c = n) (map (reorder p) cols)).
  { rewrite Forall_forall in *. intros c Hc. apply in_map_iff in Hc. destruct Hc as (c0 & <- & Hc0). unfold reorder. rewrite map_length. exact LP. }
  assert (NE' : map A1 cols <> []) by (destruct cols; [congruence|discriminate]). assert (NE2 : map A1 (map (reorder p) cols) <> []) by (destruct cols; [congruence|discriminate]).
  rewrite (coo_of_ok (map A1 cols) n (all_len_arr n cols HL) NE'), (coo_of_ok (map A1 (map (reorder p) cols)) n (all_len_arr n _ HL') NE2). f_equal. unfold the_coo.
  assert (HD : forall l : list (list Z), l <> [] -> Forall (fun c => length c = n) l -> arr_len (hd (A1 []) (map A1 l)) = n) by (intros l L0 F; destruct l; [congruence|]; inversion F; assumption).
  assert (PR : Permutation (coo_rows (map A1 (map (reorder p) cols))) (coo_rows (map A1 cols))).
  { unfold coo_rows. rewrite (HD cols NE HL), (HD (map (reorder p) cols) ltac:(destruct cols; [congruence|discriminate]) HL'). unfold rows_of.
    apply Permutation_trans with (map (fun t => map (fun c => nth t c 0%nat) (map codes (map A1 cols))) p); [|apply Permutation_map; exact P].
    assert (E : map (fun t => map (fun c => nth t c 0%nat) (map codes (map A1 (map (reorder p) cols)))) (seq 0 n) = map (fun t => map (fun c => nth t c 0%nat) (map codes (map A1 cols))) p); [|rewrite E; apply Permutation_refl].
    transitivity (map (fun t => map (fun c => nth t c 0%nat) (map codes (map A1 cols))) (map (fun t => nth t p 0%nat) (seq 0 n))); [|rewrite <- LP, list_by_index; reflexivity]. rewrite (map_map _ _ (seq 0 n)). apply map_ext_in. intros t Ht. apply in_seq in Ht. rewrite !map_map. apply map_ext_in. intros c Hc. rewrite Forall_forall in HL. specialize (HL c Hc).
    rewrite codes_reorder by (rewrite HL; exact P). rewrite (nth_indep _ 0%nat ((fun t => nth t (codes (A1 c)) 0%nat) 0%nat)) by (rewrite map_length; lia). rewrite (map_nth (fun t => nth t (codes (A1 c)) 0%nat)). reflexivity. }
  assert (LV : map nlevels (map A1 (map (reorder p) cols)) = map nlevels (map A1 cols)).
  { rewrite !map_map. apply map_ext_in. intros c Hc. cbn [nlevels]. rewrite Forall_forall in HL. f_equal. apply unique_perm, reorder_perm. rewrite (HL c Hc). exact P. }
  rewrite LV, (unique_perm _ _ PR). f_equal. apply map_ext. intros r. f_equal. apply count_perm. exact PR.
Qed.
Theorem C109_reorder_bitwise : forall E b n p cols, (2 <= length cols)%nat -> Forall (fun c => length c = n) cols -> Permutation p (seq 0 n) ->
  f_mi_api E b (Some 0%Z) (map (reorder p) cols) = f_mi_api E b (Some 0%Z) cols.
Proof.
  intros E b n p cols L2 HL P. assert (NE : cols <> []) by (intros ->; simpl in L2; lia).
  assert (LP : length p = n) by (rewrite (Permutation_length P), seq_length; reflexivity).
  assert (HL' : Forall (fun c => length c = n) (map (reorder p) cols)).
  { rewrite Forall_forall in *. intros c Hc. apply in_map_iff in Hc. destruct Hc as (c0 & <- & Hc0). unfold reorder. rewrite map_length. exact LP. }
  pose proof (coo_reorder p n cols NE HL P) as CE. unfold f_mi_api.
  rewrite (mi_init_0 (map A1 cols) n) by (rewrite ?map_length; auto using all_len_arr; lia). rewrite (mi_init_0 (map A1 (map (reorder p) cols)) n) by (rewrite ?map_length; auto using all_len_arr; lia). cbn [bind].
  destruct cols as [|x [|y [|z r]]]; cbn [length] in L2; try lia; cbn [map] in *.
  - unfold f_mi_2d. rewrite CE. reflexivity.
  - unfold f_mi_nd. rewrite CE. reflexivity.
Qed.
Print Assumptions C109_reorder_bitwise.
Theorem C109_conditional_reorder_bitwise : forall E b n p xs ys zs, length xs = n -> length ys = n -> length zs = n -> Permutation p (seq 0 n) ->
  f_cmi_api E b [A1 (reorder p xs); A1 (reorder p ys)] (RArr (A1 (reorder p zs))) = f_cmi_api E b [A1 xs; A1 ys] (RArr (A1 zs)).
Proof.
  intros E b n p xs ys zs Lx Ly Lz P. assert (LP : length p = n) by (rewrite (Permutation_length P), seq_length; reflexivity).
  assert (RL : forall c, length (reorder p c) = n) by (intros c; unfold reorder; rewrite map_length; exact LP).
  pose proof (coo_reorder p n [xs; ys; zs] ltac:(discriminate) ltac:(repeat constructor; assumption) P) as CE. cbn [map] in CE.
  unfold f_cmi_api, cmi_init, f_cmi. cbn [reduce_joint_space bind]. cbn [arr_len app]. rewrite !RL, Lx, Ly, Lz, CE. reflexivity.
Qed.
Print Assumptions C109_conditional_reorder_bitwise.

(** a plain form of the error factor *)
Theorem C109_factor_small : forall E eps b k n, 0 <= eps <= / 10 -> INR (depth (f_order E n)) * uro <= / 4 ->
  mi_err E b eps k n <= (2 * INR k + 2) * base_eps b eps + (17 * INR k + 32) * uro + (4 * INR k + 3) * (INR (depth (f_order E n)) * uro).
Proof.
  intros E eps b k n Ee M. unfold mi_err. pose proof (pow_bernoulli (depth (f_order E n))) as B. set (m := INR (depth (f_order E n)) * uro) in *. set (c := (1 + uro) ^ depth (f_order E n)) in *.
  assert (M0 : 0 <= m) by (apply Rmult_le_pos; [apply pos_INR|pose proof uro_pos; lra]). pose proof (pos_INR k) as K0.
  assert (C : c - 1 <= 4 / 3 * m).
  { apply (Rmult_le_reg_r (1 - m)); [lra|]. assert (0 <= m * (/ 4 - m)) by (apply Rmult_le_pos; lra). lra. }
  assert ((3 * INR k + 2) * (c - 1) <= (3 * INR k + 2) * (4 / 3 * m)) by (apply Rmult_le_compat_l; lra).
  assert (0 <= INR k * m) by (apply Rmult_le_pos; assumption). lra.
Qed.
Print Assumptions C109_factor_small.

(** example: two identical fair coins share one bit, up to 10^-13, with exact logarithms and left-to-right sums *)
Example C109_fair_coins : exists v, f_mi_api ideal (BNum 2) (Some 0%Z) [[0; 1]; [0; 1]]%Z = Ok v /\ Rabs (v - 1) <= 1 / 10 ^ 13.
Proof.
  assert (FB : float_base (BNum 2)). { cbn [float_base]. split; [lra|]. apply Rle_trans with (2 ^ 1); [lra|]. apply Rle_pow; [lra|lia]. }
  assert (SM : small2 2) by (unfold small2; reflexivity).
  destruct (C109_mutual_information ideal 0 (BNum 2) [0; 1]%Z [0; 1]%Z C107_ideal_accurate ltac:(lra) FB eq_refl ltac:(discriminate) SM) as (v & H1 & _ & H2 & _).
  exists v. split; [exact H1|]. clear H1. cbn [unit_of length] in H2. pose proof ln_lt_2 as L2.
  assert (M1 : MI [0; 1]%Z [0; 1]%Z = ln 2).
  { unfold MI, Ent. change (distinct (combine [0%Z; 1%Z] [0%Z; 1%Z])) with [(0, 0); (1, 1)]%Z. change (distinct [0%Z; 1%Z]) with [0%Z; 1%Z]. cbn [sumf combine]. unfold prob. change (count [(0, 0); (1, 1)]%Z (0, 0)%Z) with 1%nat. change (count [(0, 0); (1, 1)]%Z (1, 1)%Z) with 1%nat.
    change (count [0%Z; 1%Z] 0%Z) with 1%nat. change (count [0%Z; 1%Z] 1%Z) with 1%nat. cbn [length].
    replace (INR 1 / INR 2) with (/ 2) by (simpl; field). rewrite ln_Rinv by lra. field. }
  rewrite M1 in H2. replace (ln 2 / ln 2) with 1 in H2 by (field; lra). change (INR 2) with 2 in H2. replace (ln 2 / ln 2) with 1 in H2 by (field; lra). rewrite Rmult_1_r in H2.
  eapply Rle_trans; [exact H2|]. change (nvals (combine [0%Z; 1%Z] [0%Z; 1%Z])) with 2%nat.
  pose proof uro_pos as U0. assert (US1 : uro <= / (8 * 10 ^ 15)) by (unfold uro; apply Rinv_le_contravar; [|]; lra).
  eapply Rle_trans; [apply C109_factor_small; [lra|]|]; cbn [f_order ideal]; rewrite left_depth; change (2 - 1)%nat with 1%nat; change (INR 1) with 1; [lra|].
  unfold base_eps. destruct (Req_EM_T 2 2); [|contradiction]. change (INR 2) with 2. lra.
Qed.
