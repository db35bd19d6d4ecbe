(** C110: local values are the pointwise information of the individual samples, in sample order.  The specification is SpecLocal. *)
From Coq Require Import Reals Lra Lia List ZArith Arith Bool Permutation.
From Verif Require Import Res RSum Spec SpecBase SpecTE SpecInput SpecLocal Info Info2 Ord MBase MData MEntropy MMI MTE SpecOrd MOrd MOrdL PBase PEntropy PCoo PMI PMI2 PMI3 PCMI PMI4 PCMI2 PMI5 PMI6
  PropsMI PTE PTE2 PropsTE PEst PEst3 PEst4 PEst5 PEst6 SpecEst MEst MGeneric MObj SpecObj PropsObj POrd POrd2 POrd3 PropsOrd PLocal SpecGamma.
Import ListNotations.
Local Open Scope R_scope.

Definition in_base (b : base) (ls : list R) : list R := map (fun v => v / unit_of b) ls.

(** ** Entropy *)
Lemma by_count {A B} `{EqDec A} `{EqDec B} (xs : list A) (ys : list B) (f : nat -> R) : same_partition xs ys ->
  map (fun x => f (count xs x)) xs = map (fun y => f (count ys y)) ys.
Proof.
  intros SP. pose proof (proj1 SP) as L. destruct xs as [|x0 xs'] eqn:EX; [destruct ys; [reflexivity|discriminate L]|].
  destruct ys as [|y0 ys'] eqn:EY; [discriminate L|]. rewrite <- EX, <- EY in *.
  match goal with |- map ?g xs = map ?h ys => transitivity (map g (map (fun t => nth t xs x0) (seq 0 (length xs)))); [f_equal; apply list_as_map; reflexivity|];
    transitivity (map h (map (fun t => nth t ys y0) (seq 0 (length xs)))); [|f_equal; symmetry; apply list_as_map; congruence] end.
  rewrite !map_map. apply map_ext_in. intros t Ht. apply in_seq in Ht. f_equal. apply count_nth_partition; [exact SP|lia].
Qed.

Theorem C110_entropy b i : valid_base b -> SpecInput.usable i ->
  local_discrete b i = Ok (in_base b (local_entropy (SpecInput.sample i))).
Proof.
  intros V U. destruct (usable_data i U) as (xs & E & NE & SP & L).
  pose proof (local_1d b xs V NE) as Q. unfold local_discrete in *. rewrite E.
  replace (make_data (EArr (A1 xs))) with (Ok (dd_of xs)) in Q by (symmetry; apply from_data_dd; exact NE). rewrite Q. f_equal.
  unfold in_base, local_entropy. rewrite map_map.
  pose proof (by_count _ _ (fun c => - ln (INR c / INR (length xs)) / unit_of b) SP) as BC. cbv beta in BC.
  unfold prob. rewrite (proj1 SP), BC. apply map_ext. intros x. unfold Rdiv. ring.
Qed.
Print Assumptions C110_entropy.

(** Miller-Madow: the correction is the same for every sample *)
Theorem C110_entropy_mm b i : valid_base b -> SpecInput.usable i ->
  let N := SpecInput.sample i in
  local_mm b i = Ok (in_base b (map (fun v => v + (INR (length (distinct N)) - 1) / (2 * INR (length N))) (local_entropy N))).
Proof.
  intros V U N. destruct (usable_data i U) as (xs & E & NE & SP & L).
  unfold local_mm. rewrite E. cbn [bind]. unfold mm_local. rewrite lookup_probs, mm_factor_ok by assumption. cbn [bind].
  rewrite (mapM_ok _ (fun p => ln p / unit_of b)).
  2:{ intros p Hp. apply in_map_iff in Hp. destruct Hp as (v & <- & Hv). apply log_base_ok; [exact V|apply prob_pos; exact Hv]. }
  cbn [bind]. f_equal. unfold in_base, local_entropy. rewrite !map_map.
  assert (EK : length (distinct N) = length (distinct xs)) by (apply distinct_length_partition; exact SP).
  pose proof (by_count _ _ (fun c => (- ln (INR c / INR (length xs)) + (INR (length (distinct xs)) - 1) / (2 * INR (length xs))) / unit_of b) SP) as BC. cbv beta in BC.
  fold N in SP, BC. unfold prob. rewrite EK, (proj1 SP), BC. apply map_ext. intros x. unfold Rdiv. ring.
Qed.
Print Assumptions C110_entropy_mm.

(** Zhang: H_{N-1} - H_{n-1} with n the number of samples equal to this one *)
Theorem C110_entropy_zhang b i : valid_base b -> SpecInput.usable i ->
  let N := SpecInput.sample i in
  local_of est_zhang b i = Ok (in_base b (map (fun x => harm (length N - 1) - harm (count N x - 1)) N)).
Proof.
  intros V U N. destruct (usable_data i U) as (xs & E & NE & SP & L).
  unfold local_of. rewrite E. cbn [bind]. unfold e_local. cbn [e_calc e_extract est_zhang]. rewrite zhang_ok, zhang_local_ok by assumption.
  unfold rmap. cbn [bind]. f_equal. unfold in_base. rewrite map_map.
  pose proof (by_count _ _ (fun c => zloc (length xs) c / unit_of b) SP) as BC. cbv beta in BC. rewrite <- BC. fold N.
  fold N in SP. rewrite (proj1 SP). reflexivity.
Qed.
Print Assumptions C110_entropy_zhang.

(** ** Mutual information *)
Lemma point_mi b x y : valid_base b -> arr_len x = arr_len y -> (0 < arr_len x)%nat ->
  mi_local b None [x; y] = Ok (in_base b (local_mi (arr_rows x) (arr_rows y))).
Proof. intros V L HN. apply (mi_local_point x y (arr_rows x) (arr_rows y) (arr_len x)); auto using same_partition_refl. Qed.

Theorem C110_mi b (xs ys : list Z) : valid_base b -> length xs = length ys -> xs <> [] ->
  mi_discrete_local b (Some 0%Z) [A1 xs; A1 ys] = Ok (in_base b (local_mi xs ys)).
Proof.
  intros V L NE. unfold mi_discrete_local. rewrite mi_init_2 by exact L. cbn [bind].
  apply (mi_local_point (A1 xs) (A1 ys) xs ys (length xs)); auto; try (apply same_partition_sym; apply singletons_partition).
  apply len_pos. exact NE.
Qed.
Print Assumptions C110_mi.

(** multivariate variables: arrays with rows *)
Theorem C110_mi_rows b x y : valid_base b -> arr_len x = arr_len y -> (0 < arr_len x)%nat ->
  mi_discrete_local b (Some 0%Z) [x; y] = Ok (in_base b (local_mi (arr_rows x) (arr_rows y))).
Proof.
  intros V L HN. unfold mi_discrete_local. unfold mi_init. cbn [length Nat.ltb Nat.leb andb hd forallb nth]. rewrite <- L, Nat.eqb_refl. cbn [andb negb Z.ltb Z.compare bind].
  apply point_mi; assumption.
Qed.

(** with an offset the samples are paired as documented, and the local values are those of the pairs *)
Theorem C110_mi_offset b (xs ys : list Z) o : valid_base b -> length xs = length ys -> (0 < o < length xs)%nat ->
  mi_discrete_local b (Some (Z.of_nat o)) [A1 xs; A1 ys] = Ok (in_base b (local_mi (firstn (length xs - o) xs) (skipn o ys))) /\
  mi_discrete_local b (Some (- Z.of_nat o)%Z) [A1 xs; A1 ys] = Ok (in_base b (local_mi (skipn o xs) (firstn (length ys - o) ys))).
Proof.
  intros V L [Ho Hn]. unfold mi_discrete_local, mi_init. cbn [length Nat.ltb Nat.leb andb hd forallb nth arr_len]. rewrite <- L, Nat.eqb_refl. cbn [andb negb].
  assert (L1 : length (firstn (length xs - o) xs) = (length xs - o)%nat) by (rewrite firstn_length; lia).
  assert (L2 : length (skipn o ys) = (length xs - o)%nat) by (rewrite skipn_length; lia).
  assert (L3 : length (firstn (length ys - o) ys) = (length xs - o)%nat) by (rewrite firstn_length; lia).
  assert (L4 : length (skipn o xs) = (length xs - o)%nat) by (rewrite skipn_length; lia).
  rewrite L in L3 |- *.
  destruct (Z.ltb_spec 0 (Z.of_nat o)); [|lia]. destruct (Z.ltb_spec 0 (- Z.of_nat o)); [lia|]. destruct (Z.ltb_spec (- Z.of_nat o) 0); [|lia].
  rewrite Z.opp_involutive, Nat2Z.id. cbn [bind]. unfold arr_drop_last, arr_skip.
  split.
  - apply (mi_local_point _ _ (firstn (length ys - o) xs) (skipn o ys) (length ys - o)%nat); cbn [arr_len arr_rows]; rewrite ?L; first [exact V | rewrite ?firstn_length, ?skipn_length; lia | apply same_partition_sym, singletons_partition].
  - apply (mi_local_point _ _ (skipn o xs) (firstn (length ys - o) ys) (length ys - o)%nat); cbn [arr_len arr_rows]; rewrite ?L; first [exact V | rewrite ?firstn_length, ?skipn_length; lia | apply same_partition_sym, singletons_partition].
Qed.

(** any number of non-constant variables: the local total correlation *)
Lemma tc_product n cols t : all_len n cols -> (0 < n)%nat -> (t < n)%nat ->
  0 < fold_right Rmult 1 (map (fun '(c, x) => prob c x) (combine cols (map (fun c => nth t c 0%Z) cols))) /\
  ln (fold_right Rmult 1 (map (fun '(c, x) => prob c x) (combine cols (map (fun c => nth t c 0%Z) cols)))) =
  sumf (fun c => ln (INR (count c (nth t c 0%Z)))) cols - INR (length cols) * ln (INR n).
Proof.
  intros HL HN Ht. unfold all_len in HL. induction HL as [|c cs Lc HL [IH1 IH2]]; [cbn; rewrite ln_1; split; lra|].
  cbn [map combine fold_right sumf length]. set (q := fold_right Rmult 1 _) in *. clearbody q.
  assert (P : 0 < INR n) by (apply INR_pos; exact HN).
  assert (P1 : 0 < INR (count c (nth t c 0%Z))) by (apply count_nth_pos; lia).
  rewrite prob_eq, Lc. set (a := INR (count c _)) in *. clearbody a.
  assert (P2 : 0 < a / INR n) by (apply Rdiv_lt_0_compat; assumption).
  split; [apply Rmult_lt_0_compat; assumption|]. rewrite (ln_mult (a / INR n) q), (ln_div a (INR n)), IH2 by assumption. rewrite S_INR. ring.
Qed.

Theorem C110_mi_many b n cols : valid_base b -> (3 <= length cols)%nat -> all_len n cols -> (0 < n)%nat -> no_constant cols ->
  mi_discrete_local b (Some 0%Z) (map A1 cols) = Ok (in_base b (local_tc n cols)).
Proof.
  intros V Hk HL HN NC. assert (NE : cols <> []) by (destruct cols; [cbn [length] in Hk; lia|discriminate]).
  assert (NEm : map A1 cols <> []) by (destruct cols; [congruence|discriminate]).
  pose proof (all_len_arr n cols HL) as HLa.
  unfold mi_discrete_local. rewrite (mi_init_0 (map A1 cols) n) by (rewrite ?map_length; auto using all_len_arr; lia). cbn [bind].
  rewrite (mi_local_ok (map A1 cols) n HLa NEm HN b None V) by (apply no_constant_levels; exact NC). f_equal.
  unfold in_base, local_tc. unfold rows_of at 2. rewrite !map_map. apply map_ext_in. intros t Ht. apply in_seq in Ht. f_equal.
  destruct (tc_product n cols t HL HN ltac:(lia)) as [P1 P2].
  assert (P : 0 < INR n) by (apply INR_pos; exact HN).
  assert (ER : map (fun c => nth t c 0%Z) cols = nth t (rows_of 0%Z n cols) []).
  { unfold rows_of. rewrite nth_map_seq by lia. reflexivity. }
  assert (PR : 0 < INR (count (rows_of 0%Z n cols) (map (fun c => nth t c 0%Z) cols))).
  { rewrite ER. apply count_nth_pos. rewrite rows_of_length. lia. }
  rewrite prob_eq, rows_of_length.
  rewrite ln_div, P2, ln_div by (try assumption; apply Rdiv_lt_0_compat; assumption).
  unfold Gt. rewrite map_length.
  assert (EJ : cnt (seq 0 n) (rowc (map A1 cols)) (rowc (map A1 cols) t) = INR (count (rows_of 0%Z n cols) (map (fun c => nth t c 0%Z) cols))).
  { rewrite ER. apply cnt_list; [apply rows_of_length|lia|]. intros s u Hs Hu.
    rewrite (rowc_partition (map A1 cols) n HLa s u) by assumption. unfold rows_of. rewrite !nth_map_seq by assumption. rewrite !map_map.
    clear -HL Hs Hu. unfold all_len in HL. induction HL as [|c cs Lc HL IH]; [cbn; tauto|]. cbn [map]. rewrite !arr_at_A1 by lia.
    split; intros E; injection E as E1 E2; f_equal; try (apply IH; assumption); congruence. }
  rewrite EJ.
  assert (ES : sumf (fun i => ln (cnt (seq 0 n) (Xi (map A1 cols) i) (Xi (map A1 cols) i t))) (seq 0 (length cols)) = sumf (fun c => ln (INR (count c (nth t c 0%Z)))) cols).
  { rewrite (sumf_ext _ (fun i => ln (INR (count (nth i cols []) (nth t (nth i cols []) 0%Z))))).
    - rewrite <- (sumf_map (fun i => nth i cols []) (fun c => ln (INR (count c (nth t c 0%Z))))).
      rewrite <- (list_as_map [] cols (length cols) eq_refl). reflexivity.
    - intros i Hi. apply in_seq in Hi. do 1 f_equal.
      assert (Li : length (nth i cols []) = n).
      { unfold all_len in HL. rewrite Forall_forall in HL. apply HL, nth_In. lia. }
      apply cnt_list; [exact Li|lia|]. intros s u Hs Hu.
      rewrite (Xi_partition (map A1 cols) n HLa i s u) by (try assumption; rewrite map_length; lia).
      rewrite (map_nth A1). rewrite !arr_at_A1 by lia. split; [intros E; injection E; auto|congruence]. }
  rewrite ES. ring.
Qed.
Print Assumptions C110_mi_many.

(** ** Conditional mutual information *)
Theorem C110_cmi b (xs ys zs : list Z) : valid_base b -> length xs = length ys -> length xs = length zs -> xs <> [] ->
  cmi_discrete_local b [A1 xs; A1 ys] (RArr (A1 zs)) = Ok (in_base b (local_cmi xs ys zs)).
Proof.
  intros V L1 L2 NE. unfold cmi_discrete_local. cbn [reduce_joint_space bind]. rewrite cmi_init_ok by (cbn [arr_len]; congruence). cbn [bind].
  apply (cmi_local_point (A1 xs) (A1 ys) zs xs ys zs (length xs)); auto using same_partition_refl; try (apply same_partition_sym, singletons_partition).
  apply len_pos. exact NE.
Qed.
Print Assumptions C110_cmi.

(** a multivariate condition (2-D array) acts through its rows *)
Theorem C110_cmi_rows b x y (rs : list (list Z)) : valid_base b -> arr_len x = length rs -> arr_len y = length rs -> rs <> [] ->
  cmi_discrete_local b [x; y] (RArr (A2 rs)) = Ok (in_base b (local_cmi (arr_rows x) (arr_rows y) rs)).
Proof.
  intros V L1 L2 NE. unfold cmi_discrete_local. cbn [reduce_joint_space bind arr_len]. unfold cmi_init. rewrite reduce_rows_length, L1, L2, !Nat.eqb_refl. cbn [negb orb bind].
  apply (cmi_local_point x y (reduce_rows rs) (arr_rows x) (arr_rows y) rs (length rs)); auto using same_partition_refl.
  - apply reduce_rows_length.
  - apply reduce_rows_partition.
  - apply len_pos. exact NE.
Qed.

(** ** Transfer entropy *)
Theorem C110_te b (xs ys : list Z) l k s n : valid_base b -> length xs = n -> length ys = n -> (1 <= l)%nat -> (1 <= k)%nat -> (1 <= s)%nat ->
  (Nat.max k l * s < n)%nat ->
  let ts := base_times n (Nat.max k l * s) s in
  te_discrete_local b (A1 xs) (A1 ys) (te_kw l k s) =
  Ok (in_base b (local_cmi (presents 0%Z ys ts) (pasts 0%Z xs s l ts) (pasts 0%Z ys s k ts))).
Proof.
  intros V Lx Ly Hl Hk Hs Hd ts.
  assert (HT : forall b, In b ts -> (Nat.max k l * s <= b < n)%nat).
  { intros b' Hb'. unfold ts in Hb'. rewrite base_times_In in Hb' by exact Hs. tauto. }
  unfold te_discrete_local, te_gen_local. cbn [a_prop a_offset a_step a_src a_dest te_kw].
  rewrite te_init_plain by (cbn [arr_len]; congruence). cbn [bind fst snd].
  rewrite (te_obs_ok (A1 xs) (A1 ys) l k s n Hl Hk Hs Lx Ly RNone ltac:(discriminate) Hd Logic.I). cbn [bind]. fold ts.
  unfold te_form_local. cbn [reduce_joint_space bind].
  rewrite !flat_pasts_1d, flat_presents_1d; try assumption; try (intros b' Hb'; specialize (HT b' Hb'); lia).
  apply (cmi_local_point _ _ _ (presents 0%Z ys ts) (pasts 0%Z xs s l ts) (pasts 0%Z ys s k ts) (length ts)); cbn [arr_len arr_rows];
    rewrite ?map_length, ?reduce_rows_length, ?pasts_length, ?presents_length; auto using same_partition_refl.
  - apply same_partition_sym, singletons_partition.
  - apply reduce_rows_partition.
  - unfold ts. rewrite base_times_length. apply nrows_pos; assumption.
Qed.
Print Assumptions C110_te.

Theorem C110_cte b (xs ys zs : list Z) l k m s n : valid_base b -> length xs = n -> length ys = n -> length zs = n ->
  (1 <= l)%nat -> (1 <= k)%nat -> (1 <= m)%nat -> (1 <= s)%nat -> (Nat.max (Nat.max k l) m * s < n)%nat ->
  let ts := base_times n (Nat.max (Nat.max k l) m * s) s in
  cte_discrete_local b (A1 xs) (A1 ys) (RArr (A1 zs)) (cte_kw l k m s) =
  Ok (in_base b (local_cmi (presents 0%Z ys ts) (pasts 0%Z xs s l ts) (combine (pasts 0%Z ys s k ts) (pasts 0%Z zs s m ts)))).
Proof.
  intros V Lx Ly Lz Hl Hk Hm Hs Hd ts.
  assert (HT : forall b, In b ts -> (Nat.max (Nat.max k l) m * s <= b < n)%nat).
  { intros b' Hb'. unfold ts in Hb'. rewrite base_times_In in Hb' by exact Hs. tauto. }
  unfold cte_discrete_local. cbn [reduce_joint_space bind]. unfold cte_gen_local. cbn [a_prop a_offset a_step a_src a_dest a_cond cte_kw].
  rewrite (cte_init_plain (A1 xs) (A1 ys) (A1 zs) n Lx Ly Lz). cbn [bind].
  rewrite (cte_obs_ok (A1 xs) (A1 ys) l k s n Hl Hk Hs Lx Ly (A1 zs) m RNone Hm Lz ltac:(discriminate) Hd Logic.I). cbn [bind]. fold ts.
  unfold cte_form_local. cbn [reduce_joint_space].
  rewrite !flat_pasts_1d, flat_presents_1d; try assumption; try (intros b' Hb'; specialize (HT b' Hb'); lia).
  rewrite column_stack_2 by (rewrite !pasts_length; reflexivity). unfold rmap. cbn [bind].
  assert (P : same_partition (hcat [pasts 0%Z ys s k ts; pasts 0%Z zs s m ts]) (combine (pasts 0%Z ys s k ts) (pasts 0%Z zs s m ts))).
  { apply (hcat_partition _ _ k); [rewrite !pasts_length; reflexivity|].
    intros r Hr. unfold pasts in Hr. apply in_map_iff in Hr. destruct Hr as (b' & <- & _). apply past_length. }
  apply (cmi_local_point _ _ _ (presents 0%Z ys ts) (pasts 0%Z xs s l ts) (combine (pasts 0%Z ys s k ts) (pasts 0%Z zs s m ts)) (length ts)); cbn [arr_len arr_rows];
    rewrite ?map_length, ?reduce_rows_length, ?pasts_length, ?presents_length; auto using same_partition_refl.
  - rewrite (proj1 P), combine_length, !pasts_length. lia.
  - apply same_partition_sym, singletons_partition.
  - eapply same_partition_trans; [apply same_partition_sym, P|apply reduce_rows_partition].
  - unfold ts. rewrite base_times_length. apply nrows_pos; assumption.
Qed.
Print Assumptions C110_cte.
