(** C110 continued: ordinal estimators; consequences of the pointwise formulas. *)
From Coq Require Import Reals Lra Lia List ZArith Arith Bool Permutation.
From Verif Require Import Res RSum Spec SpecBase SpecTE SpecInput SpecLocal Info Info2 Ord MBase MData MEntropy MMI MTE SpecOrd MOrd MOrdL PBase PEntropy PCoo PMI PMI2 PMI3 PCMI PMI4 PCMI2 PMI5 PMI6
  PropsMI PTE PTE2 PropsTE PEst PEst3 PEst4 PEst5 PEst6 SpecEst MEst MGeneric MObj SpecObj PropsObj POrd POrd2 POrd3 PropsOrd PLocal PropsPoint.
Import ListNotations.
Local Open Scope R_scope.

Section Ordinal.
Context {T : Type} `{Cmp T}.

Lemma est_probs_part (k : kind T) x0 (xs : list T) d s : (2 <= d)%nat -> (1 <= s)%nat -> ((d - 1) * s < length xs)%nat ->
  exists dict ps, est_probs k xs (Z.of_nat d) (Z.of_nat s) = Ok (dict, ps) /\ is_dist dict ps /\
    same_partition (map (eff_sort k d s) (windows x0 xs d s)) ps.
Proof.
  intros Hd Hs L. unfold est_probs, eff_sort.
  destruct (Nat.eqb_spec s 1) as [->|Ns].
  - destruct (Nat.eqb_spec d 2) as [->|N2]; [|destruct (Nat.eqb_spec d 3) as [->|N3]].
    + cbn [orb andb Z.of_nat]. change ((2 =? 2)%Z && (1 =? 1)%Z)%bool with true. cbv iota.
      exists (fst (est_dim2 xs)), (snd (est_dim2 xs)). split; [destruct (est_dim2 xs); reflexivity|].
      split; [apply est_dim2_dict; simpl in L; lia|]. rewrite (est_dim2_pats x0). apply same_partition_refl.
    + change (Z.of_nat 3) with 3%Z. change (Z.of_nat 1) with 1%Z. cbn [Z.eqb Pos.eqb andb orb]. cbv iota.
      destruct (est_dim3_ok xs) as (dict & E & D); [simpl in L; lia|]. exists dict, (map num3 (keys3 xs)). split; [exact E|]. split; [exact D|].
      assert (EP : map argsort_rev (windows x0 xs 3 1) = map pat3 (keys3 xs)).
      { rewrite windows_3. unfold keys3. rewrite !map_map. apply map_ext. intros [[x y] z]. apply argsort_rev_3. }
      rewrite EP. eapply same_partition_trans.
      * apply same_partition_sym, map_inj_partition. intros a b Ha Hb. apply pat3_inj; eapply keys3_valid; eassumption.
      * apply map_inj_partition. intros a b Ha Hb. apply num3_inj; eapply keys3_valid; eassumption.
    + destruct (Z.eqb_spec (Z.of_nat d) 2); [lia|]. destruct (Z.eqb_spec (Z.of_nat d) 3); [lia|]. cbn [andb orb].
      rewrite (symbolize_ok k x0) by lia. cbn [bind]. do 2 eexists. split; [reflexivity|].
      split; [|apply same_partition_refl].
      replace (IZR (Z.of_nat (length xs) - (Z.of_nat d - 1) * Z.of_nat 1)) with (INR (length (map (argsort k) (windows x0 xs d 1)))); [apply is_dist_counter|].
      rewrite map_length, windows_length, INR_IZR_INZ. f_equal. lia.
  - destruct (Z.eqb_spec (Z.of_nat s) 1); [lia|]. rewrite !andb_false_r. cbn [andb].
    rewrite (symbolize_ok k x0) by lia. cbn [bind]. do 2 eexists. split; [reflexivity|].
    split; [|apply same_partition_refl].
    replace (IZR (Z.of_nat (length xs) - (Z.of_nat d - 1) * Z.of_nat s)) with (INR (length (map (argsort k) (windows x0 xs d s)))); [apply is_dist_counter|].
    rewrite map_length, windows_length, INR_IZR_INZ. f_equal. nia.
Qed.

(** ordinal entropy: the surprise of the pattern of each window.  [p] sorts every window (ties resolved in some fixed way). *)
Theorem C110_ordinal_entropy (k : kind T) b x0 (xs : list T) d s : legal_kind k -> valid_base b ->
  (2 <= d)%nat -> (1 <= s)%nat -> ((d - 1) * s < length xs)%nat ->
  exists p, sorting p /\
  local_ordinal k b xs (Z.of_nat d) (Z.of_nat s) = Ok (in_base b (local_entropy (patterns p x0 xs d s))).
Proof.
  intros LK V Hd Hs L. exists (eff_sort k d s). split; [intros w; apply eff_sort_sorts; exact LK|].
  unfold local_ordinal. rewrite ord_init_ok by (try lia; exact L). cbn [bind]. unfold ord_simple.
  destruct (Z.eqb_spec (Z.of_nat d) 1) as [E1|N1]; [lia|].
  destruct (Z.eqb_spec ((Z.of_nat d - 1) * Z.of_nat s + 1) (Z.of_nat (length xs))) as [E2|N2].
  - cbn [bind snd]. set (p := k_df k xs). assert (EQ : pget [(p, 1)] p = Ok 1) by (cbn [pget]; destruct (list_eq_dec Nat.eq_dec p p); [reflexivity|congruence]).
    cbn [mapM]. rewrite EQ. cbn [bind mapM]. rewrite log_base_ok by (try exact V; lra). cbn [bind map]. f_equal.
    assert (LW : length (windows x0 xs d s) = 1%nat) by (rewrite windows_length; nia).
    unfold patterns. destruct (windows x0 xs d s) as [|w [|]]; try discriminate. unfold in_base, local_entropy. cbn [map]. f_equal.
    assert (EP : prob [eff_sort k d s w] (eff_sort k d s w) = 1).
    { unfold prob, count. cbn [count_occ length]. destruct (eq_dec _ _) as [|C]; [|congruence]. cbn [INR]. unfold Rdiv. field. }
    rewrite EP. unfold Rdiv. ring.
  - destruct (est_probs_part k x0 xs d s) as (dict & ps & E & D & SP); [lia|exact Hs|exact L|]. rewrite E. cbn [bind fst].
    rewrite (is_dist_plogp b dict ps V D). cbn [bind snd].
    rewrite (mapM_ok _ (prob ps)) by (intros p Hp; apply pget_spec; assumption). cbn [bind].
    rewrite (mapM_ok _ (fun p => ln p / unit_of b)).
    2:{ intros p Hp. apply in_map_iff in Hp. destruct Hp as (q & <- & Hq). apply log_base_ok; [exact V|apply prob_pos, Hq]. }
    cbn [bind]. f_equal. unfold in_base, local_entropy. rewrite !map_map. fold (patterns (eff_sort k d s) x0 xs d s) in SP.
    set (P := patterns (eff_sort k d s) x0 xs d s) in *.
    pose proof (by_count _ _ (fun c => - ln (INR c / INR (length P)) / unit_of b) SP) as BC. cbv beta in BC.
    unfold prob. rewrite <- (proj1 SP), BC. apply map_ext. intros y. unfold Rdiv. ring.
Qed.

Lemma ordinal_mi_point (k : kind T) b x0 (xs ys : list T) d s : legal_kind k -> big_base b ->
  (1 <= d)%nat -> (1 <= s)%nat -> length xs = length ys -> ((d - 1) * s < length xs)%nat -> small2 (length xs) ->
  mi_ordinal_local k b 0 [xs; ys] (Z.of_nat d) (Z.of_nat s) = Ok (in_base b (local_mi (patterns (argsort k) x0 xs d s) (patterns (argsort k) x0 ys d s))).
Proof.
  intros K B D S L W SM.
  assert (EM : exists v, mi_ordinal k b 0 [xs; ys] (Z.of_nat d) (Z.of_nat s) = Ok v).
  { destruct (C58_ordinal_mi k b x0 xs ys d s K B D S L W SM) as (p & _ & _ & E & _). eexists. exact E. }
  destruct EM as [v EM]. unfold mi_ordinal_local. rewrite EM. cbn [ord_mi_init length Nat.ltb Nat.leb hd forallb andb negb nth].
  rewrite <- L, !Nat.eqb_refl. cbn [andb negb Z.ltb Z.compare bind hd].
  rewrite (checks_ok xs d s D S) by lia. cbn [bind mapM].
  destruct (ord_symbols_ok k x0 xs d s K D S W) as (cu & Eu & Pu).
  destruct (ord_symbols_ok k x0 ys d s K D S ltac:(lia)) as (cv & Ev & Pv).
  rewrite Eu, Ev. cbn [bind map].
  apply (mi_local_point (A1 cu) (A1 cv) _ _ (length xs - (d - 1) * s)%nat); [ | | | | |apply big_valid; exact B].
  - cbn [arr_len]. rewrite <- (proj1 Pu). apply patterns_length.
  - cbn [arr_len]. rewrite <- (proj1 Pv), patterns_length. congruence.
  - eapply same_partition_trans; [exact Pu|]. apply same_partition_sym, singletons_partition.
  - eapply same_partition_trans; [exact Pv|]. apply same_partition_sym, singletons_partition.
  - lia.
Qed.
Theorem C110_ordinal_mi (k : kind T) b x0 (xs ys : list T) d s : legal_kind k -> big_base b ->
  (1 <= d)%nat -> (1 <= s)%nat -> length xs = length ys -> ((d - 1) * s < length xs)%nat -> small2 (length xs) ->
  exists p, sorting p /\ (k_stable k = true -> stable_sorting p) /\
  mi_ordinal_local k b 0 [xs; ys] (Z.of_nat d) (Z.of_nat s) = Ok (in_base b (local_mi (patterns p x0 xs d s) (patterns p x0 ys d s))).
Proof.
  intros K B D S L W SM. exists (argsort k). split; [intros w; apply argsort_sorts; exact K|].
  split; [intros St w; unfold argsort; rewrite St; apply argsort_stable_ok|]. apply ordinal_mi_point; assumption.
Qed.
(** with an offset: the shifted series are paired *)
Lemma ord_init_pair (u v : list T) : length u = length v -> ord_mi_init 0 [u; v] = Ok [u; v].
Proof. intros L. unfold ord_mi_init. cbn [length Nat.ltb Nat.leb hd forallb andb negb nth Z.ltb Z.compare Z.eqb]. rewrite <- L, !Nat.eqb_refl. reflexivity. Qed.
Lemma ord_local_reduce (k : kind T) b o (xs ys u v : list T) d s : ord_mi_init o [xs; ys] = Ok [u; v] -> length u = length v ->
  mi_ordinal_local k b o [xs; ys] d s = mi_ordinal_local k b 0 [u; v] d s.
Proof. intros E L. unfold mi_ordinal_local, mi_ordinal. rewrite E, (ord_init_pair u v L). reflexivity. Qed.
Theorem C110_ordinal_mi_offset (k : kind T) b x0 (xs ys : list T) o d s : legal_kind k -> big_base b ->
  (1 <= d)%nat -> (1 <= s)%nat -> length xs = length ys -> (0 < o)%nat -> ((d - 1) * s < length xs - o)%nat -> small2 (length xs - o) ->
  exists p, sorting p /\ (k_stable k = true -> stable_sorting p) /\
  mi_ordinal_local k b (Z.of_nat o) [xs; ys] (Z.of_nat d) (Z.of_nat s) =
    Ok (in_base b (local_mi (patterns p x0 (firstn (length xs - o) xs) d s) (patterns p x0 (skipn o ys) d s))) /\
  mi_ordinal_local k b (- Z.of_nat o) [xs; ys] (Z.of_nat d) (Z.of_nat s) =
    Ok (in_base b (local_mi (patterns p x0 (skipn o xs) d s) (patterns p x0 (firstn (length ys - o) ys) d s))).
Proof.
  intros K B D S L O W SM.
  assert (L1 : length (firstn (length xs - o) xs) = (length xs - o)%nat) by (rewrite firstn_length; lia).
  assert (L2 : length (skipn o ys) = (length xs - o)%nat) by (rewrite skipn_length; lia).
  assert (L3 : length (firstn (length ys - o) ys) = (length xs - o)%nat) by (rewrite firstn_length; lia).
  assert (L4 : length (skipn o xs) = (length xs - o)%nat) by (rewrite skipn_length; lia).
  exists (argsort k). split; [intros w; apply argsort_sorts; exact K|]. split; [intros St w; unfold argsort; rewrite St; apply argsort_stable_ok|].
  rewrite (ord_local_reduce k b (Z.of_nat o) xs ys (firstn (length xs - o) xs) (skipn o ys)),
    (ord_local_reduce k b (- Z.of_nat o) xs ys (skipn o xs) (firstn (length ys - o) ys)); try congruence.
  - split; apply ordinal_mi_point; auto; rewrite ?L1, ?L2, ?L3, ?L4; auto.
  - unfold ord_mi_init. cbn [length Nat.ltb Nat.leb hd forallb andb negb nth]. rewrite <- L, !Nat.eqb_refl. cbn [andb negb].
    destruct (Z.ltb_spec 0 (- Z.of_nat o)); [lia|]. destruct (Z.ltb_spec (- Z.of_nat o) 0); [|lia]. rewrite Z.opp_involutive, Nat2Z.id, L. reflexivity.
  - unfold ord_mi_init. cbn [length Nat.ltb Nat.leb hd forallb andb negb nth]. rewrite <- L, !Nat.eqb_refl. cbn [andb negb].
    destruct (Z.ltb_spec 0 (Z.of_nat o)); [|lia]. rewrite Nat2Z.id. reflexivity.
Qed.


Theorem C110_ordinal_cmi (k : kind T) b x0 (xs ys zs : list T) d s : legal_kind k -> valid_base b ->
  (1 <= d)%nat -> (1 <= s)%nat -> length xs = length ys -> length xs = length zs -> ((d - 1) * s < length xs)%nat -> small2 (length xs) ->
  exists p, sorting p /\ (k_stable k = true -> stable_sorting p) /\
  cmi_ordinal_local k b [xs; ys] zs (Z.of_nat d) (Z.of_nat s) =
  Ok (in_base b (local_cmi (patterns p x0 xs d s) (patterns p x0 ys d s) (patterns p x0 zs d s))).
Proof.
  intros K B D S L1 L2 W SM. exists (argsort k). split; [intros w; apply argsort_sorts; exact K|].
  split; [intros St w; unfold argsort; rewrite St; apply argsort_stable_ok|].
  assert (EM : exists v, cmi_ordinal k b [xs; ys] zs (Z.of_nat d) (Z.of_nat s) = Ok v).
  { destruct (C58_ordinal_cmi k b x0 xs ys zs d s K B D S L1 L2 W SM) as (p & _ & _ & E & _). eexists. exact E. }
  destruct EM as [v EM]. unfold cmi_ordinal_local. rewrite EM. cbn [bind mapM].
  destruct (ord_symbols_ok k x0 xs d s K D S W) as (cu & Eu & Pu).
  destruct (ord_symbols_ok k x0 ys d s K D S ltac:(lia)) as (cv & Ev & Pv).
  destruct (ord_symbols_ok k x0 zs d s K D S ltac:(lia)) as (cz & Ez & Pz).
  rewrite Eu, Ev, Ez. cbn [bind map].
  apply (cmi_local_point (A1 cu) (A1 cv) cz _ _ _ (length xs - (d - 1) * s)%nat); [ | | | | | | |exact B].
  - cbn [arr_len]. rewrite <- (proj1 Pu). apply patterns_length.
  - cbn [arr_len]. rewrite <- (proj1 Pv), patterns_length. congruence.
  - rewrite <- (proj1 Pz), patterns_length. congruence.
  - eapply same_partition_trans; [exact Pu|]. apply same_partition_sym, singletons_partition.
  - eapply same_partition_trans; [exact Pv|]. apply same_partition_sym, singletons_partition.
  - exact Pz.
  - lia.
Qed.

Theorem C110_ordinal_te (k : kind T) b x0 (xs ys : list T) d l kk s n : legal_kind k -> valid_base b ->
  (1 <= d <= 20)%nat -> (1 <= s)%nat -> length xs = length ys -> ((d - 1) * s < length xs)%nat ->
  n = (length xs - (d - 1) * s)%nat -> (1 <= l)%nat -> (1 <= kk)%nat -> (Nat.max kk l * s < n)%nat -> small2 n ->
  exists p, sorting p /\ (k_stable k = true -> stable_sorting p) /\
  let ts := base_times n (Nat.max kk l * s) s in
  let px := patterns p x0 xs d s in let py := patterns p x0 ys d s in
  te_ordinal_local k b xs ys (Z.of_nat d) (NInt (Z.of_nat l)) (NInt (Z.of_nat kk)) (NInt (Z.of_nat s)) =
  Ok (in_base b (local_cmi (presents [] py ts) (pasts [] px s l ts) (pasts [] py s kk ts))).
Proof.
  intros K B D S L W En Hl Hk Hd SM. exists (argsort k). split; [intros w; apply argsort_sorts; exact K|].
  split; [intros St w; unfold argsort; rewrite St; apply argsort_stable_ok|]. intros ts px py.
  assert (HT : forall b', In b' ts -> (b' < n)%nat).
  { intros b' Hb'. unfold ts in Hb'. rewrite base_times_In in Hb' by exact S. lia. }
  assert (EM : exists v, te_ordinal k b xs ys (Z.of_nat d) (NInt (Z.of_nat l)) (NInt (Z.of_nat kk)) (NInt (Z.of_nat s)) RNone = Ok v).
  { destruct (C58_ordinal_te k b x0 xs ys d l kk s n K B D S L W En Hl Hk Hd SM) as (p & _ & _ & E & _). eexists. exact E. }
  destruct EM as [v EM]. unfold te_ordinal_local. rewrite EM. cbn [bind].
  destruct (symbolize_int_part k x0 xs d s K D S W) as (cx & Ex & Px).
  destruct (symbolize_int_part k x0 ys d s K D S ltac:(lia)) as (cy & Ey & Py).
  assert (Lx : length cx = n) by (rewrite <- (proj1 Px), patterns_length; congruence).
  assert (Ly : length cy = n) by (rewrite <- (proj1 Py), patterns_length; congruence).
  rewrite Ex, Ey. cbn [bind].
  rewrite (te_obs_ok (A1 cx) (A1 cy) l kk s n Hl Hk S Lx Ly RNone ltac:(discriminate) Hd Logic.I). cbn [bind]. fold ts.
  unfold te_form_local. cbn [reduce_joint_space bind].
  rewrite !flat_pasts_1d, flat_presents_1d; try assumption; try (intros b' Hb'; specialize (HT b' Hb'); lia).
  assert (QX : same_partition (pasts [] px s l ts) (pasts 0%Z cx s l ts)).
  { apply pasts_partition; [exact Px| |exact S]. intros b' Hb'. rewrite (proj1 Px : length px = _), Lx. auto. }
  assert (QY : same_partition (pasts [] py s kk ts) (pasts 0%Z cy s kk ts)).
  { apply pasts_partition; [exact Py| |exact S]. intros b' Hb'. rewrite (proj1 Py : length py = _), Ly. auto. }
  apply (cmi_local_point _ _ _ (presents [] py ts) (pasts [] px s l ts) (pasts [] py s kk ts) (length ts)); cbn [arr_len arr_rows];
    rewrite ?map_length, ?reduce_rows_length, ?pasts_length, ?presents_length; auto.
  - eapply same_partition_trans; [|apply same_partition_sym, singletons_partition].
    apply presents_partition; [exact Py|]. intros b' Hb'. rewrite (proj1 Py : length py = _), Ly. auto.
  - eapply same_partition_trans; [exact QY|apply reduce_rows_partition].
  - unfold ts. rewrite base_times_length. apply nrows_pos; assumption.
Qed.

Theorem C110_ordinal_cte (k : kind T) b x0 (xs ys zs : list T) d l kk m s n : legal_kind k -> valid_base b ->
  (1 <= d <= 20)%nat -> (1 <= s)%nat -> length xs = length ys -> length xs = length zs -> ((d - 1) * s < length xs)%nat ->
  n = (length xs - (d - 1) * s)%nat -> (1 <= l)%nat -> (1 <= kk)%nat -> (1 <= m)%nat ->
  (Nat.max (Nat.max kk l) m * s < n)%nat -> small2 n ->
  exists p, sorting p /\ (k_stable k = true -> stable_sorting p) /\
  let ts := base_times n (Nat.max (Nat.max kk l) m * s) s in
  let px := patterns p x0 xs d s in let py := patterns p x0 ys d s in let pz := patterns p x0 zs d s in
  cte_ordinal_local k b xs ys zs (Z.of_nat d) (NInt (Z.of_nat l)) (NInt (Z.of_nat kk)) (NInt (Z.of_nat m)) (NInt (Z.of_nat s)) =
  Ok (in_base b (local_cmi (presents [] py ts) (pasts [] px s l ts) (combine (pasts [] py s kk ts) (pasts [] pz s m ts)))).
Proof.
  intros K B D S L L2 W En Hl Hk Hm Hd SM. exists (argsort k). split; [intros w; apply argsort_sorts; exact K|].
  split; [intros St w; unfold argsort; rewrite St; apply argsort_stable_ok|]. intros ts px py pz.
  assert (HT : forall b', In b' ts -> (b' < n)%nat).
  { intros b' Hb'. unfold ts in Hb'. rewrite base_times_In in Hb' by exact S. lia. }
  assert (EM : exists v, cte_ordinal k b xs ys zs (Z.of_nat d) (NInt (Z.of_nat l)) (NInt (Z.of_nat kk)) (NInt (Z.of_nat m)) (NInt (Z.of_nat s)) = Ok v).
  { destruct (C58_ordinal_cte k b x0 xs ys zs d l kk m s n K B D S L L2 W En Hl Hk Hm Hd SM) as (p & _ & _ & E & _). eexists. exact E. }
  destruct EM as [v EM]. unfold cte_ordinal_local. rewrite EM. cbn [bind].
  destruct (symbolize_int_part k x0 xs d s K D S W) as (cx & Ex & Px).
  destruct (symbolize_int_part k x0 ys d s K D S ltac:(lia)) as (cy & Ey & Py).
  destruct (symbolize_int_part k x0 zs d s K D S ltac:(lia)) as (cz & Ez & Pz).
  assert (Lx : length cx = n) by (rewrite <- (proj1 Px), patterns_length; congruence).
  assert (Ly : length cy = n) by (rewrite <- (proj1 Py), patterns_length; congruence).
  assert (Lz : length cz = n) by (rewrite <- (proj1 Pz), patterns_length; congruence).
  rewrite Ex, Ey, Ez. cbn [bind].
  rewrite (cte_obs_ok (A1 cx) (A1 cy) l kk s n Hl Hk S Lx Ly (A1 cz) m RNone Hm Lz ltac:(discriminate) Hd Logic.I). cbn [bind]. fold ts.
  unfold cte_form_local. cbn [reduce_joint_space].
  rewrite !flat_pasts_1d, flat_presents_1d; try assumption; try (intros b' Hb'; specialize (HT b' Hb'); lia).
  rewrite column_stack_2 by (rewrite !pasts_length; reflexivity). unfold rmap. cbn [bind].
  assert (P : same_partition (hcat [pasts 0%Z cy s kk ts; pasts 0%Z cz s m ts]) (combine (pasts 0%Z cy s kk ts) (pasts 0%Z cz s m ts))).
  { apply (hcat_partition _ _ kk); [rewrite !pasts_length; reflexivity|].
    intros r Hr. unfold pasts in Hr. apply in_map_iff in Hr. destruct Hr as (b' & <- & _). apply past_length. }
  assert (QX : same_partition (pasts [] px s l ts) (pasts 0%Z cx s l ts)).
  { apply pasts_partition; [exact Px| |exact S]. intros b' Hb'. rewrite (proj1 Px : length px = _), Lx. auto. }
  assert (QY : same_partition (pasts [] py s kk ts) (pasts 0%Z cy s kk ts)).
  { apply pasts_partition; [exact Py| |exact S]. intros b' Hb'. rewrite (proj1 Py : length py = _), Ly. auto. }
  assert (QZ : same_partition (pasts [] pz s m ts) (pasts 0%Z cz s m ts)).
  { apply pasts_partition; [exact Pz| |exact S]. intros b' Hb'. rewrite (proj1 Pz : length pz = _), Lz. auto. }
  apply (cmi_local_point _ _ _ (presents [] py ts) (pasts [] px s l ts) (combine (pasts [] py s kk ts) (pasts [] pz s m ts)) (length ts)); cbn [arr_len arr_rows];
    rewrite ?map_length, ?reduce_rows_length, ?pasts_length, ?presents_length; auto.
  - rewrite (proj1 P), combine_length, !pasts_length. lia.
  - eapply same_partition_trans; [|apply same_partition_sym, singletons_partition].
    apply presents_partition; [exact Py|]. intros b' Hb'. rewrite (proj1 Py : length py = _), Ly. auto.
  - apply (same_partition_trans _ (combine (pasts 0%Z cy s kk ts) (pasts 0%Z cz s m ts)));
      [apply same_partition_combine; [rewrite !pasts_length; reflexivity|exact QY|exact QZ]|].
    eapply same_partition_trans; [apply same_partition_sym, P|apply reduce_rows_partition].
  - unfold ts. rewrite base_times_length. apply nrows_pos; assumption.
Qed.
End Ordinal.
Print Assumptions C110_ordinal_cte.

(** ** Consequences *)
Lemma local_entropy_part {A B} `{EqDec A} `{EqDec B} (xs : list A) (ys : list B) : same_partition xs ys -> local_entropy xs = local_entropy ys.
Proof.
  intros SP. unfold local_entropy, prob. rewrite (proj1 SP). apply (by_count xs ys (fun c => - ln (INR c / INR (length ys))) SP).
Qed.

Lemma tuple_sample (cols : list (list Z)) n : cols <> [] -> all_len n cols -> (0 < n)%nat ->
  SpecInput.usable (ETuple (map A1 cols)) /\ SpecInput.sample (ETuple (map A1 cols)) = rows_of 0%Z n cols.
Proof.
  intros NE HL HN. assert (IS : input_size (ETuple (map A1 cols)) = n).
  { destruct cols as [|c cs]; [congruence|]. unfold all_len in HL. inversion HL; subst. reflexivity. }
  split.
  - split; [rewrite IS; exact HN|]. rewrite IS. apply all_len_arr. exact HL.
  - unfold SpecInput.sample. rewrite IS. unfold rows_of. apply map_ext_in. intros t Ht. apply in_seq in Ht. rewrite map_map. clear NE IS.
    unfold all_len in HL. induction HL as [|c cs Lc HL IH]; [reflexivity|]. cbn [map concat]. rewrite IH. cbn [arr_rows].
    rewrite (nth_indep _ [] [0%Z]) by (rewrite map_length; lia). rewrite (map_nth (fun v => [v])). reflexivity.
Qed.

(** the local mutual information is, sample by sample, the surprise of x plus that of y minus that of the pair *)
Theorem C110_mi_combination b (xs ys : list Z) : valid_base b -> length xs = length ys -> xs <> [] ->
  exists lx ly lxy ls,
  local_discrete b (EArr (A1 xs)) = Ok lx /\ local_discrete b (EArr (A1 ys)) = Ok ly /\ local_discrete b (ETuple [A1 xs; A1 ys]) = Ok lxy /\
  mi_discrete_local b (Some 0%Z) [A1 xs; A1 ys] = Ok ls /\ length ls = length xs /\
  forall i, (i < length xs)%nat -> nth i ls 0 = nth i lx 0 + nth i ly 0 - nth i lxy 0.
Proof.
  intros V L NE. assert (HN : (0 < length xs)%nat) by (apply len_pos; exact NE).
  assert (HL : all_len (length xs) [xs; ys]) by (repeat constructor; auto).
  destruct (tuple_sample [xs; ys] (length xs) ltac:(discriminate) HL HN) as [U3 E3]. cbn [map] in U3, E3.
  assert (U1 : SpecInput.usable (EArr (A1 xs))) by (split; [exact HN|exact Logic.I]).
  assert (U2 : SpecInput.usable (EArr (A1 ys))) by (split; [cbn; lia|exact Logic.I]).
  rewrite (C110_entropy b _ V U1), (C110_entropy b _ V U2), (C110_entropy b _ V U3), (C110_mi b xs ys V L NE).
  do 4 eexists. repeat (split; [reflexivity|]).
  assert (P2 : same_partition (rows_of 0%Z (length xs) [xs; ys]) (combine xs ys)).
  { split; [rewrite rows_of_length, combine_length; lia|]. rewrite rows_of_length.
    intros i j dx [d1 d2] Hi Hj. unfold rows_of. rewrite !nth_map_seq by assumption. rewrite !combine_nth by lia. cbn [map].
    rewrite (nth_indep xs 0%Z d1), (nth_indep ys 0%Z d2), (nth_indep xs 0%Z d1), (nth_indep ys 0%Z d2) by lia.
    split; intros E; injection E; intros; congruence. }
  rewrite E3, (local_entropy_part _ _ P2). cbn [SpecInput.sample arr_rows].
  rewrite (local_entropy_part _ xs (singletons_partition xs)), (local_entropy_part _ ys (singletons_partition ys)).
  unfold in_base, local_mi, local_entropy. rewrite !map_map.
  assert (Lc : length (combine xs ys) = length xs) by (rewrite combine_length; lia).
  split; [rewrite map_length; exact Lc|]. intros i Hi.
  destruct xs as [|x0 xs'] eqn:EX; [congruence|]. destruct ys as [|y0 ys'] eqn:EY; [discriminate L|]. rewrite <- EX, <- EY in *.
  assert (N1 : forall (A : Type) (f : A -> R) (l : list A) d, (i < length l)%nat -> nth i (map f l) 0 = f (nth i l d)).
  { intros A f l d Hl. rewrite (nth_indep _ 0 (f d)) by (rewrite map_length; exact Hl). apply map_nth. }
  rewrite (N1 _ _ _ (x0, y0)) by lia. rewrite (N1 _ _ xs x0) by lia. rewrite (N1 _ _ ys y0) by lia. rewrite (N1 _ _ (combine xs ys) (x0, y0)) by lia.
  rewrite combine_nth by congruence. set (x := nth i xs x0). set (y := nth i ys y0).
  assert (P : 0 < prob (combine xs ys) (x, y)).
  { apply prob_pos. unfold x, y. rewrite <- combine_nth by congruence. apply nth_In. lia. }
  assert (Px : 0 < prob xs x) by (apply prob_pos, nth_In; lia). assert (Py : 0 < prob ys y) by (apply prob_pos, nth_In; lia).
  set (pxy := prob (combine xs ys) (x, y)) in *. set (px := prob xs x) in *. set (py := prob ys y) in *. clearbody pxy px py.
  rewrite (ln_div pxy (px * py)), (ln_mult px py) by (try apply Rmult_lt_0_compat; assumption). unfold Rdiv. ring.
Qed.
Print Assumptions C110_mi_combination.

(** reading the samples in another order reorders the local values in the same way *)
Definition read {A} (d : A) (sg : list nat) (xs : list A) : list A := map (fun i => nth i xs d) sg.

Lemma read_perm {A} (d : A) sg (xs : list A) : Permutation sg (seq 0 (length xs)) -> Permutation (read d sg xs) xs.
Proof. intros P. unfold read. rewrite (Permutation_map _ P). rewrite <- (list_as_map d xs (length xs) eq_refl). reflexivity. Qed.

Lemma read_combine {A B} (da : A) (db : B) sg (xs : list A) (ys : list B) : length xs = length ys ->
  combine (read da sg xs) (read db sg ys) = read (da, db) sg (combine xs ys).
Proof.
  intros L. unfold read. rewrite combine_map. apply map_ext. intros t. rewrite combine_nth by exact L. reflexivity.
Qed.

Lemma read_map {A} (f : A -> R) d sg (xs : list A) : Permutation sg (seq 0 (length xs)) -> map f (read d sg xs) = read 0 sg (map f xs).
Proof.
  intros P. unfold read. rewrite map_map. apply map_ext_in. intros i Hi. apply (Permutation_in _ P) in Hi. apply in_seq in Hi.
  symmetry. rewrite (nth_indep _ 0 (f d)) by (rewrite map_length; lia). apply map_nth.
Qed.

Theorem C110_reorder b (xs ys : list Z) sg : valid_base b -> length xs = length ys -> xs <> [] -> Permutation sg (seq 0 (length xs)) ->
  exists ls lx, mi_discrete_local b (Some 0%Z) [A1 xs; A1 ys] = Ok ls /\
  mi_discrete_local b (Some 0%Z) [A1 (read 0%Z sg xs); A1 (read 0%Z sg ys)] = Ok (read 0 sg ls) /\
  local_discrete b (EArr (A1 xs)) = Ok lx /\ local_discrete b (EArr (A1 (read 0%Z sg xs))) = Ok (read 0 sg lx).
Proof.
  intros V L NE P. pose proof (read_perm 0%Z sg xs P) as Px.
  assert (P' : Permutation sg (seq 0 (length ys))) by (rewrite <- L; exact P). pose proof (read_perm 0%Z sg ys P') as Py.
  assert (NE' : read 0%Z sg xs <> []). { intros E. rewrite E in Px. apply Permutation_nil in Px. congruence. }
  assert (L' : length (read 0%Z sg xs) = length (read 0%Z sg ys)) by (unfold read; rewrite !map_length; reflexivity).
  assert (Lc : length (combine xs ys) = length xs) by (rewrite combine_length; lia).
  assert (Pc : Permutation sg (seq 0 (length (combine xs ys)))) by (rewrite Lc; exact P).
  rewrite (C110_mi b xs ys V L NE), (C110_mi b _ _ V L' NE'), (local_1d b xs V NE), (local_1d b _ V NE').
  assert (PP : forall (A : Type) (ED : EqDec A) (l1 l2 : list A) a, Permutation l1 l2 -> prob l1 a = prob l2 a).
  { intros A ED l1 l2 a Q. unfold prob. rewrite (count_perm l1 l2 a Q), (Permutation_length Q). reflexivity. }
  do 2 eexists. split; [reflexivity|]. split; [|split; [reflexivity|]]; f_equal.
  - unfold in_base, local_mi. rewrite (read_combine 0%Z 0%Z sg xs ys L), !map_map, <- (read_map _ (0%Z, 0%Z) sg (combine xs ys) Pc).
    apply map_ext. intros [x y].
    rewrite (PP _ _ _ _ (x, y) (read_perm (0%Z, 0%Z) sg (combine xs ys) Pc)), (PP _ _ _ _ x Px), (PP _ _ _ _ y Py). reflexivity.
  - rewrite <- (read_map _ 0%Z sg xs P). apply map_ext. intros x. rewrite (PP _ _ _ _ x Px). reflexivity.
Qed.
Print Assumptions C110_reorder.

(** concrete: three samples; the second is the only (1, 0) pair *)
Example C110_example : exists v, mi_discrete_local BE (Some 0%Z) [A1 [0; 1; 0]%Z; A1 [5; 0; 5]%Z] = Ok [v; ln 3; v] /\ v = ln (3 / 2).
Proof.
  assert (E : in_base BE (local_mi [0; 1; 0]%Z [5; 0; 5]%Z) = [ln (3 / 2); ln 3; ln (3 / 2)]).
  { unfold in_base, local_mi, prob, count. cbn. repeat f_equal; unfold Rdiv; rewrite Rinv_1, Rmult_1_r; f_equal; field. }
  exists (ln (3 / 2)). split; [|reflexivity].
  rewrite (C110_mi BE [0; 1; 0]%Z [5; 0; 5]%Z Logic.I eq_refl ltac:(discriminate)), E. reflexivity.
Qed.
