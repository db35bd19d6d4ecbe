(** C100: stability of the ordinal conditional transfer entropy. *)
From Coq Require Import Reals Lra Lia List ZArith Arith Bool Permutation.
From Verif Require Import Res RSum Spec SpecBase SpecTE Info Info2 Ord MBase MData MEntropy MMI MTE SpecOrd MOrd PBase PEntropy PCoo PMI PMI2 PMI3 PCMI PMI4 PCMI2 PMI5 PMI6 PropsMI PTE PTE2 PropsTE PEst6 MGeneric MObj SpecObj PropsObj POrd POrd2 POrd3 SpecStab PStab PropsStab PropsOrd PropsStabO PropsStabO2.
Import ListNotations.
Local Open Scope R_scope.

(** the conditional transfer entropy of three sequences of any symbols *)
Lemma cte_cmi_changed {A} `{EqDec A} (x0 : A) xs ys zs xs' ys' zs' l k m s n :
  length xs = n -> length ys = n -> length zs = n -> length xs' = n -> length ys' = n -> length zs' = n ->
  (1 <= s)%nat -> (Nat.max (Nat.max k l) m * s < n)%nat ->
  let ts := base_times n (Nat.max (Nat.max k l) m * s) s in
  Rabs (CMI (presents x0 ys ts) (pasts x0 xs s l ts) (combine (pasts x0 ys s k ts) (pasts x0 zs s m ts)) -
        CMI (presents x0 ys' ts) (pasts x0 xs' s l ts) (combine (pasts x0 ys' s k ts) (pasts x0 zs' s m ts)))
    <= INR (2 * l * changed xs xs' + (4 * k + 2) * changed ys ys' + 4 * m * changed zs zs') * one_change (nrows n (Nat.max (Nat.max k l) m * s) s).
Proof.
  intros Lx Ly Lz Lx' Ly' Lz' Hs Hd ts. set (M := (Nat.max (Nat.max k l) m * s)%nat) in *.
  assert (Lt : length ts = nrows n M s) by apply base_times_length. rewrite <- Lt.
  assert (Hn : (0 < length ts)%nat) by (rewrite Lt; apply (nrows_pos n M s Hs Hd)).
  assert (ND : NoDup ts) by (apply base_times_NoDup; exact Hs).
  assert (HM : forall h, (h <= Nat.max (Nat.max k l) m)%nat -> forall t, In t ts -> (h * s <= t < n)%nat).
  { intros h Hh t Ht. unfold ts in Ht. rewrite base_times_In in Ht by exact Hs. destruct Ht as [Ht _].
    assert (h * s <= M)%nat by (unfold M; apply Nat.mul_le_mono_r; exact Hh). lia. }
  pose proof (diff_past_gen x0 xs xs' s l ts n Lx Lx' ND (HM l ltac:(lia))) as DX.
  pose proof (diff_past_gen x0 ys ys' s k ts n Ly Ly' ND (HM k ltac:(lia))) as DY.
  pose proof (diff_past_gen x0 zs zs' s m ts n Lz Lz' ND (HM m ltac:(lia))) as DZ.
  pose proof (diff_present_gen x0 ys ys' ts n Ly Ly' ND (fun t Ht => proj2 (HM k ltac:(lia) t Ht))) as DP.
  unfold CMI, presents, pasts. rewrite !combine_map.
  set (cx := changed xs xs') in *. set (cy := changed ys ys') in *. set (cz := changed zs zs') in *. clearbody cx cy cz.
  set (p := fun t => nth t ys x0) in *. set (p' := fun t => nth t ys' x0) in *.
  set (u := past x0 ys s k) in *. set (u' := past x0 ys' s k) in *. set (w := past x0 zs s m) in *. set (w' := past x0 zs' s m) in *.
  set (f := past x0 xs s l) in *. set (f' := past x0 xs' s l) in *.
  set (q := fun t => (u t, w t)). set (q' := fun t => (u' t, w' t)).
  assert (DQ : (length (diff q q' ts) <= k * cy + m * cz)%nat).
  { pose proof (diff_op (@Datatypes.pair (list A) (list A)) u u' w w' ts) as X. unfold q, q'. lia. }
  assert (E1 : Rabs (Ent (map (fun t => (f t, q t)) ts) - Ent (map (fun t => (f' t, q' t)) ts)) <= INR (l * cx + (k * cy + m * cz)) * one_change (length ts)).
  { apply Ent_diff; [exact Hn|]. pose proof (diff_op (@Datatypes.pair (list A) (list A * list A)) f f' q q' ts) as X. lia. }
  assert (E2 : Rabs (Ent (map (fun t => (p t, f t, q t)) ts) - Ent (map (fun t => (p' t, f' t, q' t)) ts)) <= INR (cy + l * cx + (k * cy + m * cz)) * one_change (length ts)).
  { apply Ent_diff; [exact Hn|].
    pose proof (diff_op (@Datatypes.pair (A * list A) (list A * list A)) (fun t => (p t, f t)) (fun t => (p' t, f' t)) q q' ts) as X.
    pose proof (diff_op (@Datatypes.pair A (list A)) p p' f f' ts) as Y. cbn beta in X, Y. lia. }
  assert (E3 : Rabs (Ent (map (fun t => (p t, q t)) ts) - Ent (map (fun t => (p' t, q' t)) ts)) <= INR (cy + (k * cy + m * cz)) * one_change (length ts)).
  { apply Ent_diff; [exact Hn|]. pose proof (diff_op (@Datatypes.pair A (list A * list A)) p p' q q' ts) as X. lia. }
  pose proof (Ent_diff q q' ts (k * cy + m * cz) Hn DQ) as E4.
  set (n1 := (l * cx + (k * cy + m * cz))%nat) in *. set (n2 := (cy + l * cx + (k * cy + m * cz))%nat) in *. set (n3 := (cy + (k * cy + m * cz))%nat) in *. set (n4 := (k * cy + m * cz)%nat) in *.
  replace (INR (2 * l * cx + (4 * k + 2) * cy + 4 * m * cz)) with (INR n1 + INR n2 + INR n3 + INR n4) by (rewrite <- !plus_INR; f_equal; unfold n1, n2, n3, n4; ring).
  clearbody n1 n2 n3 n4. unfold p, p', q, q' in E1, E2, E3, E4. apply abs_both in E1, E2, E3, E4. apply Rabs_le. cbv beta in *.
  unfold q, q'. lra.
Qed.

Section Ordinal.
Context {T : Type} `{Cmp T} `{EqDec T}.

Lemma cte_ordinal_closed (k : kind T) b x0 (xs ys zs : list T) d l kk m s n : legal_kind k -> valid_base b ->
  (1 <= d <= 20)%nat -> (1 <= s)%nat -> length xs = length ys -> length xs = length zs -> ((d - 1) * s < length xs)%nat ->
  n = (length xs - (d - 1) * s)%nat -> (1 <= l)%nat -> (1 <= kk)%nat -> (1 <= m)%nat ->
  (Nat.max (Nat.max kk l) m * s < n)%nat -> small2 n ->
  let ts := base_times n (Nat.max (Nat.max kk l) m * s) s in
  let px := patterns (argsort k) x0 xs d s in let py := patterns (argsort k) x0 ys d s in let pz := patterns (argsort k) x0 zs d s in
  cte_ordinal k b xs ys zs (Z.of_nat d) (NInt (Z.of_nat l)) (NInt (Z.of_nat kk)) (NInt (Z.of_nat m)) (NInt (Z.of_nat s)) =
    Ok (CMI (presents [] py ts) (pasts [] px s l ts) (combine (pasts [] py s kk ts) (pasts [] pz s m ts)) / unit_of b).
Proof.
  intros K B D S L L2 W En Hl Hk Hm Hd SM ts px py pz.
  assert (HT : forall b', In b' ts -> (b' < n)%nat).
  { intros b' Hb'. unfold ts in Hb'. rewrite base_times_In in Hb' by exact S. lia. }
  destruct (symbolize_int_part k x0 xs d s K D S W) as (cx & Ex & Px).
  destruct (symbolize_int_part k x0 ys d s K D S ltac:(lia)) as (cy & Ey & Py).
  destruct (symbolize_int_part k x0 zs d s K D S ltac:(lia)) as (cz & Ez & Pz).
  assert (Lx : length cx = n) by (rewrite <- (proj1 Px), patterns_length; congruence).
  assert (Ly : length cy = n) by (rewrite <- (proj1 Py), patterns_length; congruence).
  assert (Lz : length cz = n) by (rewrite <- (proj1 Pz), patterns_length; congruence).
  pose proof (C24_cte_is_conditional_mi b cx cy cz l kk m s n B Lx Ly Lz Hl Hk Hm S Hd SM) as E. cbv zeta in E. fold ts in E.
  unfold cte_discrete, cte_gen in E. cbn [a_prop a_offset a_step a_src a_dest a_cond cte_kw reduce_joint_space bind] in E.
  rewrite (cte_init_plain (A1 cx) (A1 cy) (A1 cz) n Lx Ly Lz) in E. cbn [bind] in E.
  unfold cte_ordinal. destruct (Z.ltb_spec (Z.of_nat d) 0); [lia|]. destruct (Z.ltb_spec (Z.of_nat s) 0); [lia|].
  destruct (Z.ltb_spec (Z.of_nat (length xs)) ((Z.of_nat d - 1) * Z.of_nat s + 1)); [nia|].
  rewrite Ex, Ey, Ez. cbn [bind]. rewrite E. f_equal. f_equal. symmetry.
  assert (PX : same_partition (pasts [] px s l ts) (pasts 0%Z cx s l ts)).
  { apply pasts_partition; [exact Px| |exact S]. intros b' Hb'. rewrite (proj1 Px : length px = _), Lx. auto. }
  assert (PY : same_partition (pasts [] py s kk ts) (pasts 0%Z cy s kk ts)).
  { apply pasts_partition; [exact Py| |exact S]. intros b' Hb'. rewrite (proj1 Py : length py = _), Ly. auto. }
  assert (PZ : same_partition (pasts [] pz s m ts) (pasts 0%Z cz s m ts)).
  { apply pasts_partition; [exact Pz| |exact S]. intros b' Hb'. rewrite (proj1 Pz : length pz = _), Lz. auto. }
  apply CMI_partition; rewrite ?combine_length, ?presents_length, ?pasts_length; try reflexivity; try lia; try assumption.
  - apply presents_partition; [exact Py|]. intros b' Hb'. rewrite (proj1 Py : length py = _), Ly. auto.
  - apply same_partition_combine; [rewrite !pasts_length; reflexivity|exact PY|exact PZ].
Qed.

Theorem C100_ordinal_cte (k : kind T) b (xs ys zs xs' ys' zs' : list T) d l kk m s n len : legal_kind k -> big_base b ->
  (1 <= d <= 20)%nat -> (1 <= s)%nat -> length xs = len -> length ys = len -> length zs = len ->
  length xs' = len -> length ys' = len -> length zs' = len ->
  ((d - 1) * s < len)%nat -> n = nwindows len d s -> (1 <= l)%nat -> (1 <= kk)%nat -> (1 <= m)%nat ->
  (Nat.max (Nat.max kk l) m * s < n)%nat -> small2 n ->
  exists v v',
    cte_ordinal k b xs ys zs (Z.of_nat d) (NInt (Z.of_nat l)) (NInt (Z.of_nat kk)) (NInt (Z.of_nat m)) (NInt (Z.of_nat s)) = Ok v /\
    cte_ordinal k b xs' ys' zs' (Z.of_nat d) (NInt (Z.of_nat l)) (NInt (Z.of_nat kk)) (NInt (Z.of_nat m)) (NInt (Z.of_nat s)) = Ok v' /\
    Rabs (v - v') <= INR (d * (2 * l * changed xs xs' + (4 * kk + 2) * changed ys ys' + 4 * m * changed zs zs'))
      * one_change (nrows n (Nat.max (Nat.max kk l) m * s) s) / unit_of b.
Proof.
  intros K B D S Lx Ly Lz Lx' Ly' Lz' W En Hl Hk Hm Hd SM. destruct (some_elt xs _ ltac:(rewrite Lx; exact W)) as [x0 _].
  pose proof (big_valid b B) as V. unfold nwindows in En.
  eexists. eexists. split; [apply (cte_ordinal_closed k b x0 xs ys zs d l kk m s n); rewrite ?Lx; congruence || assumption|].
  split; [apply (cte_ordinal_closed k b x0 xs' ys' zs' d l kk m s n); rewrite ?Lx'; congruence || assumption|].
  apply scale_abs; [exact B|].
  eapply Rle_trans; [apply cte_cmi_changed; rewrite ?patterns_length; try assumption; congruence|].
  apply le_times; [|apply Rlt_le, one_change_pos, (nrows_pos n (Nat.max (Nat.max kk l) m * s) s S Hd)].
  pose proof (C100_patterns (argsort k) x0 xs xs' d s ltac:(congruence) ltac:(lia) S ltac:(rewrite Lx; exact W)) as PX.
  pose proof (C100_patterns (argsort k) x0 ys ys' d s ltac:(congruence) ltac:(lia) S ltac:(rewrite Ly; exact W)) as PY.
  pose proof (C100_patterns (argsort k) x0 zs zs' d s ltac:(congruence) ltac:(lia) S ltac:(rewrite Lz; exact W)) as PZ.
  set (a := changed (patterns _ _ xs _ _) _) in *. set (a' := changed (patterns _ _ ys _ _) _) in *.
  set (a'' := changed (patterns _ _ zs _ _) _) in *. clearbody a a' a''.
  apply (Nat.mul_le_mono_l _ _ (2 * l)) in PX. apply (Nat.mul_le_mono_l _ _ (4 * kk + 2)) in PY. apply (Nat.mul_le_mono_l _ _ (4 * m)) in PZ.
  eapply Nat.le_trans; [apply Nat.add_le_mono; [apply Nat.add_le_mono; [exact PX|exact PY]|exact PZ]|]. apply Nat.eq_le_incl. ring.
Qed.
End Ordinal.
Print Assumptions C100_ordinal_cte.

(** non-trivial instance: one value of the source replaced *)
Example C100_ordinal_cte_example : exists v v',
  cte_ordinal (mkKind (@argsort_stable Z _) true) (BNum 2) [4; 7; 9; 10; 6; 11; 3; 2]%Z [1; 5; 2; 8; 3; 9; 4; 0]%Z [2; 2; 1; 3; 0; 1; 5; 4]%Z 3 (NInt 1) (NInt 1) (NInt 1) (NInt 1) = Ok v /\
  cte_ordinal (mkKind (@argsort_stable Z _) true) (BNum 2) [4; 7; 9; 0; 6; 11; 3; 2]%Z [1; 5; 2; 8; 3; 9; 4; 0]%Z [2; 2; 1; 3; 0; 1; 5; 4]%Z 3 (NInt 1) (NInt 1) (NInt 1) (NInt 1) = Ok v' /\
  Rabs (v - v') <= INR 6 * one_change 5 / unit_of (BNum 2).
Proof.
  exact (C100_ordinal_cte (mkKind (@argsort_stable Z _) true) (BNum 2) [4; 7; 9; 10; 6; 11; 3; 2]%Z [1; 5; 2; 8; 3; 9; 4; 0]%Z [2; 2; 1; 3; 0; 1; 5; 4]%Z
    [4; 7; 9; 0; 6; 11; 3; 2]%Z [1; 5; 2; 8; 3; 9; 4; 0]%Z [2; 2; 1; 3; 0; 1; 5; 4]%Z 3 1 1 1 1 6 8 stable_legal ltac:(simpl; lra) ltac:(lia) ltac:(lia)
    eq_refl eq_refl eq_refl eq_refl eq_refl eq_refl ltac:(lia) eq_refl ltac:(lia) ltac:(lia) ltac:(lia) ltac:(simpl; lia) ltac:(unfold small2; simpl; lia)).
Qed.
