(** C100: stability of the conditional transfer entropy. *)
From Coq Require Import Reals List ZArith Arith Bool Lia Lra Permutation Sorting.Sorted.
From Verif Require Import Res RSum Spec SpecBase SpecInput SpecTE Info Info2 Ord MBase MData MEntropy MEst MMI MTE MGeneric
  PBase PEntropy PMI5 PTE2 PEst5 PropsEst PropsMI PropsTE SpecStab PStab PropsStab.
Import ListNotations.
Local Open Scope R_scope.

(** changes of the source, the destination and the condition, all at once *)
Theorem C100_cte b xs ys zs xs' ys' zs' l k m s n : big_base b ->
  length xs = n -> length ys = n -> length zs = n -> length xs' = n -> length ys' = n -> length zs' = n ->
  (1 <= l)%nat -> (1 <= k)%nat -> (1 <= m)%nat -> (1 <= s)%nat ->
  (Nat.max (Nat.max k l) m * s < n)%nat -> small2 n ->
  exists v v', cte_discrete b (A1 xs) (A1 ys) (RArr (A1 zs)) (cte_kw l k m s) = Ok v /\ cte_discrete b (A1 xs') (A1 ys') (RArr (A1 zs')) (cte_kw l k m s) = Ok v' /\
    Rabs (v - v') <= INR (2 * l * changed xs xs' + (4 * k + 2) * changed ys ys' + 4 * m * changed zs zs')
      * one_change (nrows n (Nat.max (Nat.max k l) m * s) s) / unit_of b.
Proof.
  intros B Lx Ly Lz Lx' Ly' Lz' Hl Hk Hm Hs Hd HS. pose proof (big_valid b B) as V.
  set (M := (Nat.max (Nat.max k l) m * s)%nat) in *. set (ts := base_times n M s).
  exists (CMI (presents 0%Z ys ts) (pasts 0%Z xs s l ts) (combine (pasts 0%Z ys s k ts) (pasts 0%Z zs s m ts)) / unit_of b),
         (CMI (presents 0%Z ys' ts) (pasts 0%Z xs' s l ts) (combine (pasts 0%Z ys' s k ts) (pasts 0%Z zs' s m ts)) / unit_of b).
  split; [apply C24_cte_is_conditional_mi; assumption|]. split; [apply C24_cte_is_conditional_mi; assumption|].
  apply scale_abs; [exact B|].
  assert (Lt : length ts = nrows n M s) by apply base_times_length. rewrite <- Lt.
  assert (Hn : (0 < length ts)%nat) by (rewrite Lt; apply (nrows_pos n M s Hs Hd)).
  assert (ND : NoDup ts) by (apply base_times_NoDup; exact Hs).
  assert (HM : forall h, (h <= Nat.max (Nat.max k l) m)%nat -> forall t, In t ts -> (h * s <= t < n)%nat).
  { intros h Hh t Ht. unfold ts in Ht. rewrite base_times_In in Ht by exact Hs. destruct Ht as [Ht _].
    assert (h * s <= M)%nat by (unfold M; apply Nat.mul_le_mono_r; exact Hh). lia. }
  pose proof (diff_past xs xs' s l ts n Lx Lx' ND (HM l ltac:(lia))) as DX.
  pose proof (diff_past ys ys' s k ts n Ly Ly' ND (HM k ltac:(lia))) as DY.
  pose proof (diff_past zs zs' s m ts n Lz Lz' ND (HM m ltac:(lia))) as DZ.
  pose proof (diff_present ys ys' ts n Ly Ly' ND (fun t Ht => proj2 (HM k ltac:(lia) t Ht))) as DP.
  unfold CMI, presents, pasts. rewrite !combine_map.
  set (cx := changed xs xs') in *. set (cy := changed ys ys') in *. set (cz := changed zs zs') in *. clearbody cx cy cz.
  set (p := fun t => nth t ys 0%Z) in *. set (p' := fun t => nth t ys' 0%Z) in *.
  set (u := past 0%Z ys s k) in *. set (u' := past 0%Z ys' s k) in *. set (w := past 0%Z zs s m) in *. set (w' := past 0%Z zs' s m) in *.
  set (f := past 0%Z xs s l) in *. set (f' := past 0%Z xs' s l) in *.
  set (q := fun t => (u t, w t)). set (q' := fun t => (u' t, w' t)).
  assert (DQ : (length (diff q q' ts) <= k * cy + m * cz)%nat).
  { pose proof (diff_op (@Datatypes.pair (list Z) (list Z)) u u' w w' ts) as X. unfold q, q'. lia. }
  assert (E1 : Rabs (Ent (map (fun t => (f t, q t)) ts) - Ent (map (fun t => (f' t, q' t)) ts)) <= INR (l * cx + (k * cy + m * cz)) * one_change (length ts)).
  { apply Ent_diff; [exact Hn|]. pose proof (diff_op (@Datatypes.pair (list Z) (list Z * list Z)) f f' q q' ts) as X. lia. }
  assert (E2 : Rabs (Ent (map (fun t => (p t, f t, q t)) ts) - Ent (map (fun t => (p' t, f' t, q' t)) ts)) <= INR (cy + l * cx + (k * cy + m * cz)) * one_change (length ts)).
  { apply Ent_diff; [exact Hn|].
    pose proof (diff_op (@Datatypes.pair (Z * list Z) (list Z * list Z)) (fun t => (p t, f t)) (fun t => (p' t, f' t)) q q' ts) as X.
    pose proof (diff_op (@Datatypes.pair Z (list Z)) p p' f f' ts) as Y. lia. }
  assert (E3 : Rabs (Ent (map (fun t => (p t, q t)) ts) - Ent (map (fun t => (p' t, q' t)) ts)) <= INR (cy + (k * cy + m * cz)) * one_change (length ts)).
  { apply Ent_diff; [exact Hn|]. pose proof (diff_op (@Datatypes.pair Z (list Z * list Z)) p p' q q' ts) as X. lia. }
  pose proof (Ent_diff q q' ts (k * cy + m * cz) Hn DQ) as E4.
  set (n1 := (l * cx + (k * cy + m * cz))%nat) in *. set (n2 := (cy + l * cx + (k * cy + m * cz))%nat) in *. set (n3 := (cy + (k * cy + m * cz))%nat) in *. set (n4 := (k * cy + m * cz)%nat) in *.
  replace (INR (2 * l * cx + (4 * k + 2) * cy + 4 * m * cz)) with (INR n1 + INR n2 + INR n3 + INR n4) by (rewrite <- !plus_INR; f_equal; unfold n1, n2, n3, n4; ring).
  clearbody n1 n2 n3 n4. unfold p, p', q, q' in E1, E2, E3, E4. apply abs_both in E1, E2, E3, E4. apply Rabs_le. cbv beta in *.
  unfold q, q'. lra.
Qed.
Print Assumptions C100_cte.

Example C100_cte_example : changed [0; 1; 1; 0; 1; 1]%Z [0; 1; 0; 0; 1; 1]%Z = 1%nat /\ (Nat.max (Nat.max 1 2) 1 * 2 < 6)%nat /\ small2 6 /\
  nrows 6 (Nat.max (Nat.max 1 2) 1 * 2) 2 = 1%nat.
Proof. split; [reflexivity|]. split; [simpl; lia|]. split; [unfold small2; simpl; lia|reflexivity]. Qed.
