(** C100: stability of the ordinal transfer entropy: a changed value touches at most [embedding_dim] patterns, and each pattern
    at most [src_hist_len] (or [dest_hist_len] + 1) embedded rows. *)
From Coq Require Import Reals Lra Lia List ZArith Arith Bool Permutation.
From Verif Require Import Res RSum Spec SpecBase SpecTE Info Info2 Ord MBase MData MEntropy MMI MTE SpecOrd MOrd PBase PEntropy PCoo PMI PMI2 PMI3 PCMI PMI4 PCMI2 PMI5 PMI6 PropsMI PTE PTE2 PropsTE PEst6 MGeneric MObj SpecObj PropsObj POrd POrd2 POrd3 SpecStab PStab PropsStab PropsOrd PropsStabO.
Import ListNotations.
Local Open Scope R_scope.

Section Gen.
Context {A : Type} `{EqDec A}.
Lemma diff_past_gen (x0 : A) xs xs' s len ts n : length xs = n -> length xs' = n -> NoDup ts ->
  (forall t, In t ts -> (len * s <= t < n)%nat) ->
  (length (diff (past x0 xs s len) (past x0 xs' s len) ts) <= len * changed xs xs')%nat.
Proof.
  intros L L' ND B.
  pose proof (diff_list (fun t j => nth (t - (len - j) * s) xs x0) (fun t j => nth (t - (len - j) * s) xs' x0) ts
                (changed xs xs') (seq 0 len)) as D.
  rewrite seq_length in D. apply D. intros j Hj. apply in_seq in Hj. apply diff_shift; [congruence|exact ND|].
  intros t Ht. specialize (B t Ht). assert (Q : ((len - j) * s <= len * s)%nat) by (apply Nat.mul_le_mono_r; lia).
  rewrite L. set (u := ((len - j) * s)%nat) in *. set (w := (len * s)%nat) in *. clearbody u w. lia.
Qed.
Lemma diff_present_gen (x0 : A) ys ys' ts n : length ys = n -> length ys' = n -> NoDup ts -> (forall t, In t ts -> (t < n)%nat) ->
  (length (diff (fun t => nth t ys x0) (fun t => nth t ys' x0) ts) <= changed ys ys')%nat.
Proof.
  intros L L' ND B. rewrite (diff_ext _ (fun t => nth (t - 0) ys x0) _ (fun t => nth (t - 0) ys' x0)).
  - apply diff_shift; [congruence|exact ND|]. intros t Ht. specialize (B t Ht). lia.
  - intros t _. rewrite Nat.sub_0_r. auto.
Qed.
(** the transfer entropy of two sequences of any symbols *)
Lemma te_cmi_changed (x0 : A) xs ys xs' ys' l k s n : length xs = n -> length ys = n -> length xs' = n -> length ys' = n ->
  (1 <= s)%nat -> (Nat.max k l * s < n)%nat ->
  let ts := base_times n (Nat.max k l * s) s in
  Rabs (CMI (presents x0 ys ts) (pasts x0 xs s l ts) (pasts x0 ys s k ts) - CMI (presents x0 ys' ts) (pasts x0 xs' s l ts) (pasts x0 ys' s k ts))
    <= INR (2 * l * changed xs xs' + (4 * k + 2) * changed ys ys') * one_change (nrows n (Nat.max k l * s) s).
Proof.
  intros Lx Ly Lx' Ly' Hs Hd ts.
  assert (Lt : length ts = nrows n (Nat.max k l * s) s) by apply base_times_length. rewrite <- Lt.
  assert (Hn : (0 < length ts)%nat) by (rewrite Lt; apply (nrows_pos n (Nat.max k l * s) s Hs Hd)).
  assert (ND : NoDup ts) by (apply base_times_NoDup; exact Hs).
  assert (HT : forall t, In t ts -> (k * s <= t < n /\ l * s <= t < n)%nat).
  { intros t Ht. unfold ts in Ht. rewrite base_times_In in Ht by exact Hs. destruct Ht as [Ht _].
    assert (k * s <= Nat.max k l * s)%nat by (apply Nat.mul_le_mono_r; lia).
    assert (l * s <= Nat.max k l * s)%nat by (apply Nat.mul_le_mono_r; lia). lia. }
  pose proof (diff_past_gen x0 ys ys' s k ts n Ly Ly' ND (fun t Ht => proj1 (HT t Ht))) as D.
  pose proof (diff_past_gen x0 xs xs' s l ts n Lx Lx' ND (fun t Ht => proj2 (HT t Ht))) as DX.
  pose proof (diff_present_gen x0 ys ys' ts n Ly Ly' ND (fun t Ht => proj2 (proj1 (HT t Ht)))) as D1.
  unfold CMI, presents, pasts. rewrite !combine_map. set (c := changed ys ys') in *. clearbody c. set (e := changed xs xs') in *. clearbody e.
  set (p := fun t => nth t ys x0) in *. set (p' := fun t => nth t ys' x0) in *.
  set (q := past x0 ys s k) in *. set (q' := past x0 ys' s k) in *. set (f := past x0 xs s l) in *. set (f' := past x0 xs' s l) in *.
  assert (E1 : Rabs (Ent (map (fun t => (f t, q t)) ts) - Ent (map (fun t => (f' t, q' t)) ts)) <= INR (l * e + k * c) * one_change (length ts)).
  { apply Ent_diff; [exact Hn|]. pose proof (diff_op (@Datatypes.pair (list A) (list A)) f f' q q' ts) as X. lia. }
  assert (E2 : Rabs (Ent (map (fun t => (p t, f t, q t)) ts) - Ent (map (fun t => (p' t, f' t, q' t)) ts)) <= INR (l * e + k * c + c) * one_change (length ts)).
  { apply Ent_diff; [exact Hn|].
    pose proof (diff_op (@Datatypes.pair (A * list A) (list A)) (fun t => (p t, f t)) (fun t => (p' t, f' t)) q q' ts) as X.
    pose proof (diff_op (@Datatypes.pair A (list A)) p p' f f' ts) as Y. cbn beta in X, Y. lia. }
  assert (E3 : Rabs (Ent (map (fun t => (p t, q t)) ts) - Ent (map (fun t => (p' t, q' t)) ts)) <= INR (k * c + c) * one_change (length ts)).
  { apply Ent_diff; [exact Hn|]. pose proof (diff_op (@Datatypes.pair A (list A)) p p' q q' ts) as X. lia. }
  pose proof (Ent_diff q q' ts (k * c) Hn D) as E4.
  replace (INR (2 * l * e + (4 * k + 2) * c)) with (INR (l * e + k * c) + INR (l * e + k * c + c) + INR (k * c + c) + INR (k * c)).
  2:{ rewrite <- !plus_INR. f_equal. lia. }
  unfold p, p' in E2, E3. apply abs_both in E1, E2, E3, E4. apply Rabs_le. lra.
Qed.
End Gen.

Section Ordinal.
Context {T : Type} `{Cmp T} `{EqDec T}.

Lemma te_ordinal_closed (k : kind T) b x0 (xs ys : list T) d l kk s n : legal_kind k -> valid_base b ->
  (1 <= d <= 20)%nat -> (1 <= s)%nat -> length xs = length ys -> ((d - 1) * s < length xs)%nat ->
  n = (length xs - (d - 1) * s)%nat -> (1 <= l)%nat -> (1 <= kk)%nat -> (Nat.max kk l * s < n)%nat -> small2 n ->
  let ts := base_times n (Nat.max kk l * s) s in
  let px := patterns (argsort k) x0 xs d s in let py := patterns (argsort k) x0 ys d s in
  te_ordinal k b xs ys (Z.of_nat d) (NInt (Z.of_nat l)) (NInt (Z.of_nat kk)) (NInt (Z.of_nat s)) RNone =
    Ok (CMI (presents [] py ts) (pasts [] px s l ts) (pasts [] py s kk ts) / unit_of b).
Proof.
  intros K B D S L W En Hl Hk Hd SM ts px py.
  assert (HT : forall b', In b' ts -> (b' < n)%nat).
  { intros b' Hb'. unfold ts in Hb'. rewrite base_times_In in Hb' by exact S. lia. }
  destruct (symbolize_int_part k x0 xs d s K D S W) as (cx & Ex & Px).
  destruct (symbolize_int_part k x0 ys d s K D S ltac:(lia)) as (cy & Ey & Py).
  assert (Lx : length cx = n) by (rewrite <- (proj1 Px), patterns_length; congruence).
  assert (Ly : length cy = n) by (rewrite <- (proj1 Py), patterns_length; congruence).
  pose proof (C19_te_is_conditional_mi b cx cy l kk s n B Lx Ly Hl Hk S Hd SM) as E. cbv zeta in E. fold ts in E.
  unfold te_discrete, te_gen in E. cbn [a_prop a_offset a_step a_src a_dest te_kw] in E.
  rewrite te_init_plain in E by (cbn [arr_len]; congruence). cbn [bind fst snd] in E.
  unfold te_ordinal. destruct (Z.ltb_spec (Z.of_nat d) 0); [lia|]. destruct (Z.ltb_spec (Z.of_nat s) 0); [lia|].
  destruct (Z.ltb_spec (Z.of_nat (length xs)) ((Z.of_nat d - 1) * Z.of_nat s + 1)); [nia|].
  rewrite Ex, Ey. cbn [bind]. rewrite E. f_equal. f_equal. symmetry.
  apply CMI_partition; rewrite ?presents_length, ?pasts_length; try reflexivity.
  - apply presents_partition; [exact Py|]. intros b' Hb'. rewrite (proj1 Py : length py = _), Ly. auto.
  - apply pasts_partition; [exact Px| |exact S]. intros b' Hb'. rewrite (proj1 Px : length px = _), Lx. auto.
  - apply pasts_partition; [exact Py| |exact S]. intros b' Hb'. rewrite (proj1 Py : length py = _), Ly. auto.
Qed.

Theorem C100_ordinal_te (k : kind T) b (xs ys xs' ys' : list T) d l kk s n len : legal_kind k -> big_base b ->
  (1 <= d <= 20)%nat -> (1 <= s)%nat -> length xs = len -> length ys = len -> length xs' = len -> length ys' = len ->
  ((d - 1) * s < len)%nat -> n = nwindows len d s -> (1 <= l)%nat -> (1 <= kk)%nat -> (Nat.max kk l * s < n)%nat -> small2 n ->
  exists v v',
    te_ordinal k b xs ys (Z.of_nat d) (NInt (Z.of_nat l)) (NInt (Z.of_nat kk)) (NInt (Z.of_nat s)) RNone = Ok v /\
    te_ordinal k b xs' ys' (Z.of_nat d) (NInt (Z.of_nat l)) (NInt (Z.of_nat kk)) (NInt (Z.of_nat s)) RNone = Ok v' /\
    Rabs (v - v') <= INR (d * (2 * l * changed xs xs' + (4 * kk + 2) * changed ys ys')) * one_change (nrows n (Nat.max kk l * s) s) / unit_of b.
Proof.
  intros K B D S Lx Ly Lx' Ly' W En Hl Hk Hd SM. destruct (some_elt xs _ ltac:(rewrite Lx; exact W)) as [x0 _].
  pose proof (big_valid b B) as V. unfold nwindows in En.
  eexists. eexists. split; [apply (te_ordinal_closed k b x0 xs ys d l kk s n); rewrite ?Lx; congruence || assumption|].
  split; [apply (te_ordinal_closed k b x0 xs' ys' d l kk s n); rewrite ?Lx'; congruence || assumption|].
  apply scale_abs; [exact B|].
  eapply Rle_trans; [apply te_cmi_changed; rewrite ?patterns_length; try assumption; congruence|].
  apply le_times; [|apply Rlt_le, one_change_pos, (nrows_pos n (Nat.max kk l * s) s S Hd)].
  pose proof (C100_patterns (argsort k) x0 xs xs' d s ltac:(congruence) ltac:(lia) S ltac:(rewrite Lx; exact W)) as PX.
  pose proof (C100_patterns (argsort k) x0 ys ys' d s ltac:(congruence) ltac:(lia) S ltac:(rewrite Ly; exact W)) as PY.
  set (a := changed (patterns _ _ xs _ _) _) in *. set (a' := changed (patterns _ _ ys _ _) _) in *. clearbody a a'.
  apply (Nat.mul_le_mono_l _ _ (2 * l)) in PX. apply (Nat.mul_le_mono_l _ _ (4 * kk + 2)) in PY.
  eapply Nat.le_trans; [apply Nat.add_le_mono; [exact PX|exact PY]|]. apply Nat.eq_le_incl. ring.
Qed.
End Ordinal.
Print Assumptions C100_ordinal_te.

(** non-trivial instance *)
Example C100_ordinal_te_example : exists v v',
  te_ordinal (mkKind (@argsort_stable Z _) true) (BNum 2) [4; 7; 9; 10; 6; 11; 3; 2]%Z [1; 5; 2; 8; 3; 9; 4; 0]%Z 3 (NInt 1) (NInt 1) (NInt 1) RNone = Ok v /\
  te_ordinal (mkKind (@argsort_stable Z _) true) (BNum 2) [4; 7; 9; 0; 6; 11; 3; 2]%Z [1; 5; 2; 8; 3; 9; 4; 0]%Z 3 (NInt 1) (NInt 1) (NInt 1) RNone = Ok v' /\
  Rabs (v - v') <= INR 6 * one_change 5 / unit_of (BNum 2).
Proof.
  exact (C100_ordinal_te (mkKind (@argsort_stable Z _) true) (BNum 2) [4; 7; 9; 10; 6; 11; 3; 2]%Z [1; 5; 2; 8; 3; 9; 4; 0]%Z
    [4; 7; 9; 0; 6; 11; 3; 2]%Z [1; 5; 2; 8; 3; 9; 4; 0]%Z 3 1 1 1 6 8 stable_legal ltac:(simpl; lra) ltac:(lia) ltac:(lia)
    eq_refl eq_refl eq_refl eq_refl ltac:(lia) eq_refl ltac:(lia) ltac:(lia) ltac:(simpl; lia) ltac:(unfold small2; simpl; lia)).
Qed.
