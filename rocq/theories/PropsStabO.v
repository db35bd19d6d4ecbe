(** C100: stability of the ordinal entropy and of the ordinal mutual information: one changed value touches at most
    [embedding_dim] windows. *)
From Coq Require Import Reals Lra Lia List ZArith Arith Bool Permutation.
From Verif Require Import Res RSum Spec SpecBase SpecTE Info Info2 Ord MBase MData MEntropy MMI MTE SpecOrd MOrd PBase PEntropy PCoo PMI PMI2 PMI3 PCMI PMI4 PCMI2 PMI5 PMI6 PropsMI PTE PTE2 PropsTE PEst6 MGeneric MObj SpecObj PropsObj POrd POrd2 POrd3 SpecStab PStab PropsStab PropsOrd.
Import ListNotations.
Local Open Scope R_scope.

Lemma diff_fwd {A} `{EqDec A} (x0 : A) xs ys c ts : length xs = length ys -> NoDup ts ->
  (forall t, In t ts -> (t + c < length xs)%nat) ->
  (length (diff (fun t => nth (t + c) xs x0) (fun t => nth (t + c) ys x0) ts) <= changed xs ys)%nat.
Proof.
  intros L ND B. rewrite (changed_seq x0 xs ys L).
  rewrite <- (map_length (fun t => t + c)%nat). apply NoDup_incl_length.
  - apply FinFun.Injective_map_NoDup; [intros u v E; cbn beta in E; lia|]. apply NoDup_filter. exact ND.
  - intros u Hu. apply in_map_iff in Hu. destruct Hu as (t & <- & Ht). apply filter_In in Ht. destruct Ht as [Ht Hd].
    apply filter_In. split; [|exact Hd]. apply in_seq. specialize (B t Ht). lia.
Qed.
Lemma diff_map {A B} `{EqDec A} `{EqDec B} (p : A -> B) (f g : nat -> A) ts :
  (length (diff (fun t => p (f t)) (fun t => p (g t)) ts) <= length (diff f g ts))%nat.
Proof.
  induction ts as [|t ts IH]; [simpl; lia|]. unfold diff in *. cbn [filter].
  destruct (eq_dec (f t) (g t)) as [Q|Q]; [rewrite Q; destruct (eq_dec (p (g t)) (p (g t))); [exact IH|congruence]|].
  destruct (eq_dec (p (f t)) (p (g t))); cbn [length]; lia.
Qed.

Section Ordinal.
Context {T : Type} `{Cmp T} `{EqDec T}.

(** the patterns of two series differ at no more than [d] windows per changed value *)
Lemma diff_windows (x0 : T) xs ys d s : length xs = length ys -> (1 <= d)%nat -> (1 <= s)%nat -> ((d - 1) * s < length xs)%nat ->
  (length (diff (window x0 xs d s) (window x0 ys d s) (seq 0 (nwindows (length xs) d s))) <= d * changed xs ys)%nat.
Proof.
  intros L D S W.
  pose proof (diff_list (fun t i => nth (t + i * s) xs x0) (fun t i => nth (t + i * s) ys x0) (seq 0 (nwindows (length xs) d s))
    (changed xs ys) (seq 0 d)) as Q. rewrite seq_length in Q. apply Q. intros i Hi. apply in_seq in Hi.
  apply diff_fwd; [exact L|apply seq_NoDup|]. intros t Ht. apply in_seq in Ht. unfold nwindows in Ht.
  assert (i * s <= (d - 1) * s)%nat by (apply Nat.mul_le_mono_r; lia).
  set (a := (i * s)%nat) in *. set (b := ((d - 1) * s)%nat) in *. clearbody a b. lia.
Qed.
Lemma patterns_as_map (p : list T -> list nat) x0 xs d s : patterns p x0 xs d s = map (fun t => p (window x0 xs d s t)) (seq 0 (nwindows (length xs) d s)).
Proof. unfold patterns, windows. apply map_map. Qed.

(** changed patterns: at most [d] per changed value *)
Theorem C100_patterns (p : list T -> list nat) x0 (xs ys : list T) d s : length xs = length ys -> (1 <= d)%nat -> (1 <= s)%nat ->
  ((d - 1) * s < length xs)%nat ->
  (changed (patterns p x0 xs d s) (patterns p x0 ys d s) <= d * changed xs ys)%nat.
Proof.
  intros L D S W. rewrite !patterns_as_map, <- L, changed_diff.
  eapply Nat.le_trans; [apply (diff_map p)|]. apply diff_windows; assumption.
Qed.

Theorem C100_ordinal_entropy (k : kind T) b (xs ys : list T) d s : legal_kind k -> big_base b -> length xs = length ys ->
  (1 <= d)%nat -> (1 <= s)%nat -> ((d - 1) * s < length xs)%nat ->
  exists h h', entropy_ordinal k b xs (Z.of_nat d) (Z.of_nat s) = Ok h /\ entropy_ordinal k b ys (Z.of_nat d) (Z.of_nat s) = Ok h' /\
    Rabs (h - h') <= INR (d * changed xs ys) * one_change (nwindows (length xs) d s) / unit_of b.
Proof.
  intros K B L D S W. pose proof (big_valid b B) as V. destruct (some_elt xs _ W) as [x0 _].
  eexists. eexists. split; [apply (entropy_ordinal_ok k b x0); assumption|].
  split; [apply (entropy_ordinal_ok k b x0); try assumption; rewrite <- L; exact W|]. apply scale_abs; [exact B|].
  change (map (eff_sort k d s) (windows x0 xs d s)) with (patterns (eff_sort k d s) x0 xs d s).
  change (map (eff_sort k d s) (windows x0 ys d s)) with (patterns (eff_sort k d s) x0 ys d s).
  assert (N : (0 < nwindows (length xs) d s)%nat) by (unfold nwindows; lia).
  eapply Rle_trans; [apply Ent_changed; rewrite !patterns_as_map, !map_length, !seq_length, L; reflexivity|].
  replace (length (patterns (eff_sort k d s) x0 xs d s)) with (nwindows (length xs) d s)
    by (rewrite patterns_as_map, map_length, seq_length; reflexivity).
  apply le_times; [apply C100_patterns; assumption|]. apply Rlt_le, one_change_pos. exact N.
Qed.

Lemma mi_ordinal_closed (k : kind T) b x0 (us vs : list T) d s : legal_kind k -> big_base b ->
  (1 <= d)%nat -> (1 <= s)%nat -> length us = length vs -> ((d - 1) * s < length us)%nat -> small2 (length us) ->
  mi_ordinal k b 0 [us; vs] (Z.of_nat d) (Z.of_nat s) = Ok (MI (patterns (argsort k) x0 us d s) (patterns (argsort k) x0 vs d s) / unit_of b).
Proof.
  intros K B D S Luv W SM. unfold mi_ordinal. cbn [ord_mi_init length Nat.ltb Nat.leb hd forallb andb negb nth].
  rewrite <- Luv, !Nat.eqb_refl. cbn [andb negb Z.ltb Z.compare bind hd].
  rewrite (checks_ok us d s D S) by lia. cbn [bind mapM].
  destruct (ord_symbols_ok k x0 us d s K D S ltac:(lia)) as (cu & Eu & Pu).
  destruct (ord_symbols_ok k x0 vs d s K D S ltac:(lia)) as (cv & Ev & Pv).
  rewrite Eu, Ev. cbn [bind map].
  destruct (Z.eqb_spec (Z.of_nat d) 1) as [E1|N1].
  - assert (d = 1%nat) by lia. subst d. rewrite !patterns_1 by exact K. rewrite <- Luv, MI_const_0. f_equal. unfold Rdiv. ring.
  - pose proof (proj1 Pu) as LPu. pose proof (proj1 Pv) as LPv. rewrite patterns_length in LPu, LPv.
    rewrite mi_global_1d; [|exact B|congruence| |unfold small2 in *; lia].
    + f_equal. f_equal. symmetry. apply MI_partition; [rewrite !patterns_length; congruence|exact Pu|exact Pv].
    + intros Q. rewrite Q in LPu. simpl in LPu. lia.
Qed.

Theorem C100_ordinal_mi (k : kind T) b (xs ys xs' ys' : list T) d s n : legal_kind k -> big_base b ->
  length xs = n -> length ys = n -> length xs' = n -> length ys' = n ->
  (1 <= d)%nat -> (1 <= s)%nat -> ((d - 1) * s < n)%nat -> small2 n ->
  exists v v', mi_ordinal k b 0 [xs; ys] (Z.of_nat d) (Z.of_nat s) = Ok v /\ mi_ordinal k b 0 [xs'; ys'] (Z.of_nat d) (Z.of_nat s) = Ok v' /\
    Rabs (v - v') <= 2 * INR (d * (changed xs xs' + changed ys ys')) * one_change (nwindows n d s) / unit_of b.
Proof.
  intros K B Lx Ly Lx' Ly' D S W SM. destruct (some_elt xs _ ltac:(rewrite Lx; exact W)) as [x0 _].
  eexists. eexists. split; [apply (mi_ordinal_closed k b x0); try assumption; rewrite ?Lx; congruence || assumption|].
  split; [apply (mi_ordinal_closed k b x0); try assumption; rewrite ?Lx'; congruence || assumption|].
  apply scale_abs; [exact B|]. rewrite !patterns_as_map, Lx, Ly, Lx', Ly'.
  set (ts := seq 0 (nwindows n d s)).
  assert (Lt : length ts = nwindows n d s) by (unfold ts; apply seq_length). rewrite <- Lt.
  assert (Hn : (0 < length ts)%nat) by (rewrite Lt; unfold nwindows; lia).
  set (f := fun t => argsort k (window x0 xs d s t)). set (f' := fun t => argsort k (window x0 xs' d s t)).
  set (g := fun t => argsort k (window x0 ys d s t)). set (g' := fun t => argsort k (window x0 ys' d s t)).
  assert (Df : (length (diff f f' ts) <= d * changed xs xs')%nat).
  { eapply Nat.le_trans; [apply (diff_map (argsort k))|]. unfold ts. rewrite <- Lx. apply diff_windows; congruence || lia. }
  assert (Dg : (length (diff g g' ts) <= d * changed ys ys')%nat).
  { eapply Nat.le_trans; [apply (diff_map (argsort k))|]. unfold ts. rewrite <- Ly. apply diff_windows; congruence || lia. }
  unfold MI. rewrite !combine_map.
  pose proof (Ent_diff f f' ts _ Hn Df) as E1. pose proof (Ent_diff g g' ts _ Hn Dg) as E2.
  assert (E3 : Rabs (Ent (map (fun t => (f t, g t)) ts) - Ent (map (fun t => (f' t, g' t)) ts)) <= INR (d * (changed xs xs' + changed ys ys')) * one_change (length ts)).
  { apply Ent_diff; [exact Hn|]. pose proof (diff_op (@Datatypes.pair (list nat) (list nat)) f f' g g' ts). lia. }
  rewrite Nat.mul_add_distr_l, plus_INR in *. apply abs_both in E1, E2, E3. apply Rabs_le. lra.
Qed.
End Ordinal.
Print Assumptions C100_ordinal_entropy.
Print Assumptions C100_ordinal_mi.

(** non-trivial instance: one of seven values replaced *)
Example C100_ordinal_example : legal_kind (mkKind (@argsort_stable Z _) true) /\ big_base (BNum 2) /\
  changed [4; 7; 9; 10; 6; 11; 3]%Z [4; 7; 1; 10; 6; 11; 3]%Z = 1%nat /\
  changed (patterns argsort_stable 0%Z [4; 7; 9; 10; 6; 11; 3]%Z 3 1) (patterns argsort_stable 0%Z [4; 7; 1; 10; 6; 11; 3]%Z 3 1) = 3%nat.
Proof. split; [apply stable_legal|]. split; [simpl; lra|]. split; vm_compute; reflexivity. Qed.
