(** C84 for the dedicated discrete and Miller-Madow estimators without size limits: any number of variables, any number of samples
    (also where the 64-bit products of counts wrap around), 2-D variables, and TE / CTE of 2-D series. *)
From Coq Require Import Reals Lra Lia List ZArith Arith Bool Permutation.
From Verif Require Import Res RSum Spec SpecTE SpecInv Info Info2 Ord MBase MData MEntropy MMI MTE SpecBase PBase PEntropy PCoo PMI PMI2 PMI3 PCMI PMI4 PCMI2 PMI5 PMI6 PropsMI PTE PTE2 PropsTE PGeneric2 PEst PEst6 SpecWrap PWrap PropsWrap PWrapC PropsWrapC PropsInv.
Import ListNotations.
Local Open Scope R_scope.

(** [p] reorders the sample numbers below [n] *)
Definition shuffles (n : nat) (p : nat -> nat) : Prop := Permutation (map p (seq 0 n)) (seq 0 n).

Lemma shuffles_bound n p i : shuffles n p -> (i < n)%nat -> (p i < n)%nat.
Proof.
  intros P Hi. assert (In (p i) (seq 0 n)) as Q by (eapply Permutation_in; [exact P|apply in_map, in_seq; lia]). apply in_seq in Q. lia.
Qed.
Lemma shuffles_onto n p j : shuffles n p -> (j < n)%nat -> exists i, (i < n)%nat /\ p i = j.
Proof.
  intros P Hj. assert (In j (map p (seq 0 n))) as Q by (eapply Permutation_in; [apply Permutation_sym, P|apply in_seq; lia]).
  apply in_map_iff in Q. destruct Q as (i & E & Hi). apply in_seq in Hi. exists i. split; [lia|exact E].
Qed.
Lemma sum_shuffled n p (f : nat -> R) : shuffles n p -> sumf (fun i => f (p i)) (seq 0 n) = sumf f (seq 0 n).
Proof. intros P. rewrite <- (sumf_map p f). apply sumf_perm, P. Qed.
Lemma forallb_shuffled n p (f : nat -> bool) : shuffles n p -> forallb (fun i => f (p i)) (seq 0 n) = forallb f (seq 0 n).
Proof.
  intros P. apply eq_true_iff_eq. rewrite !forallb_forall. split; intros G j Hj; apply in_seq in Hj.
  - destruct (shuffles_onto n p j P ltac:(lia)) as (i & Hi & <-). apply G, in_seq. lia.
  - apply G, in_seq. pose proof (shuffles_bound n p j P ltac:(lia)). lia.
Qed.
Lemma forallb_ext_in {A} (f g : A -> bool) l : (forall x, In x l -> f x = g x) -> forallb f l = forallb g l.
Proof. intros E. induction l as [|x l IH]; [reflexivity|]. cbn [forallb]. rewrite E, IH; [reflexivity| |left; reflexivity]. intros y Hy. apply E. right. exact Hy. Qed.
Lemma shuffles_id n : shuffles n (fun i => i).
Proof. unfold shuffles. rewrite map_id. reflexivity. Qed.

(** what mutual information looks at *)
Lemma mi_const_any b n cols c : (2 <= length cols)%nat -> all_len n cols -> (0 < n)%nat -> In c cols -> const_col c ->
  mi_discrete b (Some 0%Z) (map A1 cols) = Ok 0.
Proof.
  intros Hk HL Hn Hc Cc. destruct cols as [|xs [|ys [|zs r]]]; try (simpl in Hk; lia).
  - pose proof (Forall_inv HL) as Lx. pose proof (Forall_inv (Forall_inv_tail HL)) as Ly. cbn beta in Lx, Ly.
    unfold mi_discrete. rewrite (mi_init_0 (map A1 [xs; ys]) n) by (simpl; auto; repeat constructor; simpl; auto).
    cbn [bind map mi_global forallb is_1d andb]. unfold mi_global_2d_int.
    rewrite (coo_of_ok [A1 xs; A1 ys] n) by (try discriminate; repeat constructor; simpl; auto). cbn [bind].
    assert (L0 : length (marginal (the_coo [A1 xs; A1 ys]) 0) = nlevels (A1 xs)) by (unfold marginal; rewrite map_length, seq_length; reflexivity).
    assert (L1 : length (marginal (the_coo [A1 xs; A1 ys]) 1) = nlevels (A1 ys)) by (unfold marginal; rewrite map_length, seq_length; reflexivity).
    rewrite L0, L1. assert (Q : (Nat.eqb (nlevels (A1 xs)) 1 || Nat.eqb (nlevels (A1 ys)) 1)%bool = true).
    { apply orb_true_iff. destruct Hc as [<-|[<-|[]]]; [left|right]; apply Nat.eqb_eq, const_unique_1; try exact Cc; intros ->; simpl in *; lia. }
    rewrite Q. reflexivity.
  - apply (C13_constant_variable_gives_zero b n _ c); auto. simpl; lia.
Qed.

Lemma mi_any_same b n cols cols' p : valid_base b -> (2 <= length cols)%nat -> all_len n cols -> all_len n cols' -> (0 < n)%nat ->
  Forall2 (fun c c' => Ent c = Ent c' /\ (const_col c <-> const_col c')) cols cols' ->
  Ent (rows_of 0%Z n cols) = Ent (rows_of 0%Z n cols') ->
  shuffles n p -> (forall i, (i < n)%nat -> cell_product cols' i = cell_product cols (p i)) ->
  mi_discrete b (Some 0%Z) (map A1 cols') = mi_discrete b (Some 0%Z) (map A1 cols).
Proof.
  intros V Hk HL HL' Hn F EJ SP CP.
  assert (Ek : length cols = length cols') by (clear -F; induction F; simpl; congruence).
  destruct (const_rel_F2 _ _ _ F) as [G1 G2].
  destruct (const_or_not cols) as [NC|(c & Hc & Cc)].
  - assert (NC' : no_constant cols').
    { intros c' Hc'. destruct (const_or_not [c']) as [N|(d & [<-|[]] & Cd)]; [apply N; left; reflexivity|].
      exfalso. destruct (G2 c' Hc') as (c & Hc & _ & X). destruct (NC c Hc) as (x & y & Hx & Hy & N). apply N. apply (proj2 X Cd); assumption. }
    assert (FB : forallb (fun t => negb (Z.eqb (low64 (cell_product cols' t)) 0)) (seq 0 n) =
                 forallb (fun t => negb (Z.eqb (low64 (cell_product cols t)) 0)) (seq 0 n)).
    { rewrite <- (forallb_shuffled n p (fun t => negb (Z.eqb (low64 (cell_product cols t)) 0)) SP). apply forallb_ext_in.
      intros i Hi. apply in_seq in Hi. rewrite CP by lia. reflexivity. }
    assert (LO : lost n cols' = lost n cols).
    { unfold lost. f_equal. rewrite <- (sum_shuffled n p (fun t => ln (IZR (cell_product cols t) / IZR (low64 (cell_product cols t)))) SP).
      apply sumf_ext. intros i Hi. apply in_seq in Hi. rewrite CP by lia. reflexivity. }
    assert (TC : TotalCorr 0%Z n cols' = TotalCorr 0%Z n cols).
    { unfold TotalCorr. rewrite EJ. f_equal. clear -F. induction F as [|c c' l l' [E _] F IH]; simpl; congruence. }
    destruct cols as [|xs [|ys [|zs r]]]; try (simpl in Hk; lia).
    + destruct cols' as [|xs' [|ys' [|? ?]]]; try discriminate Ek.
      pose proof (Forall_inv HL) as Lx. pose proof (Forall_inv (Forall_inv_tail HL)) as Ly. cbn beta in Lx, Ly.
      pose proof (Forall_inv HL') as Lx'. pose proof (Forall_inv (Forall_inv_tail HL')) as Ly'. cbn beta in Lx', Ly'.
      assert (NL : forall (cs : list (list Z)) c, no_constant cs -> In c cs -> nlevels (A1 c) <> 1%nat).
      { intros cs c N Hc E. cbn [nlevels] in E. destruct (N c Hc) as (x & y & Hx & Hy & Q). apply Q. apply (unique_1_const c E); assumption. }
      rewrite (mi2_wrapped xs' ys' n Lx' Ly' Hn b V) by (eapply NL; [exact NC'|simpl; auto]).
      rewrite (mi2_wrapped xs ys n Lx Ly Hn b V) by (eapply NL; [exact NC|simpl; auto]).
      rewrite FB, LO. rewrite !TotalCorr_2 in TC by (auto; lia). rewrite TC. reflexivity.
    + rewrite (mi_nd_wrapped b n (xs :: ys :: zs :: r)) by (auto; simpl; lia).
      rewrite (mi_nd_wrapped b n cols') by (auto; rewrite <- Ek; simpl; lia).
      rewrite FB, LO, TC. reflexivity.
  - destruct (G1 c Hc) as (c' & Hc' & _ & X). rewrite (mi_const_any b n cols c) by auto.
    apply (mi_const_any b n cols' c'); auto; [lia|]. apply (proj1 X Cc).
Qed.

(** renamed columns *)
Definition renamed (c c' : list Z) : Prop := exists f : Z -> Z, inj_on f c /\ c' = map f c.

Lemma renamed_partition c c' : renamed c c' -> same_partition c c'.
Proof. intros (f & If & ->). apply inj_on_cond, If. Qed.
Lemma renamed_const c c' : renamed c c' -> (const_col c <-> const_col c').
Proof.
  intros (f & If & ->). split.
  - intros C x y Hx Hy. apply in_map_iff in Hx, Hy. destruct Hx as (u & <- & Hu), Hy as (v & <- & Hv). f_equal. auto.
  - intros C x y Hx Hy. apply If; auto. apply C; apply in_map; assumption.
Qed.
Lemma renamed_all_len n cols cols' : all_len n cols -> Forall2 renamed cols cols' -> all_len n cols'.
Proof.
  unfold all_len. intros L F. induction F as [|c c' l l' (f & If & ->) F IH]; constructor.
  - rewrite map_length. exact (Forall_inv L).
  - apply IH. exact (Forall_inv_tail L).
Qed.
Lemma renamed_parts cols cols' : Forall2 renamed cols cols' -> Forall2 (fun c c' => same_partition c c') cols cols'.
Proof. intros F. induction F; constructor; auto using renamed_partition. Qed.
Lemma part_count (c c' : list Z) n i : length c = n -> (i < n)%nat -> same_partition c c' -> count c' (nth i c' 0%Z) = count c (nth i c 0%Z).
Proof. intros L Hi P. symmetry. apply count_nth_partition; [exact P|lia]. Qed.

Theorem C84_discrete_mi_relabel_any b n cols cols' : valid_base b -> (2 <= length cols)%nat -> all_len n cols -> (0 < n)%nat ->
  Forall2 (fun c c' => exists f : Z -> Z, inj_on f c /\ c' = map f c) cols cols' ->
  mi_discrete b (Some 0%Z) (map A1 cols') = mi_discrete b (Some 0%Z) (map A1 cols).
Proof.
  intros V Hk HL Hn F. pose proof (renamed_all_len n cols cols' HL F) as HL'. pose proof (renamed_parts _ _ F) as FP.
  apply (mi_any_same b n cols cols' (fun i => i)); auto using shuffles_id.
  - clear -F. induction F as [|c c' l l' Q F IH]; constructor; auto. split; [apply Ent_partition, renamed_partition, Q|apply renamed_const, Q].
  - apply Ent_partition, rows_of_partition; assumption.
  - intros i Hi. unfold cell_product. f_equal. clear -FP HL Hi. induction FP as [|c c' l l' Q F IH]; [reflexivity|].
    cbn [map]. rewrite (part_count c c' n i (Forall_inv HL) Hi Q), IH by exact (Forall_inv_tail HL). reflexivity.
Qed.
Print Assumptions C84_discrete_mi_relabel_any.

(** reordered columns *)
Section PICK.
Variables (n : nat) (sg : list nat).
Hypothesis P : Permutation sg (seq 0 n).
Let g := fun c : list Z => map (fun j => nth j c 0%Z) sg.
Let p := fun i => nth i sg 0%nat.

Lemma sg_len : length sg = n. Proof using P. rewrite (Permutation_length P). apply seq_length. Qed.
Lemma sg_shuffles : shuffles n p.
Proof using P. unfold shuffles, p. rewrite <- (list_as_map 0%nat sg n sg_len). exact P. Qed.
Lemma g_len c : length (g c) = n. Proof using P. unfold g. rewrite map_length. apply sg_len. Qed.
Lemma g_perm c : length c = n -> Permutation (g c) c.
Proof using P. intros L. unfold g. transitivity (map (fun j => nth j c 0%Z) (seq 0 n)); [apply Permutation_map, P|]. rewrite <- (list_as_map 0%Z c n L). reflexivity. Qed.
Lemma g_nth c i : (i < n)%nat -> nth i (g c) 0%Z = nth (p i) c 0%Z.
Proof using P.
  intros Hi. unfold g, p. rewrite (nth_indep _ 0%Z (nth 0 c 0%Z)) by (rewrite map_length, sg_len; exact Hi). apply (map_nth (fun j => nth j c 0%Z)).
Qed.
Lemma g_rows cols : Permutation (rows_of 0%Z n (map g cols)) (rows_of 0%Z n cols).
Proof using P.
  unfold rows_of. transitivity (map (fun t => map (fun c => nth t c 0%Z) cols) (map p (seq 0 n))).
  - rewrite map_map. match goal with |- Permutation ?a ?b => replace a with b; [reflexivity|] end.
    apply map_ext_in. intros i Hi. apply in_seq in Hi. rewrite map_map. apply map_ext. intros c. symmetry. apply g_nth. lia.
  - apply Permutation_map, sg_shuffles.
Qed.
Lemma g_pair c z : length c = n -> length z = n -> Permutation (combine (g c) (g z)) (combine c z).
Proof using P.
  intros Lc Lz. assert (E : combine (g c) (g z) = map (fun j => (nth j c 0%Z, nth j z 0%Z)) sg).
  { unfold g. clear. induction sg as [|j l IH]; [reflexivity|]. cbn [map combine]. rewrite IH. reflexivity. }
  rewrite E. transitivity (map (fun j => (nth j c 0%Z, nth j z 0%Z)) (seq 0 n)); [apply Permutation_map, P|].
  match goal with |- Permutation ?a ?b => replace a with b; [reflexivity|] end.
  rewrite (list_as_map (0%Z, 0%Z) (combine c z) n) by (rewrite combine_length; lia).
  apply map_ext. intros j. apply combine_nth. congruence.
Qed.
Lemma g_const c : length c = n -> (const_col c <-> const_col (g c)).
Proof using P.
  intros L. pose proof (g_perm c L) as Q. unfold const_col. split; intros C x y Hx Hy; apply C; (eapply Permutation_in; [|eassumption]);
    [exact Q|exact Q|apply Permutation_sym, Q|apply Permutation_sym, Q].
Qed.
Lemma g_all_len cols : all_len n (map g cols).
Proof using P. unfold all_len. rewrite Forall_forall. intros c Hc. apply in_map_iff in Hc. destruct Hc as (d & <- & _). apply g_len. Qed.
Lemma pick_map cols : map (fun c => pick sg (A1 c)) cols = map A1 (map g cols).
Proof using. rewrite map_map. reflexivity. Qed.

Theorem C84_discrete_mi_reorder_any' b cols : valid_base b -> (2 <= length cols)%nat -> all_len n cols -> (0 < n)%nat ->
  mi_discrete b (Some 0%Z) (map (fun c => pick sg (A1 c)) cols) = mi_discrete b (Some 0%Z) (map A1 cols).
Proof using P.
  intros V Hk HL Hn. rewrite pick_map. apply (mi_any_same b n cols (map g cols) p); auto using g_all_len, sg_shuffles.
  - unfold all_len in HL. clear -HL P g p. induction HL as [|c l L F IH]; constructor; auto. split; [symmetry; apply Ent_perm, g_perm, L|apply g_const, L].
  - symmetry. apply Ent_perm, g_rows.
  - intros i Hi. unfold cell_product. f_equal. rewrite map_map. apply map_ext_in. intros c Hc.
    unfold all_len in HL. rewrite Forall_forall in HL. rewrite g_nth by exact Hi. rewrite (count_perm _ _ _ (g_perm c (HL c Hc))). reflexivity.
Qed.
End PICK.

Theorem C84_discrete_mi_reorder_any b n cols sg : valid_base b -> (2 <= length cols)%nat -> all_len n cols -> (0 < n)%nat ->
  Permutation sg (seq 0 n) ->
  mi_discrete b (Some 0%Z) (map (fun c => pick sg (A1 c)) cols) = mi_discrete b (Some 0%Z) (map A1 cols).
Proof. intros V Hk HL Hn P. apply (C84_discrete_mi_reorder_any' n sg P); assumption. Qed.
Print Assumptions C84_discrete_mi_reorder_any.

(** ** conditional mutual information *)
Lemma varied_or cols zs : varied_pairs cols zs \/ exists c, In c cols /\ const_col c /\ const_col zs.
Proof.
  destruct (const_dec zs) as [C|N]; [|left; left; exact N].
  destruct (const_or_not cols) as [NC|(c & Hc & Cc)]; [left; right; exact NC|right; exists c; auto].
Qed.

Lemma cmi_any_same b n cols zs cols' zs' p : valid_base b -> (2 <= length cols)%nat -> all_len n cols -> all_len n cols' ->
  length zs = n -> length zs' = n -> (0 < n)%nat ->
  Forall2 (fun c c' => Ent (combine c zs) = Ent (combine c' zs') /\ (const_col c <-> const_col c')) cols cols' ->
  Ent (rows_of 0%Z n (cols ++ [zs])) = Ent (rows_of 0%Z n (cols' ++ [zs'])) -> Ent zs = Ent zs' -> (const_col zs <-> const_col zs') ->
  shuffles n p -> (forall i, (i < n)%nat -> pair_product cols' zs' i = pair_product cols zs (p i) /\ joint_product n cols' zs' i = joint_product n cols zs (p i)) ->
  cmi_discrete b (map A1 cols') (RArr (A1 zs')) = cmi_discrete b (map A1 cols) (RArr (A1 zs)).
Proof.
  intros V Hk HL HL' Hz Hz' Hn F EJ EZ CZ SP CP.
  assert (Ek : length cols = length cols') by (clear -F; induction F; simpl; congruence).
  destruct (const_rel_F2 _ _ _ F) as [G1 G2].
  destruct (C17_cmi_value b n cols zs V Hk HL Hz Hn) as (A1' & A2' & A3').
  destruct (C17_cmi_value b n cols' zs' V ltac:(lia) HL' Hz' Hn) as (B1 & B2 & B3).
  assert (ND : forall d : list Z, (exists x y, In x d /\ In y d /\ x <> y) -> const_col d -> False).
  { intros d (x & y & Hx & Hy & N) C. apply N, C; assumption. }
  destruct (varied_or cols zs) as [VP|(c & Hc & Cc & Cz)].
  - assert (VP' : varied_pairs cols' zs').
    { destruct (varied_or cols' zs') as [Q|(c' & Hc' & Cc' & Cz')]; [exact Q|exfalso].
      destruct (G2 c' Hc') as (c & Hc & _ & X). destruct VP as [VP|VP]; [exact (ND zs VP (proj2 CZ Cz'))|exact (ND c (VP c Hc) (proj2 X Cc'))]. }
    destruct (forallb (fits cols zs n) (seq 0 n)) eqn:FA.
    + pose proof (proj1 (fits_all n cols zs) FA) as G.
      assert (G' : forall t, (t < n)%nat -> low64 (pair_product cols' zs' t) <> 0%Z /\ low64 (joint_product n cols' zs' t) <> 0%Z).
      { intros t Ht. destruct (CP t Ht) as [-> ->]. apply G. apply (shuffles_bound n p t SP Ht). }
      rewrite (A1' VP G), (B1 VP' G'). do 2 f_equal. f_equal.
      * f_equal; [|symmetry; exact EZ]. f_equal; [|symmetry; exact EJ]. clear -F. induction F as [|c c' l l' [E _] F IH]; simpl; congruence.
      * unfold lost_cond. f_equal.
        rewrite <- (sum_shuffled n p (fun t => ln (IZR (pair_product cols zs t) / IZR (low64 (pair_product cols zs t)))
               - ln (IZR (joint_product n cols zs t) / IZR (low64 (joint_product n cols zs t)))) SP).
        apply sumf_ext. intros i Hi. apply in_seq in Hi. destruct (CP i ltac:(lia)) as [-> ->]. reflexivity.
    + assert (NG : exists t, (t < n)%nat /\ fits cols zs n t = false).
      { assert (X : exists t, In t (seq 0 n) /\ fits cols zs n t = false).
        { clear -FA. induction (seq 0 n) as [|t l IH]; [discriminate|]. cbn [forallb] in FA. apply andb_false_iff in FA.
          destruct FA as [FA|FA]; [exists t; split; [left; reflexivity|exact FA]|]. destruct (IH FA) as (u & Hu & E). exists u. split; [right; exact Hu|exact E]. }
        destruct X as (t & Ht & E). apply in_seq in Ht. exists t. split; [lia|exact E]. }
      destruct NG as (t & Ht & E).
      assert (Z0 : low64 (pair_product cols zs t) = 0%Z \/ low64 (joint_product n cols zs t) = 0%Z).
      { unfold fits in E. apply andb_false_iff in E. destruct E as [E|E]; apply negb_false_iff, Z.eqb_eq in E; auto. }
      rewrite (A2' VP (ex_intro _ t (conj Ht Z0))). apply (B2 VP').
      destruct (shuffles_onto n p t SP Ht) as (i & Hi & <-). exists i. split; [exact Hi|]. destruct (CP i Hi) as [-> ->]. exact Z0.
  - rewrite (A3' c Hc Cc Cz). destruct (G1 c Hc) as (c' & Hc' & _ & X). apply (B3 c' Hc'); [exact (proj1 X Cc)|exact (proj1 CZ Cz)].
Qed.

Theorem C84_discrete_cmi_relabel_any b n cols zs cols' zs' : valid_base b -> (2 <= length cols)%nat -> all_len n cols -> length zs = n -> (0 < n)%nat ->
  Forall2 (fun c c' => exists f : Z -> Z, inj_on f c /\ c' = map f c) (zs :: cols) (zs' :: cols') ->
  cmi_discrete b (map A1 cols') (RArr (A1 zs')) = cmi_discrete b (map A1 cols) (RArr (A1 zs)).
Proof.
  intros V Hk HL Hz Hn F. inversion F as [|? ? ? ? Rz FC]; subst. set (n := length zs) in *.
  pose proof (renamed_all_len n cols cols' HL FC) as HL'. pose proof (renamed_parts _ _ FC) as FP.
  pose proof (renamed_partition _ _ Rz) as Pz. pose proof (proj1 Pz) as Lz. fold n in Lz.
  assert (FA : Forall2 (fun c c' => same_partition c c') (cols ++ [zs]) (cols' ++ [zs'])) by (apply Forall2_app; auto).
  assert (LA : all_len n (cols ++ [zs])) by (apply Forall_app; split; [exact HL|constructor; auto]).
  pose proof (rows_of_partition n _ _ LA FA) as PR.
  apply (cmi_any_same b n cols zs cols' zs' (fun i => i)); auto using shuffles_id.
  - clear -FC HL Pz n. induction FC as [|c c' l l' Q F IH]; constructor; [|apply IH; exact (Forall_inv_tail HL)]. split; [|apply renamed_const, Q].
    apply Ent_partition, same_partition_combine; [exact (Forall_inv HL)|apply renamed_partition, Q|exact Pz].
  - apply Ent_partition, PR.
  - apply Ent_partition, Pz.
  - apply renamed_const, Rz.
  - intros i Hi. split.
    + unfold pair_product. f_equal. clear -FP HL Hi Pz Lz n. induction FP as [|c c' l l' Q F IH]; [reflexivity|]. cbn [map].
      pose proof (Forall_inv HL) as Lc. cbn beta in Lc. rewrite IH by exact (Forall_inv_tail HL). f_equal. f_equal.
      rewrite <- (combine_nth c zs i 0%Z 0%Z) by exact Lc. rewrite <- (combine_nth c' zs' i 0%Z 0%Z) by (rewrite <- (proj1 Q); congruence).
      symmetry. apply count_nth_partition; [|rewrite combine_length; lia]. apply same_partition_combine; assumption.
    + unfold joint_product. f_equal; f_equal.
      * pose proof (count_nth_partition (rows_of 0%Z n (cols ++ [zs])) (rows_of 0%Z n (cols' ++ [zs'])) [] [] i PR ltac:(unfold rows_of; rewrite map_length, seq_length; exact Hi)) as E.
        unfold rows_of in E at 2 4. rewrite !(nth_seq_map (fun t => map (fun c => nth t c 0%Z) _)) in E by exact Hi. symmetry. exact E.
      * apply (part_count zs zs' n i); auto.
Qed.
Print Assumptions C84_discrete_cmi_relabel_any.

Theorem C84_discrete_cmi_reorder_any b n cols zs sg : valid_base b -> (2 <= length cols)%nat -> all_len n cols -> length zs = n -> (0 < n)%nat ->
  Permutation sg (seq 0 n) ->
  cmi_discrete b (map (fun c => pick sg (A1 c)) cols) (RArr (pick sg (A1 zs))) = cmi_discrete b (map A1 cols) (RArr (A1 zs)).
Proof.
  intros V Hk HL Hz Hn P. set (g := fun c : list Z => map (fun j => nth j c 0%Z) sg). set (p := fun i => nth i sg 0%nat).
  rewrite pick_map. change (pick sg (A1 zs)) with (A1 (g zs)). fold g.
  assert (MA : map g (cols ++ [zs]) = map g cols ++ [g zs]) by apply map_app.
  apply (cmi_any_same b n cols zs (map g cols) (g zs) p); auto.
  - apply (g_all_len n sg P).
  - apply (g_len n sg P).
  - unfold all_len in HL. clear -HL P Hz. induction HL as [|c l L F IH]; constructor; auto. split; [symmetry; apply Ent_perm, (g_pair n sg P); assumption|apply (g_const n sg P), L].
  - rewrite <- MA. symmetry. apply Ent_perm, (g_rows n sg P).
  - symmetry. apply Ent_perm, (g_perm n sg P), Hz.
  - apply (g_const n sg P), Hz.
  - apply (sg_shuffles n sg P).
  - intros i Hi. unfold all_len in HL. rewrite Forall_forall in HL. split.
    + unfold pair_product. f_equal. rewrite map_map. apply map_ext_in. intros c Hc. unfold g. rewrite !(g_nth n sg P) by exact Hi.
      rewrite (count_perm _ _ _ (g_pair n sg P c zs (HL c Hc) Hz)). reflexivity.
    + unfold joint_product. rewrite <- MA. f_equal; f_equal.
      * rewrite (count_perm _ _ _ (g_rows n sg P (cols ++ [zs]))). f_equal. rewrite map_map. apply map_ext. intros c. apply (g_nth n sg P c i Hi).
      * unfold g. rewrite (g_nth n sg P zs i Hi). apply (count_perm _ _ _ (g_perm n sg P zs Hz)).
Qed.
Print Assumptions C84_discrete_cmi_reorder_any.

(** ** 2-D variables *)
Lemma rows_partition {A B} (d : A) (d' : B) n (cols : list (list A)) (cols' : list (list B)) :
  Forall (fun c => length c = n) cols -> Forall2 (fun c c' => same_partition c c') cols cols' ->
  same_partition (rows_of d n cols) (rows_of d' n cols').
Proof.
  intros L P. unfold rows_of. split; [rewrite !map_length; reflexivity|]. rewrite map_length, seq_length. intros i j dx dy Hi Hj.
  rewrite !(nth_seq_map (fun t => map (fun c => nth t c d) cols)), !(nth_seq_map (fun t => map (fun c => nth t c d') cols')) by assumption.
  induction P as [|c c' l l' P0 P IH]; [split; reflexivity|]. specialize (IH (Forall_inv_tail L)).
  destruct P0 as [_ P0]. pose proof (Forall_inv L) as Lc. cbn beta in Lc. rewrite <- Lc in Hi, Hj. specialize (P0 i j d d' Hi Hj). cbn [map].
  split; intros E; injection E as E1 E2; f_equal; tauto.
Qed.

(** mutual information of 2-D variables: rows renamed, variable by variable *)
Theorem C84_discrete_mi_rows_relabel b n (rs rs' : list (list (list Z))) : valid_base b -> (2 <= length rs)%nat -> all_len n rs -> (0 < n)%nat ->
  Forall2 (fun r r' => relabelled (A2 r) (A2 r')) rs rs' ->
  mi_discrete b (Some 0%Z) (map A2 rs') = mi_discrete b (Some 0%Z) (map A2 rs).
Proof.
  intros V Hk HL Hn F.
  assert (Ek : length rs = length rs') by (clear -F; induction F; simpl; congruence).
  assert (FP : Forall2 (fun c c' : list (list Z) => same_partition c c') rs rs').
  { clear -F. induction F as [|r r' l l' Q F IH]; constructor; auto. exact (relabelled_partition _ _ Q). }
  assert (HL' : all_len n rs').
  { unfold all_len in *. clear -FP HL. induction FP as [|r r' l l' Q F IH]; constructor; [rewrite <- (proj1 Q); exact (Forall_inv HL)|apply IH; exact (Forall_inv_tail HL)]. }
  rewrite (C15_mi_of_joint_variables b n rs) by assumption. rewrite (C15_mi_of_joint_variables b n rs') by (auto; lia).
  do 2 f_equal. f_equal.
  - clear -FP. induction FP as [|r r' l l' Q F IH]; [reflexivity|]. cbn [sumf map]. simpl. rewrite (Ent_partition r r' Q), IH. reflexivity.
  - symmetry. apply Ent_partition. apply rows_partition; assumption.
Qed.
Print Assumptions C84_discrete_mi_rows_relabel.

Theorem C84_discrete_mi_rows_reorder b n (rs : list (list (list Z))) sg : valid_base b -> (2 <= length rs)%nat -> all_len n rs -> (0 < n)%nat ->
  Permutation sg (seq 0 n) ->
  mi_discrete b (Some 0%Z) (map (fun r => pick sg (A2 r)) rs) = mi_discrete b (Some 0%Z) (map A2 rs).
Proof.
  intros V Hk HL Hn P. set (g := fun r : list (list Z) => map (fun j => nth j r []) sg).
  assert (LS : length sg = n) by (rewrite (Permutation_length P); apply seq_length).
  replace (map (fun r => pick sg (A2 r)) rs) with (map A2 (map g rs)) by (rewrite map_map; reflexivity).
  assert (HL' : all_len n (map g rs)).
  { unfold all_len. rewrite Forall_forall. intros c Hc. apply in_map_iff in Hc. destruct Hc as (d & <- & _). unfold g. rewrite map_length. exact LS. }
  rewrite (C15_mi_of_joint_variables b n rs) by assumption.
  rewrite (C15_mi_of_joint_variables b n (map g rs)) by (rewrite ?map_length; auto).
  do 2 f_equal. f_equal.
  - unfold all_len in HL. rewrite sumf_map. apply sumf_ext. intros r Hr. rewrite Forall_forall in HL. apply Ent_perm.
    unfold g. transitivity (map (fun j => nth j r []) (seq 0 n)); [apply Permutation_map, P|]. rewrite <- (list_as_map [] r n (HL r Hr)). reflexivity.
  - apply Ent_perm. unfold rows_of.
    transitivity (map (fun t => map (fun c => nth t c []) rs) (map (fun i => nth i sg 0%nat) (seq 0 n))).
    + rewrite (map_map (fun i => nth i sg 0%nat)). match goal with |- Permutation ?a ?b => replace a with b; [reflexivity|] end.
      apply map_ext_in. intros i Hi. apply in_seq in Hi. rewrite map_map. apply map_ext. intros c. unfold g.
      symmetry. rewrite (nth_indep _ [] (nth 0 c [])) by (rewrite map_length; lia). apply (map_nth (fun j => nth j c [])).
    + apply Permutation_map. rewrite <- (list_as_map 0%nat sg n LS). exact P.
Qed.
Print Assumptions C84_discrete_mi_rows_reorder.

(** ** transfer entropies of series of rows, plain and Miller-Madow *)
Theorem C84_discrete_te_relabel_rows b source dest source' dest' l k s n : valid_base b ->
  arr_len source = n -> arr_len dest = n -> table source -> table dest -> table source' -> table dest' ->
  relabelled source source' -> relabelled dest dest' ->
  (1 <= l)%nat -> (1 <= k)%nat -> (1 <= s)%nat -> (Nat.max k l * s < n)%nat -> small2 n ->
  te_discrete b source' dest' (te_kw l k s) = te_discrete b source dest (te_kw l k s) /\
  te_mm b source' dest' (te_kw l k s) = te_mm b source dest (te_kw l k s).
Proof.
  intros V Ls Ld (ws & Ws) (wd & Wd) (ws' & Ws') (wd' & Wd') Rs Rd Hl Hk Hs Hd Hn.
  pose proof (relabelled_len _ _ Rs) as Ls'. pose proof (relabelled_len _ _ Rd) as Ld'. rewrite Ls in Ls'. rewrite Ld in Ld'.
  set (ts := base_times n (Nat.max k l * s) s).
  assert (HT : forall b', In b' ts -> (b' < n)%nat) by (intros b' Hb'; unfold ts in Hb'; rewrite base_times_In in Hb' by exact Hs; lia).
  pose proof (relabelled_partition _ _ Rs) as Ps. pose proof (relabelled_partition _ _ Rd) as Pd.
  pose proof (flat_pasts_partition source source' s l ts n ws ws' Ls Ls' Ws Ws' Ps HT Hs) as Q1.
  pose proof (flat_pasts_partition dest dest' s k ts n wd wd' Ld Ld' Wd Wd' Pd HT Hs) as Q2.
  pose proof (flat_presents_partition dest dest' ts n Ld Ld' Pd HT) as Q3.
  assert (LL : forall a q, length (flat_pasts a s q ts) = length ts) by (intros; apply flat_pasts_length).
  assert (LP : forall a, length (flat_presents a ts) = length ts) by (intros; unfold flat_presents; apply presents_length).
  assert (G : forall mm, mm_ok mm -> te_gen b mm source' dest' (te_kw l k s) RNone = te_gen b mm source dest (te_kw l k s) RNone).
  { intros mm M. rewrite (proj1 (te_gen_ok b mm source dest l k s n V M Ls Ld Hl Hk Hs Hd Hn)).
    rewrite (proj1 (te_gen_ok b mm source' dest' l k s n V M Ls' Ld' Hl Hk Hs Hd Hn)). fold ts.
    rewrite (CMI_partition (flat_presents dest ts) (flat_pasts source s l ts) (flat_pasts dest s k ts) (flat_presents dest' ts) (flat_pasts source' s l ts) (flat_pasts dest' s k ts))
      by (rewrite ?LL, ?LP; auto).
    rewrite (mm_comb_partition (flat_presents dest ts) (flat_pasts source s l ts) (flat_pasts dest s k ts) (flat_presents dest' ts) (flat_pasts source' s l ts) (flat_pasts dest' s k ts))
      by (rewrite ?LL, ?LP; auto). reflexivity. }
  split; [apply G; exact Logic.I|apply G; exact V].
Qed.
Print Assumptions C84_discrete_te_relabel_rows.

Lemma cte_gen_relabel b mm source dest cond source' dest' cond' l k m s n : valid_base b -> mm_ok mm ->
  arr_len source = n -> arr_len dest = n -> arr_len cond = n -> arr_len cond' = n ->
  table source -> table dest -> table cond -> table source' -> table dest' -> table cond' ->
  relabelled source source' -> relabelled dest dest' -> same_partition (arr_rows cond) (arr_rows cond') ->
  (1 <= l)%nat -> (1 <= k)%nat -> (1 <= m)%nat -> (1 <= s)%nat -> (Nat.max (Nat.max k l) m * s < n)%nat -> small2 n ->
  cte_gen b mm source' dest' cond' (cte_kw l k m s) = cte_gen b mm source dest cond (cte_kw l k m s).
Proof.
  intros V M Ls Ld Lc Lc' (ws & Ws) (wd & Wd) (wc & Wc) (ws' & Ws') (wd' & Wd') (wc' & Wc') Rs Rd Pc Hl Hk Hm Hs Hd Hn.
  pose proof (relabelled_len _ _ Rs) as Ls'. pose proof (relabelled_len _ _ Rd) as Ld'. rewrite Ls in Ls'. rewrite Ld in Ld'.
  rewrite (proj1 (cte_gen_ok b mm source dest cond l k m s n V M Ls Ld Lc Hl Hk Hm Hs Hd Hn)).
  rewrite (proj1 (cte_gen_ok b mm source' dest' cond' l k m s n V M Ls' Ld' Lc' Hl Hk Hm Hs Hd Hn)).
  set (ts := base_times n (Nat.max (Nat.max k l) m * s) s).
  assert (HT : forall b', In b' ts -> (b' < n)%nat) by (intros b' Hb'; unfold ts in Hb'; rewrite base_times_In in Hb' by exact Hs; lia).
  assert (NT : (0 < length ts)%nat) by (unfold ts; rewrite base_times_length; apply nrows_pos; assumption).
  pose proof (relabelled_partition _ _ Rs) as Ps. pose proof (relabelled_partition _ _ Rd) as Pd.
  pose proof (flat_pasts_partition source source' s l ts n ws ws' Ls Ls' Ws Ws' Ps HT Hs) as Q1.
  pose proof (flat_pasts_partition dest dest' s k ts n wd wd' Ld Ld' Wd Wd' Pd HT Hs) as Q2.
  pose proof (flat_presents_partition dest dest' ts n Ld Ld' Pd HT) as Q3.
  pose proof (flat_pasts_partition cond cond' s m ts n wc wc' Lc Lc' Wc Wc' Pc HT Hs) as Q4.
  pose proof (te_rows_wf dest wd s k ts n Ld Wd HT) as F2. pose proof (te_rows_wf dest' wd' s k ts n Ld' Wd' HT) as F2'.
  pose proof (te_rows_wf cond wc s m ts n Lc Wc HT) as F4. pose proof (te_rows_wf cond' wc' s m ts n Lc' Wc' HT) as F4'.
  assert (LL : forall a q, length (flat_pasts a s q ts) = length ts) by (intros; apply flat_pasts_length).
  assert (LP : forall a, length (flat_presents a ts) = length ts) by (intros; unfold flat_presents; apply presents_length).
  assert (Q5 : same_partition (hcat [flat_pasts dest s k ts; flat_pasts cond s m ts]) (hcat [flat_pasts dest' s k ts; flat_pasts cond' s m ts])).
  { apply (hcat_same_partition (length ts)); auto. discriminate. }
  assert (LH : length (hcat [flat_pasts dest s k ts; flat_pasts cond s m ts]) = length ts) by (rewrite hcat_length, LL; reflexivity).
  rewrite (CMI_partition (flat_presents dest ts) (flat_pasts source s l ts) (hcat [flat_pasts dest s k ts; flat_pasts cond s m ts])
     (flat_presents dest' ts) (flat_pasts source' s l ts) (hcat [flat_pasts dest' s k ts; flat_pasts cond' s m ts])) by (rewrite ?LH, ?LL, ?LP; auto).
  rewrite (mm_comb_partition (flat_presents dest ts) (flat_pasts source s l ts) (hcat [flat_pasts dest s k ts; flat_pasts cond s m ts])
     (flat_presents dest' ts) (flat_pasts source' s l ts) (hcat [flat_pasts dest' s k ts; flat_pasts cond' s m ts])) by (rewrite ?LH, ?LL, ?LP; auto).
  reflexivity.
Qed.

Lemma reduced_rows c z : table c -> reduce_joint_space (RArr c) = Ok z -> same_partition (arr_rows c) (arr_rows (A1 z)) /\ arr_len (A1 z) = arr_len c.
Proof.
  intros _ E. destruct c as [xs|rs]; cbn [reduce_joint_space] in E; injection E as <-.
  - split; [apply same_partition_refl|reflexivity].
  - pose proof (reduce_rows_partition rs) as P. split; [|symmetry; exact (proj1 P)].
    apply (same_partition_trans rs (reduce_rows rs)); [exact P|apply same_partition_sym, singletons_partition].
Qed.

Theorem C84_discrete_cte_relabel_rows b source dest cond source' dest' cond' l k m s n : valid_base b ->
  arr_len source = n -> arr_len dest = n -> arr_len cond = n ->
  table source -> table dest -> table cond -> table source' -> table dest' -> table cond' ->
  relabelled source source' -> relabelled dest dest' -> relabelled cond cond' ->
  (1 <= l)%nat -> (1 <= k)%nat -> (1 <= m)%nat -> (1 <= s)%nat -> (Nat.max (Nat.max k l) m * s < n)%nat -> small2 n ->
  cte_discrete b source' dest' (RArr cond') (cte_kw l k m s) = cte_discrete b source dest (RArr cond) (cte_kw l k m s) /\
  cte_mm b source' dest' cond' (cte_kw l k m s) = cte_mm b source dest cond (cte_kw l k m s).
Proof.
  intros V Ls Ld Lc Ts Td Tc Ts' Td' Tc' Rs Rd Rc Hl Hk Hm Hs Hd Hn.
  pose proof (relabelled_len _ _ Rc) as Lc'. rewrite Lc in Lc'. pose proof (relabelled_partition _ _ Rc) as Pc.
  split.
  - unfold cte_discrete.
    destruct (reduce_joint_space (RArr cond)) as [z| |] eqn:E; [|destruct cond; discriminate E|destruct cond; discriminate E].
    destruct (reduce_joint_space (RArr cond')) as [z'| |] eqn:E'; [|destruct cond'; discriminate E'|destruct cond'; discriminate E']. cbn [bind].
    destruct (reduced_rows cond z Tc E) as [P1 L1]. destruct (reduced_rows cond' z' Tc' E') as [P2 L2].
    apply (cte_gen_relabel b None source dest (A1 z) source' dest' (A1 z') l k m s n); auto using table_1d; try congruence; [exact Logic.I|].
    apply (same_partition_trans (arr_rows (A1 z)) (arr_rows cond)); [apply same_partition_sym, P1|].
    apply (same_partition_trans (arr_rows cond) (arr_rows cond')); assumption.
  - unfold cte_mm. apply (cte_gen_relabel b (Some b) source dest cond source' dest' cond' l k m s n); auto.
Qed.
Print Assumptions C84_discrete_cte_relabel_rows.

(** ** Miller-Madow mutual information *)
Theorem C84_mm_mi_relabel b n cols cols' : valid_base b -> (2 <= length cols)%nat -> all_len n cols -> (0 < n)%nat ->
  (Z.of_nat n ^ Z.of_nat (length cols) < 2 ^ 64)%Z ->
  Forall2 (fun c c' => exists f : Z -> Z, inj_on f c /\ c' = map f c) cols cols' ->
  mi_mm b (Some 0%Z) (map A1 cols') = mi_mm b (Some 0%Z) (map A1 cols).
Proof.
  intros V Hk HL Hn SM F. pose proof (renamed_all_len n cols cols' HL F) as HL'. pose proof (renamed_parts _ _ F) as FP.
  assert (Ek : length cols = length cols') by (clear -F; induction F; simpl; congruence).
  unfold mi_mm. rewrite (mi_init_0 (map A1 cols) n) by (rewrite ?map_length; auto using all_len_arr).
  rewrite (mi_init_0 (map A1 cols') n) by (rewrite ?map_length; auto using all_len_arr; lia). cbn [bind].
  destruct cols as [|xs [|ys [|zs r]]]; try (simpl in Hk; lia).
  - inversion F as [|? xs' ? ? Rx F1]; subst. inversion F1 as [|? ys' ? ? Ry F2]; subst. inversion F2; subst.
    pose proof (Forall_inv HL) as Lx. pose proof (Forall_inv (Forall_inv_tail HL)) as Ly. cbn beta in Lx, Ly.
    pose proof (Forall_inv HL') as Lx'. pose proof (Forall_inv (Forall_inv_tail HL')) as Ly'. cbn beta in Lx', Ly'.
    assert (S2 : (Z.of_nat n < 2 ^ 32)%Z).
    { simpl length in SM. change (Z.of_nat 2) with 2%Z in SM. rewrite Z.pow_2_r in SM. change (2 ^ 64)%Z with (2 ^ 32 * 2 ^ 32)%Z in SM. nia. }
    cbn [map]. rewrite (mi2_general b xs ys (Some b)), (mi2_general b xs' ys' (Some b)); try congruence; try (rewrite ?Lx, ?Lx'; assumption); try exact V.
    pose proof (renamed_partition _ _ Rx) as Px. pose proof (renamed_partition _ _ Ry) as Py.
    rewrite (MI_partition xs ys xs' ys') by (auto; congruence).
    rewrite (mmc_partition xs xs' Px), (mmc_partition ys ys' Py), (mmc_partition (combine xs ys) (combine xs' ys')); [reflexivity|].
    apply same_partition_combine; auto; congruence.
  - destruct (const_rel_F2 renamed _ _ F) as [G1 G2].
    destruct (const_or_not (xs :: ys :: zs :: r)) as [NC|(c & Hc & Cc)].
    + assert (NC' : no_constant cols').
      { intros c' Hc'. destruct (const_or_not [c']) as [N|(d & [<-|[]] & Cd)]; [apply N; left; reflexivity|].
        exfalso. destruct (G2 c' Hc') as (c & Hc & X). destruct (NC c Hc) as (x & y & Hx & Hy & N). apply N. apply (proj2 (renamed_const _ _ X) Cd); assumption. }
      rewrite (mi_nd_general b (Some b) n (xs :: ys :: zs :: r)) by (auto; simpl; lia).
      rewrite (mi_nd_general b (Some b) n cols') by (auto; try (rewrite <- Ek); auto; simpl; lia).
      pose proof (rows_of_partition n _ _ HL FP) as PR. unfold TotalCorr.
      rewrite (Ent_partition _ _ PR), (mmc_partition _ _ PR).
      assert (EE : forall (l l' : list (list Z)), Forall2 renamed l l' -> sumf Ent l' = sumf Ent l /\ sumf mmc l' = sumf mmc l).
      { intros l l' Q. induction Q as [|d d' m m' Q1 Q IH]; [auto|]. destruct IH as [I1 I2]. pose proof (renamed_partition _ _ Q1) as P1. simpl.
        rewrite I1, I2, (Ent_partition d d' P1), (mmc_partition d d' P1). auto. }
      destruct (EE _ _ F) as [-> ->]. reflexivity.
    + destruct (G1 c Hc) as (c' & Hc' & X). rewrite (mi_nd_early b (Some b) n (xs :: ys :: zs :: r) c) by (auto; simpl; lia).
      apply (mi_nd_early b (Some b) n cols' c'); auto; [rewrite <- Ek; simpl; lia|]. apply (proj1 (renamed_const _ _ X) Cc).
Qed.
Print Assumptions C84_mm_mi_relabel.

Theorem C84_mm_cmi_relabel b (f g h : Z -> Z) xs ys zs : valid_base b -> length xs = length ys -> length xs = length zs -> xs <> [] -> small2 (length xs) ->
  inj_on f xs -> inj_on g ys -> inj_on h zs ->
  cmi_mm b [A1 (map f xs); A1 (map g ys)] (A1 (map h zs)) = cmi_mm b [A1 xs; A1 ys] (A1 zs).
Proof.
  intros V L1 L2 NE HS If Ig Ih. assert (Hn : (0 < length xs)%nat) by (destruct xs; [congruence|simpl; lia]).
  unfold cmi_mm. cbn [arr_len]. rewrite !cmi_init_ok by (rewrite ?map_length; congruence). cbn [bind].
  rewrite (proj1 (cmi2_general b (Some b) xs ys zs V L1 L2 Hn HS V)).
  rewrite (proj1 (cmi2_general b (Some b) (map f xs) (map g ys) (map h zs) V ltac:(rewrite !map_length; exact L1) ltac:(rewrite !map_length; exact L2)
     ltac:(rewrite map_length; exact Hn) ltac:(rewrite map_length; exact HS) V)).
  pose proof (mm_comb_partition xs ys zs (map f xs) (map g ys) (map h zs) L1 L2 (inj_on_cond f xs If) (inj_on_cond g ys Ig) (inj_on_cond h zs Ih)) as E.
  unfold mm_comb in E. rewrite E. rewrite (CMI_partition xs ys zs (map f xs) (map g ys) (map h zs)) by auto using inj_on_cond. reflexivity.
Qed.
Print Assumptions C84_mm_cmi_relabel.

(** concrete data meeting the hypotheses *)
Theorem C84_any_example :
  (let cols := [[1; 1; 2; 2]; [0; 3; 0; 3]; [5; 5; 5; 6]]%Z in let cols' := [[7; 7; -1; -1]; [0; 3; 0; 3]; [6; 6; 6; 5]]%Z in
   all_len 4 cols /\ Forall2 (fun c c' => exists f : Z -> Z, inj_on f c /\ c' = map f c) cols cols') /\
  relabelled (A2 [[0; 0]; [0; 1]; [0; 0]]%Z) (A2 [[4]; [9]; [4]]%Z) /\ Permutation [2; 0; 1]%nat (seq 0 3) /\ small2 3.
Proof.
  split; [|split; [|split]].
  - split; [repeat constructor|]. constructor; [|constructor; [|constructor; [|constructor]]].
    + exists (fun z => if Z.eqb z 1 then 7 else -1)%Z. split; [|reflexivity].
      intros x y Hx Hy. simpl in Hx, Hy. repeat (destruct Hx as [<-|Hx]; [|]); repeat (destruct Hy as [<-|Hy]; [|]); try contradiction; cbn; congruence.
    + exists (fun z => z). split; [intros x y _ _ E; exact E|reflexivity].
    + exists (fun z => 11 - z)%Z. split; [intros x y _ _ E; lia|reflexivity].
  - exists (fun r => match r with [_; 0%Z] => [4]%Z | _ => [9]%Z end). split; [|reflexivity].
    intros x y Hx Hy. cbn [arr_rows In] in Hx, Hy. destruct Hx as [<-|[<-|[<-|[]]]], Hy as [<-|[<-|[<-|[]]]]; cbn; congruence.
  - apply Permutation_sym. cbn [seq]. apply (Permutation_cons_app [2%nat] [1%nat]). apply (Permutation_cons_app [2%nat] []). reflexivity.
  - reflexivity.
Qed.
