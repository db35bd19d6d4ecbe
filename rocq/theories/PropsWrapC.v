(** C17, C16 in full: conditional mutual information of integer arrays for every sample size and number of variables,
    including the 64-bit wrap-around of the products of counts and the early return for constant data. *)
From Coq Require Import Reals Lra Lia List ZArith Arith Bool.
From Verif Require Import Res RSum Spec Info Info2 Ord MBase MData MMI SpecBase PBase PEntropy PCoo PMI PMI2 PMI3 PCMI PMI4 PMI5 PMI6 PCMI2 SpecWrap PWrap PropsWrap PWrapC PropsMI PropsKern2.
Import ListNotations.
Local Open Scope R_scope.

Definition varied_pairs (cols : list (list Z)) (zs : list Z) : Prop :=
  (exists x y, In x zs /\ In y zs /\ x <> y) \/ no_constant cols.

Lemma cmi_api b n cols zs : valid_base b -> (2 <= length cols)%nat -> all_len n cols -> length zs = n ->
  cmi_discrete b (map A1 cols) (RArr (A1 zs)) = cmi_global b None (map A1 cols) (A1 zs).
Proof.
  intros V Hk HL Hz. unfold cmi_discrete. cbn [reduce_joint_space bind].
  assert (EI : cmi_init (map A1 cols) (length zs) = Ok tt).
  { destruct cols as [|x [|y r]]; simpl in Hk; try lia. cbn [map].
    unfold all_len in HL. inversion HL as [|? ? Hx HL2]; subst. inversion HL2; subst. apply cmi_init_ok; congruence. }
  rewrite EI. reflexivity.
Qed.
Lemma fits_all n cols zs : forallb (fits cols zs n) (seq 0 n) = true <->
  (forall t, (t < n)%nat -> low64 (pair_product cols zs t) <> 0%Z /\ low64 (joint_product n cols zs t) <> 0%Z).
Proof.
  rewrite forallb_forall. unfold fits. split; intros G t Ht.
  - specialize (G t ltac:(apply in_seq; lia)). apply andb_true_iff in G. destruct G as [A B].
    apply negb_true_iff, Z.eqb_neq in A. apply negb_true_iff, Z.eqb_neq in B. auto.
  - apply in_seq in Ht. destruct (G t ltac:(lia)) as [A B]. apply andb_true_iff. split; apply negb_true_iff, Z.eqb_neq; assumption.
Qed.
Lemma count_in_bounds {A} `{EqDec A} (l : list A) x : In x l -> (1 <= Z.of_nat (count l x) <= Z.of_nat (length l))%Z.
Proof.
  intros I. unfold count. pose proof (proj1 (count_occ_In eq_dec l x) I). pose proof (count_occ_bound eq_dec x l). lia.
Qed.
Lemma pair_product_pos n cols zs t : all_len n cols -> length zs = n -> (t < n)%nat -> (1 <= pair_product cols zs t)%Z.
Proof.
  intros HL Hz Ht. unfold pair_product. induction HL as [|c cs Hc HL IH]; [simpl; lia|]. cbn [map fold_right].
  assert (1 <= Z.of_nat (count (combine c zs) (nth t c 0%Z, nth t zs 0%Z)))%Z; [|nia].
  apply count_in_bounds. rewrite <- combine_nth by lia. apply nth_In. rewrite combine_length. lia.
Qed.
Lemma joint_product_bounds n cols zs t : length zs = n -> (t < n)%nat ->
  (1 <= joint_product n cols zs t <= Z.of_nat n * Z.of_nat n)%Z.
Proof.
  intros Hz Ht. unfold joint_product.
  assert (I1 : In (map (fun c : list Z => nth t c 0%Z) (cols ++ [zs])) (rows_of 0%Z n (cols ++ [zs]))).
  { unfold rows_of. apply in_map_iff. exists t. split; [reflexivity|apply in_seq; lia]. }
  pose proof (count_in_bounds _ _ I1) as B1. rewrite rows_of_length in B1.
  pose proof (count_in_bounds zs (nth t zs 0%Z) (@nth_In Z t zs 0%Z ltac:(lia))) as B2. rewrite Hz in B2. nia.
Qed.

(** the result for every input of two or more variables *)
Theorem C17_cmi_value : forall b n cols zs, valid_base b -> (2 <= length cols)%nat -> all_len n cols -> length zs = n -> (0 < n)%nat ->
  (varied_pairs cols zs -> (forall t, (t < n)%nat -> low64 (pair_product cols zs t) <> 0%Z /\ low64 (joint_product n cols zs t) <> 0%Z) ->
   cmi_discrete b (map A1 cols) (RArr (A1 zs)) =
   Ok ((sumf (fun c => Ent (combine c zs)) cols - Ent (rows_of 0%Z n (cols ++ [zs])) - Ent zs + lost_cond n cols zs) / unit_of b)) /\
  (varied_pairs cols zs -> (exists t, (t < n)%nat /\ (low64 (pair_product cols zs t) = 0%Z \/ low64 (joint_product n cols zs t) = 0%Z)) ->
   cmi_discrete b (map A1 cols) (RArr (A1 zs)) = NonFinite) /\
  (forall c, In c cols -> (forall x y, In x c -> In y c -> x = y) -> (forall x y, In x zs -> In y zs -> x = y) ->
   cmi_discrete b (map A1 cols) (RArr (A1 zs)) = Ok 0).
Proof.
  intros b n cols zs V Hk HL Hz Hn. rewrite (cmi_api b n cols zs V Hk HL Hz).
  assert (NE : cols <> []) by (apply length_pos_ne; lia). split; [|split].
  - intros NT G. rewrite (cmi_nd_wrapped cols zs n HL Hz Hn b None V NE NT Logic.I), (proj2 (fits_all n cols zs) G).
    unfold CMIn. rewrite Rplus_0_r. reflexivity.
  - intros NT (t & Ht & Z0). rewrite (cmi_nd_wrapped cols zs n HL Hz Hn b None V NE NT Logic.I).
    destruct (forallb (fits cols zs n) (seq 0 n)) eqn:FA; [|reflexivity].
    destruct (proj1 (fits_all n cols zs) FA t Ht) as [A B]. destruct Z0; contradiction.
  - intros c Hc Cc Cz. exact (proj1 (cmi_early cols zs n HL Hz Hn b None c Hc Cc Cz)).
Qed.
Print Assumptions C17_cmi_value.

Lemma lost_cond_small n cols zs : all_len n cols -> length zs = n -> (0 < n)%nat -> (Z.of_nat n < 2 ^ 32)%Z ->
  (forall t, (t < n)%nat -> low64 (joint_product n cols zs t) <> 0%Z) /\
  ((forall t, (t < n)%nat -> low64 (pair_product cols zs t) <> 0%Z) ->
   0 <= lost_cond n cols zs /\ (lost_cond n cols zs = 0 <-> forall t, (t < n)%nat -> (pair_product cols zs t < 2 ^ 64)%Z)).
Proof.
  intros HL Hz Hn S. assert (JL : forall t, (t < n)%nat -> low64 (joint_product n cols zs t) = joint_product n cols zs t /\ (1 <= joint_product n cols zs t)%Z).
  { intros t Ht. pose proof (joint_product_bounds n cols zs t Hz Ht) as B. split; [|lia].
    apply low64_eq; [lia|]. apply (Z.le_lt_trans _ (Z.of_nat n * Z.of_nat n)); [lia|]. change (2 ^ 64)%Z with (2 ^ 32 * 2 ^ 32)%Z. nia. }
  split; [intros t Ht; destruct (JL t Ht); lia|]. intros NZ.
  assert (PN : 0 < INR n) by (apply INR_pos; exact Hn).
  set (f := fun t => ln (IZR (pair_product cols zs t) / IZR (low64 (pair_product cols zs t)))).
  assert (EL : lost_cond n cols zs = sumf f (seq 0 n) / INR n).
  { unfold lost_cond. f_equal. apply sumf_ext. intros t Ht. apply in_seq in Ht. destruct (JL t ltac:(lia)) as [E L]. rewrite E.
    unfold Rdiv at 2. rewrite Rinv_r by (apply not_0_IZR; lia). rewrite ln_1. unfold f. ring. }
  assert (T : forall t, (t < n)%nat -> 0 <= f t /\ (f t = 0 <-> (pair_product cols zs t < 2 ^ 64)%Z)).
  { intros t Ht. pose proof (pair_product_pos n cols zs t HL Hz Ht) as P. specialize (NZ t Ht). unfold f. set (z := pair_product cols zs t) in *.
    pose proof (low64_le z ltac:(lia)) as [A B]. assert (L0 : 0 < IZR (low64 z)) by (apply IZR_lt; lia).
    assert (Lz : 0 < IZR z) by (apply IZR_lt; lia). assert (LE : IZR (low64 z) <= IZR z) by (apply IZR_le; exact B).
    rewrite <- (low64_eq z) by lia. rewrite ln_div by assumption. split.
    - pose proof (ln_monotone (IZR (low64 z)) (IZR z) L0 LE). lra.
    - split; intros E; [apply eq_IZR; apply ln_inv; [exact L0|exact Lz|lra]|rewrite E; lra]. }
  rewrite EL. assert (F0 : forall t, In t (seq 0 n) -> 0 <= f t) by (intros t Ht; apply in_seq in Ht; apply T; lia).
  pose proof (sumf_nonneg f (seq 0 n) F0) as S0. split; [apply Rle_mult_inv_pos; assumption|]. split; intros E.
  - assert (Z0 : sumf f (seq 0 n) = 0) by (apply (Rmult_eq_reg_r (/ INR n)); [unfold Rdiv in E; lra|apply Rinv_neq_0_compat; lra]).
    intros t Ht. apply (T t Ht). apply (sumf_zero_all f (seq 0 n) F0 Z0). apply in_seq. lia.
  - rewrite (sumf_ext f (fun _ => 0)); [rewrite sumf_zero; unfold Rdiv; ring|].
    intros t Ht. apply in_seq in Ht. apply (T t ltac:(lia)). apply E. lia.
Qed.

(** below 2^32 samples the last documented form is returned exactly when no product of pair counts reaches 2^64 ... *)
Theorem C17_exact_iff : forall b n cols zs, valid_base b -> (2 <= length cols)%nat -> all_len n cols -> length zs = n -> (0 < n)%nat ->
  varied_pairs cols zs -> (Z.of_nat n < 2 ^ 32)%Z ->
  (cmi_discrete b (map A1 cols) (RArr (A1 zs)) =
     Ok ((sumf (fun c => Ent (combine c zs)) cols - Ent (rows_of 0%Z n (cols ++ [zs])) - Ent zs) / unit_of b) <->
   forall t, (t < n)%nat -> (pair_product cols zs t < 2 ^ 64)%Z).
Proof.
  intros b n cols zs V Hk HL Hz Hn NT S. pose proof (unit_neq0 b V) as U.
  destruct (C17_cmi_value b n cols zs V Hk HL Hz Hn) as (C1 & C2 & _).
  destruct (lost_cond_small n cols zs HL Hz Hn S) as [JN LS].
  assert (D : (forall t, (t < n)%nat -> low64 (pair_product cols zs t) <> 0%Z) \/ exists t, (t < n)%nat /\ low64 (pair_product cols zs t) = 0%Z).
  { destruct (forallb (fun t => negb (Z.eqb (low64 (pair_product cols zs t)) 0)) (seq 0 n)) eqn:FA.
    - left. rewrite forallb_forall in FA. intros t Ht. specialize (FA t ltac:(apply in_seq; lia)). apply negb_true_iff, Z.eqb_neq in FA. exact FA.
    - right. assert (X : exists t, In t (seq 0 n) /\ low64 (pair_product cols zs t) = 0%Z).
      { clear - FA. induction (seq 0 n) as [|t m IH]; [discriminate|]. cbn [forallb] in FA. apply andb_false_iff in FA.
        destruct FA as [FA|FA]; [exists t; split; [left; reflexivity|apply negb_false_iff, Z.eqb_eq in FA; exact FA]|].
        destruct (IH FA) as (u & Hu & E). exists u. split; [right; exact Hu|exact E]. }
      destruct X as (t & Ht & E). apply in_seq in Ht. exists t. split; [lia|exact E]. }
  destruct D as [NZ|(t & Ht & Z0)].
  - rewrite C1 by auto. destruct (LS NZ) as [_ L0]. rewrite <- L0. split; intros E.
    + assert (E' := f_equal (fun r => match r with Ok v => v | _ => 0 end) E). cbn beta iota in E'.
      unfold Rdiv in E'. apply Rmult_eq_reg_r in E'; [lra|apply Rinv_neq_0_compat; exact U].
    + rewrite E, Rplus_0_r. reflexivity.
  - rewrite C2 by (auto; exists t; auto). split; [discriminate|]. intros G. pose proof (pair_product_pos n cols zs t HL Hz Ht) as P.
    rewrite (proj2 (low64_eq (pair_product cols zs t) ltac:(lia)) (G t Ht)) in Z0. lia.
Qed.
Print Assumptions C17_exact_iff.
(** ... and otherwise too large, or not a number *)
Theorem C17_never_below : forall b n cols zs v, big_base b -> (2 <= length cols)%nat -> all_len n cols -> length zs = n -> (0 < n)%nat ->
  varied_pairs cols zs -> (Z.of_nat n < 2 ^ 32)%Z ->
  cmi_discrete b (map A1 cols) (RArr (A1 zs)) = Ok v ->
  (sumf (fun c => Ent (combine c zs)) cols - Ent (rows_of 0%Z n (cols ++ [zs])) - Ent zs) / unit_of b <= v.
Proof.
  intros b n cols zs v B Hk HL Hz Hn NT S E. pose proof (big_valid b B) as V.
  rewrite (cmi_api b n cols zs V Hk HL Hz) in E. assert (NE : cols <> []) by (apply length_pos_ne; lia).
  rewrite (cmi_nd_wrapped cols zs n HL Hz Hn b None V NE NT Logic.I) in E.
  destruct (forallb _ _) eqn:FA; [|discriminate]. pose proof (proj1 (fits_all n cols zs) FA) as G.
  destruct (lost_cond_small n cols zs HL Hz Hn S) as [_ LS]. destruct (LS (fun t Ht => proj1 (G t Ht))) as [L0 _].
  assert (E' := f_equal (fun r => match r with Ok v => v | _ => 0 end) E). cbn beta iota in E'. rewrite <- E'. pose proof (unit_pos b V B) as U.
  rewrite Rplus_0_r. apply Rmult_le_compat_r; [apply Rlt_le, Rinv_0_lt_compat; exact U|unfold CMIn; lra].
Qed.

(** the first documented form (conditional total correlation) is returned, below the wrap-around, exactly when there are
    two variables or the condition is constant *)
Theorem C17_first_form_iff : forall b n cols zs, valid_base b -> (2 <= length cols)%nat -> all_len n cols -> length zs = n -> (0 < n)%nat ->
  varied_pairs cols zs -> (Z.of_nat n ^ Z.of_nat (length cols) < 2 ^ 64)%Z ->
  (cmi_discrete b (map A1 cols) (RArr (A1 zs)) = Ok (CondTotalCorr n cols zs / unit_of b) <->
   length cols = 2%nat \/ (forall x y, In x zs -> In y zs -> x = y)).
Proof.
  intros b n cols zs V Hk HL Hz Hn NT SM. pose proof (unit_neq0 b V) as U.
  destruct (C17_cmi_last_form_partial b n cols zs V Hk HL Hz Hn SM NT) as (v & E & _ & Ev). rewrite E.
  assert (NEz : zs <> []) by (intros ->; simpl in Hz; lia).
  rewrite <- (Ent_zero_iff zs NEz). split.
  - intros Q. assert (Q' := f_equal (fun r => match r with Ok v => v | _ => 0 end) Q). cbn beta iota in Q'. rewrite Ev in Q'.
    unfold Rdiv in Q'. apply Rmult_eq_reg_r in Q'; [|apply Rinv_neq_0_compat; exact U].
    assert (P0 : (INR (length cols) - 2) * Ent zs = 0) by lra. apply Rmult_integral in P0. destruct P0 as [P0|P0]; [left|right; exact P0].
    apply INR_eq. simpl (INR 2). lra.
  - intros [L|Z0]; rewrite Ev; f_equal; f_equal; [rewrite L; simpl (INR 2); ring|rewrite Z0; ring].
Qed.
Print Assumptions C17_first_form_iff.

(** C16: when the conditional mutual information is a number *)
Theorem C16_cmi_finite_iff : forall b n cols zs, valid_base b -> (2 <= length cols)%nat -> all_len n cols -> length zs = n -> (0 < n)%nat ->
  varied_pairs cols zs ->
  ((exists v, cmi_discrete b (map A1 cols) (RArr (A1 zs)) = Ok v) <->
   (forall t, (t < n)%nat -> low64 (pair_product cols zs t) <> 0%Z /\ low64 (joint_product n cols zs t) <> 0%Z)).
Proof.
  intros b n cols zs V Hk HL Hz Hn NT. rewrite (cmi_api b n cols zs V Hk HL Hz).
  assert (NE : cols <> []) by (apply length_pos_ne; lia).
  rewrite (cmi_nd_wrapped cols zs n HL Hz Hn b None V NE NT Logic.I). rewrite <- fits_all. destruct (forallb _ _).
  - split; [reflexivity|intros _; eexists; reflexivity].
  - split; [intros [v E]; discriminate|discriminate].
Qed.
Print Assumptions C16_cmi_finite_iff.

(** 64 variables with pair counts of 2: the product of pair counts is 2^64 *)
Example C17_wrap_example : varied_pairs (repeat [0; 0; 1; 1]%Z 64) [5; 5; 6; 6]%Z /\
  low64 (pair_product (repeat [0; 0; 1; 1]%Z 64) [5; 5; 6; 6]%Z 0) = 0%Z /\
  low64 (joint_product 4 (repeat [0; 0; 1; 1]%Z 64) [5; 5; 6; 6]%Z 0) = 4%Z.
Proof. split; [left; exists 5%Z, 6%Z; simpl; intuition lia|split; vm_compute; reflexivity]. Qed.
