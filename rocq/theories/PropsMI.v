(** Property theorems about discrete mutual information and conditional mutual information. *)
From Coq Require Import Reals Lra Lia List ZArith Arith Bool Permutation.
From Verif Require Import Res RSum Spec Info Info2 Ord MBase MData MEntropy MMI SpecBase PBase PEntropy PCoo PMI PMI2 PMI3 PCMI PMI4 PCMI2 PMI5 PMI6.
Import ListNotations.
Local Open Scope R_scope.

(** [small2 n]: fewer than 2^32 samples, so that the product of two counts fits in [uint64]. *)

(** C10 *)
Theorem C10_mi_is_entropy_difference : forall b xs ys,
  big_base b -> length xs = length ys -> xs <> [] -> small2 (length xs) ->
  exists v hx hy hxy,
    mi_discrete b (Some 0%Z) [A1 xs; A1 ys] = Ok v /\
    entropy_discrete b (EArr (A1 xs)) = Ok hx /\
    entropy_discrete b (EArr (A1 ys)) = Ok hy /\
    entropy_discrete b (ETuple [A1 xs; A1 ys]) = Ok hxy /\
    v = hx + hy - hxy /\ v = MI xs ys / unit_of b /\ 0 <= v.
Proof.
  intros b xs ys B L NE HS. pose proof (big_valid b B) as V.
  assert (NEy : ys <> []) by (apply length_pos_ne; rewrite <- L; apply len_pos; exact NE).
  assert (HL : all_len (length xs) [xs; ys]) by (repeat constructor; auto).
  exists (MI xs ys / unit_of b), (Ent xs / unit_of b), (Ent ys / unit_of b), (Ent (combine xs ys) / unit_of b).
  split; [apply mi2_api; assumption|]. split; [apply entropy_1d; assumption|].
  split; [apply entropy_1d; assumption|]. split.
  { pose proof (entropy_tuple b (length xs) [xs; ys] V ltac:(discriminate) HL (len_pos xs NE)) as E.
    cbn [map] in E. rewrite E. do 2 f_equal.
    apply rows_of_2; auto. }
  split; [unfold MI, Rdiv; ring|]. split; [reflexivity|].
  apply big_div_nonneg; [exact B|apply MI_nonneg; exact L].
Qed.
Print Assumptions C10_mi_is_entropy_difference.

(** C11 *)
Theorem C11_mi_symmetric_bounded : forall b xs ys,
  big_base b -> length xs = length ys -> xs <> [] -> small2 (length xs) ->
  exists v hx hy,
    mi_discrete b (Some 0%Z) [A1 xs; A1 ys] = Ok v /\
    mi_discrete b (Some 0%Z) [A1 ys; A1 xs] = Ok v /\
    entropy_discrete b (EArr (A1 xs)) = Ok hx /\
    entropy_discrete b (EArr (A1 ys)) = Ok hy /\ v <= hx /\ v <= hy.
Proof.
  intros b xs ys B L NE HS. pose proof (big_valid b B) as V.
  assert (NEy : ys <> []) by (apply length_pos_ne; rewrite <- L; apply len_pos; exact NE).
  exists (MI xs ys / unit_of b), (Ent xs / unit_of b), (Ent ys / unit_of b).
  split; [apply mi2_api; assumption|].
  split; [rewrite (MI_sym xs ys L); apply mi2_api; auto; rewrite <- L; exact HS|].
  split; [apply entropy_1d; assumption|]. split; [apply entropy_1d; assumption|].
  split; apply big_div_le; try exact B; [apply MI_le_l; exact L|].
  rewrite MI_sym by exact L. apply MI_le_l. auto.
Qed.
Print Assumptions C11_mi_symmetric_bounded.

Theorem C11_mi_self_is_entropy : forall b xs,
  big_base b -> xs <> [] -> small2 (length xs) ->
  mi_discrete b (Some 0%Z) [A1 xs; A1 xs] = entropy_discrete b (EArr (A1 xs)).
Proof.
  intros b xs B NE HS. rewrite mi2_api, entropy_1d by auto using big_valid. rewrite MI_self. reflexivity.
Qed.

(** C12 *)
Theorem C12_mi_zero_iff_independent : forall b xs ys,
  big_base b -> length xs = length ys -> xs <> [] -> small2 (length xs) ->
  (mi_discrete b (Some 0%Z) [A1 xs; A1 ys] = Ok 0 <->
   (forall x y, (count (combine xs ys) (x, y) * length xs = count xs x * count ys y)%nat)).
Proof.
  intros b xs ys B L NE HS. rewrite mi2_api by assumption.
  rewrite <- (MI_zero_iff xs ys L NE). rewrite <- (div_zero_iff b (MI xs ys) (big_valid b B)).
  split; [intros E; injection E; auto|intros ->; reflexivity].
Qed.
Print Assumptions C12_mi_zero_iff_independent.

(** C13.  The total correlation is returned when no variable is constant (and products of [k]
    counts fit in [uint64]). *)
Theorem C13_mi_is_total_correlation_partial : forall b n cols,
  valid_base b -> (3 <= length cols)%nat -> all_len n cols -> (0 < n)%nat -> no_constant cols ->
  (Z.of_nat n ^ Z.of_nat (length cols) < 2 ^ 64)%Z ->
  mi_discrete b (Some 0%Z) (map A1 cols) = Ok (TotalCorr 0%Z n cols / unit_of b) /\
  0 <= TotalCorr 0%Z n cols.
Proof.
  intros b n cols V Hk HL Hn NC SM. split.
  - unfold mi_discrete. rewrite (mi_init_0 (map A1 cols) n) by (rewrite ?map_length; auto using all_len_arr; lia).
    cbn [bind]. rewrite (mi_nd_general b None n cols) by auto. f_equal. ring.
  - apply TotalCorr_nonneg; assumption.
Qed.
Print Assumptions C13_mi_is_total_correlation_partial.

(** ... but as soon as one of three or more variables is constant the result is 0, whatever the
    dependence between the others *)
Theorem C13_constant_variable_gives_zero : forall b n cols c,
  (3 <= length cols)%nat -> all_len n cols -> (0 < n)%nat ->
  In c cols -> (forall x y, In x c -> In y c -> x = y) ->
  mi_discrete b (Some 0%Z) (map A1 cols) = Ok 0.
Proof.
  intros b n cols c Hk HL Hn Hc Cc. unfold mi_discrete.
  rewrite (mi_init_0 (map A1 cols) n) by (rewrite ?map_length; auto using all_len_arr; lia).
  cbn [bind]. apply (mi_nd_early b None n cols c); assumption.
Qed.

Definition c13_cols : list (list Z) := [[0; 1; 0; 1]; [0; 1; 0; 1]; [5; 5; 5; 5]]%Z.
Theorem C13_total_correlation_refuted :
  mi_discrete BE (Some 0%Z) (map A1 c13_cols) = Ok 0 /\ all_len 4 c13_cols /\
  0 < TotalCorr 0%Z 4 c13_cols.
Proof.
  split; [|split].
  - apply (C13_constant_variable_gives_zero BE 4 c13_cols [5; 5; 5; 5]%Z); [simpl; lia|repeat constructor|lia|simpl; auto|].
    intros x y Hx Hy. simpl in Hx, Hy. lia.
  - repeat constructor.
  - unfold TotalCorr.
    assert (E : Ent (rows_of 0%Z 4 c13_cols) = Ent [0; 1; 0; 1]%Z).
    { change (rows_of 0%Z 4 c13_cols) with (map (fun x => [x; x; 5]%Z) [0; 1; 0; 1]%Z).
      apply Ent_map_inj. intros x y _ _ Exy. injection Exy. auto. }
    rewrite E. unfold c13_cols. cbn [sumf].
    assert (E5 : Ent [5; 5; 5; 5]%Z = 0).
    { apply Ent_zero_iff; [discriminate|]. intros x y Hx Hy. simpl in Hx, Hy. lia. }
    rewrite E5. pose proof (Ent_pos [0; 1; 0; 1]%Z 0%Z 1%Z) as P.
    simpl in P. assert (0 < Ent [0; 1; 0; 1]%Z) by (apply P; auto; discriminate). lra.
Qed.
Print Assumptions C13_total_correlation_refuted.

(** C14 *)
Theorem C14_mi_finite_partial : forall b n cols,
  valid_base b -> (2 <= length cols)%nat -> all_len n cols -> (0 < n)%nat ->
  (Z.of_nat n ^ Z.of_nat (length cols) < 2 ^ 64)%Z ->
  exists v, mi_discrete b (Some 0%Z) (map A1 cols) = Ok v.
Proof.
  intros b n cols V Hk HL Hn SM.
  assert (D : no_constant cols \/ exists c, In c cols /\ forall x y, In x c -> In y c -> x = y).
  { clear -HL. induction cols as [|c cs IH]; [left; intros c []|].
    unfold all_len in HL. inversion HL; subst.
    destruct (const_dec c) as [C|NC]; [right; exists c; simpl; auto|].
    destruct IH as [IH|[d [Hd Cd]]]; [assumption| |right; exists d; simpl; auto].
    left. intros d [<-|Hd]; [exact NC|apply IH; exact Hd]. }
  assert (MI2 : forall xs ys, cols = [xs; ys] -> exists v, mi_discrete b (Some 0%Z) (map A1 cols) = Ok v).
  { intros xs ys ->. unfold all_len in HL. inversion HL as [|? ? H1 HL2]; subst. inversion HL2; subst.
    cbn [map]. eexists. unfold mi_discrete. rewrite mi_init_2 by auto. cbn [bind].
    apply (mi2_general b xs ys None); auto.
    change (Z.of_nat (length [xs; ys])) with 2%Z in SM. rewrite Z.pow_2_r in SM.
    change (2 ^ 64)%Z with (2 ^ 32 * 2 ^ 32)%Z in SM. nia. }
  destruct cols as [|xs [|ys [|zs r]]]; try (simpl in Hk; lia); [apply (MI2 xs ys); reflexivity|].
  destruct D as [NC|[c [Hc Cc]]].
  - eexists. refine (proj1 (C13_mi_is_total_correlation_partial b n _ V _ HL Hn NC SM)). simpl. lia.
  - exists 0. apply (C13_constant_variable_gives_zero b n _ c); auto. simpl; lia.
Qed.
Print Assumptions C14_mi_finite_partial.

(** 64 copies of the array [0,0,1,1]: the product 2^64 of the marginal counts wraps to 0 and the
    result is not finite, although the total correlation is 63 ln 2 *)
Theorem C14_mi_finite_refuted : forall b, valid_base b ->
  mi_discrete b (Some 0%Z) (repeat (A1 [0; 0; 1; 1]%Z) 64) = NonFinite.
Proof. exact wrap_nonfinite. Qed.
Print Assumptions C14_mi_finite_refuted.

(** C15.  Two-dimensional variables (each sample a row). *)
Theorem C15_mi_of_joint_variables : forall b n (rvars : list (list (list Z))),
  valid_base b -> (2 <= length rvars)%nat -> all_len n rvars -> (0 < n)%nat ->
  mi_discrete b (Some 0%Z) (map A2 rvars) =
  Ok ((sumf Ent rvars - Ent (rows_of [] n rvars)) / unit_of b).
Proof.
  intros b n rvars V Hk HL Hn. unfold mi_discrete.
  assert (HL' : Forall (fun a => arr_len a = n) (map A2 rvars)).
  { apply Forall_forall. intros a Ha. apply in_map_iff in Ha. destruct Ha as [r [<- Hr]].
    unfold all_len in HL. rewrite Forall_forall in HL. exact (HL r Hr). }
  rewrite (mi_init_0 (map A2 rvars) n) by (rewrite ?map_length; auto). cbn [bind].
  unfold mi_global.
  assert (F : forallb is_1d (map A2 rvars) = false) by (destruct rvars; [simpl in Hk; lia|reflexivity]).
  rewrite F. rewrite (nd_other_ok rvars n) by (auto; apply length_pos_ne; lia). reflexivity.
Qed.
Print Assumptions C15_mi_of_joint_variables.

(** mixing a one-dimensional with a two-dimensional variable is not supported: TypeError *)
Theorem C15_mixed_dimensions_rejected : forall b x xs rs,
  length rs = S (length xs) ->
  mi_discrete b (Some 0%Z) [A1 (x :: xs); A2 rs] = Raise TypeError.
Proof.
  intros b x xs rs L. unfold mi_discrete. rewrite mi_init_2 by (symmetry; exact L). reflexivity.
Qed.

(** C16 *)
Theorem C16_cmi_entropy_identity : forall b xs ys zs,
  big_base b -> length xs = length ys -> length xs = length zs -> xs <> [] -> small2 (length xs) ->
  exists v hxz hyz hxyz hz,
    cmi_discrete b [A1 xs; A1 ys] (RArr (A1 zs)) = Ok v /\
    entropy_discrete b (ETuple [A1 xs; A1 zs]) = Ok hxz /\
    entropy_discrete b (ETuple [A1 ys; A1 zs]) = Ok hyz /\
    entropy_discrete b (ETuple [A1 xs; A1 ys; A1 zs]) = Ok hxyz /\
    entropy_discrete b (EArr (A1 zs)) = Ok hz /\
    v = hxz + hyz - hxyz - hz /\ v = CMI xs ys zs / unit_of b /\ 0 <= v.
Proof.
  intros b xs ys zs B L1 L2 NE HS. pose proof (big_valid b B) as V. set (n := length xs) in *.
  assert (Hn : (0 < n)%nat) by (apply len_pos; exact NE).
  assert (NEz : zs <> []) by (apply length_pos_ne; rewrite <- L2; exact Hn).
  exists (CMI xs ys zs / unit_of b), (Ent (combine xs zs) / unit_of b), (Ent (combine ys zs) / unit_of b),
    (Ent (combine (combine xs ys) zs) / unit_of b), (Ent zs / unit_of b).
  split; [apply cmi2_api; assumption|].
  assert (T2 : forall us, length us = n -> entropy_discrete b (ETuple [A1 us; A1 zs]) = Ok (Ent (combine us zs) / unit_of b)).
  { intros us Lu. assert (HL : all_len n [us; zs]) by (repeat constructor; auto).
    pose proof (entropy_tuple b n [us; zs] V ltac:(discriminate) HL Hn) as E. cbn [map] in E. rewrite E.
    do 2 f_equal. apply rows_of_2; auto. }
  split; [apply T2; reflexivity|]. split; [apply T2; auto|]. split.
  { assert (HL : all_len n [xs; ys; zs]) by (repeat constructor; auto).
    pose proof (entropy_tuple b n [xs; ys; zs] V ltac:(discriminate) HL Hn) as E. cbn [map] in E. rewrite E.
    do 2 f_equal. apply Ent_partition. apply rows_of_3; auto. }
  split; [apply entropy_1d; assumption|].
  split; [unfold CMI, Rdiv; ring|]. split; [reflexivity|].
  apply big_div_nonneg; [exact B|apply CMI_nonneg; assumption].
Qed.
Print Assumptions C16_cmi_entropy_identity.

(** a joint condition given as a tuple of arrays is the condition on its rows *)
Theorem C16_cmi_joint_condition : forall b xs ys zcols,
  valid_base b -> length xs = length ys -> xs <> [] -> small2 (length xs) ->
  zcols <> [] -> all_len (length xs) zcols ->
  cmi_discrete b [A1 xs; A1 ys] (RTuple (map A1 zcols)) =
  Ok (CMI xs ys (rows_of 0%Z (length xs) zcols) / unit_of b).
Proof.
  intros b xs ys zcols V L NE HS NEz HL.
  apply cmi2_joint; auto; [|rewrite rows_of_length; reflexivity].
  cbn. rewrite (column_stack_ok (length xs)) by assumption. eexists. split; [reflexivity|].
  apply reduce_rows_partition.
Qed.

(** C17.  The last documented form holds (the code sums H(Xi,Z), minus H(X1..Xk,Z), minus H(Z)),
    for inputs without a pair of constant variable and constant condition; it differs from the
    first documented form, the expectation of log p(x1..xk|z)/prod p(xi|z), by (k-2) H(Z). *)
Theorem C17_cmi_last_form_partial : forall b n cols zs,
  valid_base b -> (2 <= length cols)%nat -> all_len n cols -> length zs = n -> (0 < n)%nat ->
  (Z.of_nat n ^ Z.of_nat (length cols) < 2 ^ 64)%Z ->
  (exists x y, In x zs /\ In y zs /\ x <> y) \/ no_constant cols ->
  exists v, cmi_discrete b (map A1 cols) (RArr (A1 zs)) = Ok v /\
    v = (sumf (fun c => Ent (combine c zs)) cols - Ent (rows_of 0%Z n (cols ++ [zs])) - Ent zs) / unit_of b /\
    v = (CondTotalCorr n cols zs + (INR (length cols) - 2) * Ent zs) / unit_of b.
Proof.
  intros b n cols zs V Hk HL Hz Hn SM NT. exists (CMIn n cols zs / unit_of b).
  split; [apply cmi_nd_api; assumption|]. split; [reflexivity|].
  rewrite CMIn_CondTotalCorr by assumption. reflexivity.
Qed.
Print Assumptions C17_cmi_last_form_partial.

(** three variables equal to the condition are conditionally independent (the first form is 0),
    yet the result is H(Z) = ln 2 > 0 *)
Definition c17_cols : list (list Z) := [[0; 1]; [0; 1]; [0; 1]]%Z.
Theorem C17_cmi_first_form_refuted :
  CondTotalCorr 2 c17_cols [0; 1]%Z = 0 /\
  exists v, cmi_discrete BE (map A1 c17_cols) (RArr (A1 [0; 1]%Z)) = Ok v /\ 0 < v.
Proof.
  assert (HL : all_len 2 c17_cols) by repeat constructor.
  assert (E2 : Ent (combine [0; 1]%Z [0; 1]%Z) = Ent [0; 1]%Z).
  { change (combine [0; 1]%Z [0; 1]%Z) with (map (fun x : Z => (x, x)) [0; 1]%Z).
    apply Ent_map_inj. intros x y _ _ E. congruence. }
  assert (E4 : Ent (rows_of 0%Z 2 (c17_cols ++ [[0; 1]%Z])) = Ent [0; 1]%Z).
  { change (rows_of 0%Z 2 (c17_cols ++ [[0; 1]%Z])) with (map (fun x => [x; x; x; x]) [0; 1]%Z).
    apply Ent_map_inj. intros x y _ _ E. congruence. }
  assert (C0 : CondTotalCorr 2 c17_cols [0; 1]%Z = 0).
  { rewrite CondTotalCorr_eq by (auto; lia). rewrite E4. unfold c17_cols. cbn [sumf]. rewrite E2. ring. }
  split; [exact C0|].
  destruct (C17_cmi_last_form_partial BE 2 c17_cols [0; 1]%Z) as [v [E [_ Ev]]]; try exact I; auto; try (simpl; lia).
  { left. exists 0%Z, 1%Z. simpl. repeat split; auto. discriminate. }
  exists v. split; [exact E|]. rewrite Ev, C0. simpl.
  assert (0 < Ent [0; 1]%Z) by (apply (Ent_pos _ 0%Z 1%Z); simpl; auto; discriminate). lra.
Qed.
Print Assumptions C17_cmi_first_form_refuted.

(** for two variables all documented forms agree *)
Theorem C17_cmi_two_variables_first_form : forall b xs ys zs,
  valid_base b -> length xs = length ys -> length xs = length zs -> xs <> [] -> small2 (length xs) ->
  cmi_discrete b [A1 xs; A1 ys] (RArr (A1 zs)) = Ok (CondTotalCorr (length xs) [xs; ys] zs / unit_of b).
Proof.
  intros b xs ys zs V L1 L2 NE HS.
  rewrite (proj1 (cmi2_api b xs ys zs V L1 L2 NE HS)). do 2 f_equal.
  rewrite CondTotalCorr_eq by (try apply len_pos; auto; repeat constructor; auto).
  cbn [sumf app]. rewrite (Ent_partition _ _ (rows_of_3 xs ys zs (length xs) eq_refl (eq_sym L1) (eq_sym L2))).
  unfold CMI. ring.
Qed.

(** C18 *)
Theorem C18_cmi_symmetric : forall b xs ys zs,
  valid_base b -> length xs = length ys -> length xs = length zs -> xs <> [] -> small2 (length xs) ->
  cmi_discrete b [A1 xs; A1 ys] (RArr (A1 zs)) = cmi_discrete b [A1 ys; A1 xs] (RArr (A1 zs)).
Proof.
  intros b xs ys zs V L1 L2 NE HS.
  rewrite (proj1 (cmi2_api b xs ys zs V L1 L2 NE HS)).
  rewrite (proj1 (cmi2_api b ys xs zs V (eq_sym L1) (eq_trans (eq_sym L1) L2)
    (length_pos_ne ys ltac:(rewrite <- L1; apply len_pos; exact NE)) ltac:(rewrite <- L1; exact HS))).
  rewrite CMI_sym by assumption. reflexivity.
Qed.
Print Assumptions C18_cmi_symmetric.

Theorem C18_constant_condition_gives_mi : forall b xs ys zs,
  big_base b -> length xs = length ys -> length xs = length zs -> xs <> [] -> small2 (length xs) ->
  (forall x y, In x zs -> In y zs -> x = y) ->
  cmi_discrete b [A1 xs; A1 ys] (RArr (A1 zs)) = mi_discrete b (Some 0%Z) [A1 xs; A1 ys].
Proof.
  intros b xs ys zs B L1 L2 NE HS Cz.
  rewrite (proj1 (cmi2_api b xs ys zs (big_valid b B) L1 L2 NE HS)), mi2_api by assumption.
  rewrite CMI_const_cond by assumption. reflexivity.
Qed.

(** chain rule: [yz] is the joint variable (y,z) as coded by [reduce_joint_space] *)
Theorem C18_chain_rule : forall b xs ys zs,
  big_base b -> length xs = length ys -> length xs = length zs -> xs <> [] -> small2 (length xs) ->
  exists yz v1 v2 v3,
    reduce_joint_space (RTuple [A1 ys; A1 zs]) = Ok yz /\
    mi_discrete b (Some 0%Z) [A1 xs; A1 yz] = Ok v1 /\
    mi_discrete b (Some 0%Z) [A1 xs; A1 zs] = Ok v2 /\
    cmi_discrete b [A1 xs; A1 ys] (RArr (A1 zs)) = Ok v3 /\ v1 = v2 + v3.
Proof.
  intros b xs ys zs B L1 L2 NE HS. set (n := length xs) in *.
  assert (HL : all_len n [ys; zs]) by (repeat constructor; auto).
  exists (reduce_rows (rows_of 0%Z n [ys; zs])), (MI xs (combine ys zs) / unit_of b), (MI xs zs / unit_of b),
    (CMI xs ys zs / unit_of b).
  split.
  { change (rmap reduce_rows (column_stack (map A1 [ys; zs])) = Ok (reduce_rows (rows_of 0%Z n [ys; zs]))).
    rewrite (column_stack_ok n [ys; zs] ltac:(discriminate) HL). reflexivity. }
  assert (Lr : length xs = length (reduce_rows (rows_of 0%Z n [ys; zs]))) by (rewrite reduce_rows_length, rows_of_length; reflexivity).
  split.
  { rewrite mi2_api by (auto; exact Lr). do 2 f_equal.
    symmetry. apply MI_partition; [rewrite combine_length; lia|apply same_partition_refl|].
    apply same_partition_trans with (rows_of 0%Z n [ys; zs]); [|apply reduce_rows_partition].
    apply same_partition_sym. split; [rewrite rows_of_length, combine_length; lia|].
    intros i j dx [d1 d2] Hi Hj. rewrite rows_of_length in *. unfold rows_of.
    rewrite !nth_map_seq by assumption. rewrite !combine_nth by lia. cbn [map].
    rewrite (nth_indep ys 0%Z d1), (nth_indep zs 0%Z d2), (nth_indep ys 0%Z d1), (nth_indep zs 0%Z d2) by lia.
    split; intros E; injection E; intros; congruence. }
  split; [apply mi2_api; assumption|]. split; [apply cmi2_api; auto using big_valid|].
  rewrite MI_chain by assumption. unfold Rdiv. ring.
Qed.
Print Assumptions C18_chain_rule.

(** C07 for MI and CMI *)
Theorem C07_mi_local_mean : forall b xs ys,
  big_base b -> length xs = length ys -> xs <> [] -> small2 (length xs) ->
  exists ls, mi_discrete_local b (Some 0%Z) [A1 xs; A1 ys] = Ok ls /\ length ls = length xs /\
    mi_discrete b (Some 0%Z) [A1 xs; A1 ys] = Ok (mean ls).
Proof.
  intros b xs ys B L NE HS.
  destruct (mi2_local_any b None xs ys (big_valid b B) L NE I) as [ls [E1 [E2 E3]]].
  exists ls. unfold mi_discrete_local. rewrite mi_init_2 by exact L. cbn [bind].
  split; [exact E1|]. split; [exact E2|]. rewrite mi2_api by assumption. rewrite E3. f_equal. ring.
Qed.
Print Assumptions C07_mi_local_mean.

Theorem C07_mi_nd_local_mean : forall b n cols,
  valid_base b -> (3 <= length cols)%nat -> all_len n cols -> (0 < n)%nat ->
  (Z.of_nat n ^ Z.of_nat (length cols) < 2 ^ 64)%Z ->
  exists ls, mi_discrete_local b (Some 0%Z) (map A1 cols) = Ok ls /\ length ls = n /\
    mi_discrete b (Some 0%Z) (map A1 cols) = Ok (mean ls).
Proof.
  intros b n cols V Hk HL Hn SM.
  assert (D : no_constant cols \/ exists c, In c cols /\ forall x y, In x c -> In y c -> x = y).
  { clear -HL. induction cols as [|c cs IH]; [left; intros c []|].
    unfold all_len in HL. inversion HL; subst.
    destruct (const_dec c) as [C|NC]; [right; exists c; simpl; auto|].
    destruct IH as [IH|[d [Hd Cd]]]; [assumption| |right; exists d; simpl; auto].
    left. intros d [<-|Hd]; [exact NC|apply IH; exact Hd]. }
  assert (NE : cols <> []) by (apply length_pos_ne; lia).
  unfold mi_discrete_local.
  rewrite (mi_init_0 (map A1 cols) n) by (rewrite ?map_length; auto using all_len_arr; lia). cbn [bind].
  destruct D as [NC|[c [Hc Cc]]].
  - destruct (mi_local_general b None n cols V NE HL Hn NC I) as [ls [E1 [E2 E3]]].
    exists ls. split; [exact E1|]. split; [exact E2|].
    rewrite (proj1 (C13_mi_is_total_correlation_partial b n cols V Hk HL Hn NC SM)). rewrite E3. f_equal. ring.
  - exists (repeat 0 n). split; [apply (mi_local_early b None n cols c); auto|].
    split; [apply repeat_length|]. rewrite mean_repeat0. apply (C13_constant_variable_gives_zero b n cols c); auto.
Qed.
Print Assumptions C07_mi_nd_local_mean.

Theorem C07_cmi_local_mean : forall b xs ys zs,
  valid_base b -> length xs = length ys -> length xs = length zs -> xs <> [] -> small2 (length xs) ->
  exists ls, cmi_discrete_local b [A1 xs; A1 ys] (RArr (A1 zs)) = Ok ls /\ length ls = length xs /\
    cmi_discrete b [A1 xs; A1 ys] (RArr (A1 zs)) = Ok (mean ls).
Proof.
  intros b xs ys zs V L1 L2 NE HS.
  destruct (cmi2_api b xs ys zs V L1 L2 NE HS) as [E [ls [E1 [E2 E3]]]].
  exists ls. rewrite E, E3. auto.
Qed.
Print Assumptions C07_cmi_local_mean.

(** C26 for entropy, MI and CMI.  The combination of Miller-Madow entropies. *)
Lemma mm_mmc b xs : valid_base b -> xs <> [] ->
  entropy_mm b (EArr (A1 xs)) = Ok ((Ent xs + mmc xs) / unit_of b).
Proof. exact (mm_1d b xs). Qed.

Lemma mm_tuple b n cols : valid_base b -> cols <> [] -> all_len n cols -> (0 < n)%nat ->
  entropy_mm b (ETuple (map A1 cols)) = Ok ((Ent (rows_of 0%Z n cols) + mmc (rows_of 0%Z n cols)) / unit_of b).
Proof.
  intros V NE HL Hn. unfold entropy_mm. rewrite (make_data_tuple n) by assumption. cbn [bind].
  rewrite mm_simple_ok.
  - rewrite reduce_rows_Ent.
    change ((INR (length (distinct (reduce_rows (rows_of 0%Z n cols)))) - 1) / (2 * INR (length (reduce_rows (rows_of 0%Z n cols)))))
      with (mmc (reduce_rows (rows_of 0%Z n cols))).
    rewrite <- (mmc_partition _ _ (reduce_rows_partition (rows_of 0%Z n cols))). reflexivity.
  - exact V.
  - rewrite reduce_rows_nil. apply length_pos_ne. rewrite rows_of_length. exact Hn.
Qed.

Theorem C26_mm_entropy : forall b xs, valid_base b -> xs <> [] ->
  entropy_mm b (EArr (A1 xs)) =
  Ok (Ent xs / unit_of b + (INR (length (distinct xs)) - 1) / (2 * INR (length xs)) / unit_of b).
Proof. intros b xs V NE. rewrite mm_1d by assumption. f_equal. unfold Rdiv. ring. Qed.
Print Assumptions C26_mm_entropy.

Theorem C26_mm_mi_is_entropy_combination : forall b xs ys,
  big_base b -> length xs = length ys -> xs <> [] -> small2 (length xs) ->
  exists v hx hy hxy,
    mi_mm b (Some 0%Z) [A1 xs; A1 ys] = Ok v /\
    entropy_mm b (EArr (A1 xs)) = Ok hx /\
    entropy_mm b (EArr (A1 ys)) = Ok hy /\
    entropy_mm b (ETuple [A1 xs; A1 ys]) = Ok hxy /\ v = hx + hy - hxy.
Proof.
  intros b xs ys B L NE HS. pose proof (big_valid b B) as V. set (n := length xs) in *.
  assert (Hn : (0 < n)%nat) by (apply len_pos; exact NE).
  assert (NEy : ys <> []) by (apply length_pos_ne; rewrite <- L; exact Hn).
  assert (HL : all_len n [xs; ys]) by (repeat constructor; auto).
  exists (MI xs ys / unit_of b + (mmc xs + mmc ys - mmc (combine xs ys)) / unit_of b),
    ((Ent xs + mmc xs) / unit_of b), ((Ent ys + mmc ys) / unit_of b),
    ((Ent (combine xs ys) + mmc (combine xs ys)) / unit_of b).
  split.
  { unfold mi_mm. rewrite mi_init_2 by exact L. cbn [bind].
    rewrite (mi2_general b xs ys (Some b)) by auto.
    rewrite Rmax_left by (apply big_div_nonneg; [exact B|apply MI_nonneg; exact L]). reflexivity. }
  split; [apply mm_mmc; assumption|]. split; [apply mm_mmc; assumption|]. split.
  { pose proof (mm_tuple b n [xs; ys] V ltac:(discriminate) HL Hn) as E. cbn [map] in E. rewrite E.
    rewrite (rows_of_2 xs ys n eq_refl (eq_sym L)).
    assert (EM : mmc (rows_of 0%Z n [xs; ys]) = mmc (combine xs ys)).
    { unfold mmc. rewrite rows_of_2_distinct by auto. rewrite rows_of_length, combine_length, <- L, Nat.min_id. reflexivity. }
    rewrite EM. reflexivity. }
  unfold MI, Rdiv. ring.
Qed.
Print Assumptions C26_mm_mi_is_entropy_combination.

Theorem C26_mm_cmi_is_entropy_combination : forall b xs ys zs,
  valid_base b -> length xs = length ys -> length xs = length zs -> xs <> [] -> small2 (length xs) ->
  exists v hxz hyz hxyz hz,
    cmi_mm b [A1 xs; A1 ys] (A1 zs) = Ok v /\
    entropy_mm b (ETuple [A1 xs; A1 zs]) = Ok hxz /\
    entropy_mm b (ETuple [A1 ys; A1 zs]) = Ok hyz /\
    entropy_mm b (ETuple [A1 xs; A1 ys; A1 zs]) = Ok hxyz /\
    entropy_mm b (EArr (A1 zs)) = Ok hz /\ v = hxz + hyz - hxyz - hz.
Proof.
  intros b xs ys zs V L1 L2 NE HS. set (n := length xs) in *.
  assert (Hn : (0 < n)%nat) by (apply len_pos; exact NE).
  assert (NEz : zs <> []) by (apply length_pos_ne; rewrite <- L2; exact Hn).
  assert (P2 : forall us : list Z, length us = n -> same_partition (rows_of 0%Z n [us; zs]) (combine us zs)).
  { intros us Lu. split; [rewrite rows_of_length, combine_length; lia|].
    intros i j dx [d1 d2] Hi Hj. rewrite rows_of_length in *. unfold rows_of.
    rewrite !nth_map_seq by assumption. rewrite !combine_nth by lia. cbn [map].
    rewrite (nth_indep us 0%Z d1), (nth_indep zs 0%Z d2), (nth_indep us 0%Z d1), (nth_indep zs 0%Z d2) by lia.
    split; intros E; injection E; intros; congruence. }
  assert (T2 : forall us, length us = n -> entropy_mm b (ETuple [A1 us; A1 zs]) =
    Ok ((Ent (combine us zs) + mmc (combine us zs)) / unit_of b)).
  { intros us Lu. assert (HL : all_len n [us; zs]) by (repeat constructor; auto).
    pose proof (mm_tuple b n [us; zs] V ltac:(discriminate) HL Hn) as E. cbn [map] in E. rewrite E.
    rewrite (Ent_partition _ _ (P2 us Lu)), (mmc_partition _ _ (P2 us Lu)). reflexivity. }
  exists (CMI xs ys zs / unit_of b + (mmc (combine xs zs) + mmc (combine ys zs) - mmc (combine (combine xs ys) zs) - mmc zs) / unit_of b),
    ((Ent (combine xs zs) + mmc (combine xs zs)) / unit_of b), ((Ent (combine ys zs) + mmc (combine ys zs)) / unit_of b),
    ((Ent (combine (combine xs ys) zs) + mmc (combine (combine xs ys) zs)) / unit_of b), ((Ent zs + mmc zs) / unit_of b).
  split.
  { unfold cmi_mm. cbn [arr_len]. rewrite cmi_init_ok by assumption. cbn [bind].
    apply (cmi2_general b (Some b) xs ys zs); auto. }
  split; [apply T2; reflexivity|]. split; [apply T2; auto|]. split.
  { assert (HL : all_len n [xs; ys; zs]) by (repeat constructor; auto).
    pose proof (mm_tuple b n [xs; ys; zs] V ltac:(discriminate) HL Hn) as E. cbn [map] in E. rewrite E.
    rewrite (Ent_partition _ _ (rows_of_3 xs ys zs n eq_refl (eq_sym L1) (eq_sym L2))).
    rewrite (mmc_partition _ _ (rows_of_3 xs ys zs n eq_refl (eq_sym L1) (eq_sym L2))). reflexivity. }
  split; [apply mm_mmc; assumption|]. unfold CMI, Rdiv. ring.
Qed.
Print Assumptions C26_mm_cmi_is_entropy_combination.

(** the Miller-Madow CMI rejects a joint (two-dimensional) condition *)
Theorem C26_mm_cmi_joint_condition_refuted : forall b xs ys rs,
  length xs = length ys -> length xs = length rs ->
  cmi_mm b [A1 xs; A1 ys] (A2 rs) = Raise ValueError.
Proof.
  intros b xs ys rs L1 L2. unfold cmi_mm. cbn [arr_len]. rewrite cmi_init_ok by assumption. reflexivity.
Qed.

(** C52 *)
Theorem C52_data_processing : forall b (f : Z -> Z) xs ys zs,
  big_base b -> length xs = length ys -> length xs = length zs -> xs <> [] -> small2 (length xs) ->
  exists h h' m m' c c',
    entropy_discrete b (EArr (A1 xs)) = Ok h /\ entropy_discrete b (EArr (A1 (map f xs))) = Ok h' /\ h' <= h /\
    mi_discrete b (Some 0%Z) [A1 xs; A1 ys] = Ok m /\ mi_discrete b (Some 0%Z) [A1 (map f xs); A1 ys] = Ok m' /\ m' <= m /\
    cmi_discrete b [A1 xs; A1 ys] (RArr (A1 zs)) = Ok c /\
    cmi_discrete b [A1 (map f xs); A1 ys] (RArr (A1 zs)) = Ok c' /\ c' <= c.
Proof.
  intros b f xs ys zs B L1 L2 NE HS. pose proof (big_valid b B) as V.
  assert (NEf : map f xs <> []) by (apply length_pos_ne; rewrite map_length; apply len_pos; exact NE).
  exists (Ent xs / unit_of b), (Ent (map f xs) / unit_of b), (MI xs ys / unit_of b), (MI (map f xs) ys / unit_of b),
    (CMI xs ys zs / unit_of b), (CMI (map f xs) ys zs / unit_of b).
  split; [apply entropy_1d; assumption|]. split; [apply entropy_1d; assumption|].
  split; [apply big_div_le; [exact B|apply Ent_map_le]|].
  split; [apply mi2_api; assumption|].
  split; [apply mi2_api; rewrite ?map_length; assumption|].
  split; [apply big_div_le; [exact B|apply MI_map_le; exact L1]|].
  split; [apply cmi2_api; assumption|].
  split; [apply cmi2_api; rewrite ?map_length; assumption|].
  apply big_div_le; [exact B|apply CMI_map_le; assumption].
Qed.
Print Assumptions C52_data_processing.

(** C08.  Base change for the discrete and Miller-Madow measures. *)
Definition rescales (f : base -> res R) (b : base) : Prop :=
  exists v w, f b = Ok v /\ f BE = Ok w /\ v * unit_of b = w.

Theorem C08_entropy_rescales : forall b xs, valid_base b -> xs <> [] ->
  rescales (fun b => entropy_discrete b (EArr (A1 xs))) b /\
  rescales (fun b => entropy_mm b (EArr (A1 xs))) b.
Proof.
  intros b xs V NE. pose proof (unit_neq0 b V) as U. split.
  - exists (Ent xs / unit_of b), (Ent xs). rewrite !entropy_1d by (auto; exact I).
    split; [reflexivity|]. split; [simpl; f_equal; field|field; exact U].
  - exists ((Ent xs + mmc xs) / unit_of b), (Ent xs + mmc xs). rewrite !mm_mmc by (auto; exact I).
    split; [reflexivity|]. split; [simpl; f_equal; field|field; exact U].
Qed.
Print Assumptions C08_entropy_rescales.

Theorem C08_cmi_rescales : forall b xs ys zs,
  valid_base b -> length xs = length ys -> length xs = length zs -> xs <> [] -> small2 (length xs) ->
  rescales (fun b => cmi_discrete b [A1 xs; A1 ys] (RArr (A1 zs))) b.
Proof.
  intros b xs ys zs V L1 L2 NE HS. pose proof (unit_neq0 b V) as U.
  exists (CMI xs ys zs / unit_of b), (CMI xs ys zs).
  rewrite (proj1 (cmi2_api b xs ys zs V L1 L2 NE HS)), (proj1 (cmi2_api BE xs ys zs I L1 L2 NE HS)).
  split; [reflexivity|]. split; [simpl; f_equal; field|field; exact U].
Qed.
Print Assumptions C08_cmi_rescales.

(** two-variable MI: only for bases above 1, since the result is clipped below at 0 *)
Theorem C08_mi_rescales_partial : forall b xs ys,
  big_base b -> length xs = length ys -> xs <> [] -> small2 (length xs) ->
  rescales (fun b => mi_discrete b (Some 0%Z) [A1 xs; A1 ys]) b.
Proof.
  intros b xs ys B L NE HS. pose proof (unit_neq0 b (big_valid b B)) as U.
  exists (MI xs ys / unit_of b), (MI xs ys). rewrite !mi2_api by (auto; exact I).
  split; [reflexivity|]. split; [simpl; f_equal; field|field; exact U].
Qed.
Print Assumptions C08_mi_rescales_partial.

Theorem C08_mi_rescales_refuted :
  valid_base (BNum (/ 2)) /\
  mi_discrete (BNum (/ 2)) (Some 0%Z) [A1 [0; 1]%Z; A1 [0; 1]%Z] = Ok 0 /\
  exists w, mi_discrete BE (Some 0%Z) [A1 [0; 1]%Z; A1 [0; 1]%Z] = Ok w /\ 0 < w.
Proof.
  assert (V : valid_base (BNum (/ 2))) by (simpl; lra).
  assert (P : 0 < MI [0; 1]%Z [0; 1]%Z).
  { rewrite MI_self. apply (Ent_pos _ 0%Z 1%Z); simpl; auto; discriminate. }
  assert (U : unit_of (BNum (/ 2)) < 0) by (simpl; rewrite <- ln_1; apply ln_increasing; lra).
  split; [exact V|]. split.
  - unfold mi_discrete. rewrite mi_init_2 by reflexivity. cbn [bind].
    rewrite (mi2_general (BNum (/ 2)) _ _ None) by (auto; simpl; lia).
    rewrite Rmax_right; [f_equal; ring|].
    assert (/ unit_of (BNum (/ 2)) < 0) by (apply Rinv_lt_0_compat; exact U).
    unfold Rdiv. nra.
  - eexists. split; [apply mi2_api; try exact I; try reflexivity; discriminate|]. simpl. lra.
Qed.
Print Assumptions C08_mi_rescales_refuted.

(** C09.  What each unusable base does to the discrete entropy: only negative bases are
    rejected. *)
Theorem C09_negative_base_rejected : forall r i d,
  r < 0 -> make_data i = Ok d -> entropy_discrete (BNum r) i = Raise ValueError.
Proof. exact entropy_base_neg. Qed.
Theorem C09_base_one_not_rejected_refuted : forall i d,
  make_data i = Ok d -> entropy_discrete (BNum 1) i = NonFinite.
Proof. exact entropy_base_1. Qed.
Theorem C09_base_zero_not_rejected_refuted : forall i d,
  make_data i = Ok d -> entropy_discrete (BNum 0) i = Ok 0.
Proof. exact entropy_base_0. Qed.
(** and the estimators that divide by [log(base)] return nan for a negative base *)
Theorem C09_negative_base_to_base_refuted : forall r x, r < 0 -> to_base (BNum r) x = NonFinite.
Proof.
  intros r x Hr. unfold to_base. destruct (Req_EM_T r 0); [lra|]. rewrite np_log_bad by lra. reflexivity.
Qed.

(** C50.  The pairs (x[t], y[t+o]) for all t where both exist. *)
Definition shifted_pairs (xs ys : list Z) (o : Z) : list (Z * Z) :=
  flat_map (fun t =>
    if (0 <=? Z.of_nat t + o)%Z && (Z.of_nat t + o <? Z.of_nat (length ys))%Z
    then [(nth t xs 0%Z, nth (Z.to_nat (Z.of_nat t + o)) ys 0%Z)] else [])
  (seq 0 (length xs)).

Lemma flat_map_if {A} (f : nat -> A) (p : nat -> bool) (l : list nat) :
  (forall t, In t l -> p t = true) -> flat_map (fun t => if p t then [f t] else []) l = map f l.
Proof.
  induction l as [|t l IH]; intros H; [reflexivity|]. cbn [flat_map map].
  rewrite (H t (or_introl eq_refl)), IH by (intros; apply H; right; assumption). reflexivity.
Qed.
Lemma flat_map_none {A} (f : nat -> A) (p : nat -> bool) (l : list nat) :
  (forall t, In t l -> p t = false) -> flat_map (fun t => if p t then [f t] else []) l = [].
Proof.
  induction l as [|t l IH]; intros H; [reflexivity|]. cbn [flat_map].
  rewrite (H t (or_introl eq_refl)), IH by (intros; apply H; right; assumption). reflexivity.
Qed.

Lemma firstn_index {A} (d : A) (xs : list A) k : (k <= length xs)%nat ->
  firstn k xs = map (fun t => nth t xs d) (seq 0 k).
Proof.
  revert xs; induction k as [|k IH]; intros xs H; [reflexivity|].
  destruct xs as [|x xs]; [simpl in H; lia|]. cbn [firstn seq map]. f_equal.
  rewrite IH by (simpl in H; lia). rewrite <- seq_shift, map_map. reflexivity.
Qed.
Lemma skipn_index {A} (d : A) (xs : list A) k : (k <= length xs)%nat ->
  skipn k xs = map (fun t => nth t xs d) (seq k (length xs - k)).
Proof.
  revert xs; induction k as [|k IH]; intros xs H.
  - simpl skipn. rewrite Nat.sub_0_r. apply list_as_map. reflexivity.
  - destruct xs as [|x xs]; [simpl in H; lia|]. cbn [skipn length]. rewrite IH by (simpl in H; lia).
    rewrite Nat.sub_succ. rewrite <- seq_shift, map_map. reflexivity.
Qed.

Lemma map_add_seq k a m : map (fun t => (t + k)%nat) (seq a m) = seq (a + k) m.
Proof. revert a; induction m as [|m IH]; intros a; [reflexivity|]. cbn [seq map]. f_equal. rewrite IH. reflexivity. Qed.

Lemma shifted_pos xs ys o : length xs = length ys -> (0 <= o <= Z.of_nat (length xs))%Z ->
  map fst (shifted_pairs xs ys o) = firstn (length xs - Z.to_nat o) xs /\
  map snd (shifted_pairs xs ys o) = skipn (Z.to_nat o) ys.
Proof.
  intros L Ho. set (k := Z.to_nat o). set (n := length xs) in *.
  assert (E : shifted_pairs xs ys o = map (fun t => (nth t xs 0%Z, nth (t + k) ys 0%Z)) (seq 0 (n - k))).
  { unfold shifted_pairs. fold n. replace n with ((n - k) + k)%nat at 1 by lia.
    rewrite seq_app, flat_map_app. rewrite flat_map_if, flat_map_none, app_nil_r.
    - apply map_ext. intros t. do 2 f_equal. lia.
    - intros t Ht. apply in_seq in Ht. apply andb_false_iff. right. apply Z.ltb_ge. lia.
    - intros t Ht. apply in_seq in Ht. apply andb_true_iff. split; [apply Z.leb_le|apply Z.ltb_lt]; lia. }
  rewrite E, !map_map. cbn [fst snd]. split.
  - symmetry. apply firstn_index. lia.
  - rewrite (skipn_index 0%Z) by lia. rewrite <- L. fold n.
    rewrite <- (map_map (fun t => (t + k)%nat) (fun t => nth t ys 0%Z)). rewrite map_add_seq. reflexivity.
Qed.

Lemma shifted_neg xs ys o : length xs = length ys -> (- Z.of_nat (length xs) <= o <= 0)%Z ->
  map fst (shifted_pairs xs ys o) = skipn (Z.to_nat (- o)) xs /\
  map snd (shifted_pairs xs ys o) = firstn (length ys - Z.to_nat (- o)) ys.
Proof.
  intros L Ho. set (k := Z.to_nat (- o)). set (n := length xs) in *.
  assert (E : shifted_pairs xs ys o = map (fun t => (nth t xs 0%Z, nth (t - k) ys 0%Z)) (seq k (n - k))).
  { unfold shifted_pairs. fold n. replace n with (k + (n - k))%nat at 1 by lia.
    rewrite seq_app, flat_map_app. rewrite flat_map_none, flat_map_if.
    - cbn [app]. apply map_ext_in. intros t Ht. apply in_seq in Ht. do 2 f_equal. lia.
    - intros t Ht. apply in_seq in Ht. apply andb_true_iff. split; [apply Z.leb_le|apply Z.ltb_lt]; lia.
    - intros t Ht. apply in_seq in Ht. apply andb_false_iff. left. apply Z.leb_gt. lia. }
  rewrite E, !map_map. cbn [fst snd]. split.
  - symmetry. apply skipn_index. lia.
  - rewrite (firstn_index 0%Z) by lia. rewrite <- L. fold n.
    change (seq k (n - k)) with (seq (0 + k) (n - k)). rewrite <- map_add_seq, map_map.
    apply map_ext. intros t. do 2 f_equal. lia.
Qed.

Theorem C50_offset_pairs_samples : forall b xs ys o,
  length xs = length ys -> (- Z.of_nat (length xs) <= o <= Z.of_nat (length xs))%Z ->
  mi_discrete b (Some o) [A1 xs; A1 ys] =
  mi_global b None [A1 (map fst (shifted_pairs xs ys o)); A1 (map snd (shifted_pairs xs ys o))].
Proof.
  intros b xs ys o L Ho. unfold mi_discrete, mi_init. cbn [length Nat.ltb Nat.leb andb hd arr_len forallb].
  rewrite Nat.eqb_refl, <- L, Nat.eqb_refl. cbn [andb negb nth].
  destruct (Z.ltb_spec 0 o) as [P|P]; [|destruct (Z.ltb_spec o 0) as [Q|Q]].
  - destruct (shifted_pos xs ys o L ltac:(lia)) as [E1 E2]. rewrite E1, E2. reflexivity.
  - destruct (shifted_neg xs ys o L ltac:(lia)) as [E1 E2]. rewrite E1, E2. reflexivity.
  - assert (o = 0)%Z by lia. subst o. destruct (shifted_pos xs ys 0 L ltac:(lia)) as [E1 E2].
    rewrite E1, E2. rewrite Nat.sub_0_r, firstn_all. reflexivity.
Qed.
Print Assumptions C50_offset_pairs_samples.

(** and the value is the MI of those pairs *)
Theorem C50_offset_value : forall b xs ys o,
  big_base b -> length xs = length ys -> small2 (length xs) ->
  (- Z.of_nat (length xs) < o < Z.of_nat (length xs))%Z ->
  let P := shifted_pairs xs ys o in
  mi_discrete b (Some o) [A1 xs; A1 ys] = Ok (MI (map fst P) (map snd P) / unit_of b).
Proof.
  intros b xs ys o B L HS Ho P. rewrite C50_offset_pairs_samples by (auto; lia). fold P.
  assert (LP : (length (map fst P) <= length xs)%nat /\ (0 < length (map fst P))%nat).
  { unfold P. destruct (Z.ltb_spec o 0) as [Q|Q].
    - rewrite (proj1 (shifted_neg xs ys o L ltac:(lia))), skipn_length. lia.
    - rewrite (proj1 (shifted_pos xs ys o L ltac:(lia))), firstn_length. lia. }
  rewrite (mi2_general b _ _ None); auto using big_valid.
  - rewrite Rmax_left by (apply big_div_nonneg; [exact B|apply MI_nonneg; rewrite !map_length; reflexivity]).
    f_equal. ring.
  - rewrite !map_length. reflexivity.
  - apply LP.
  - unfold small2 in HS. lia.
Qed.
Print Assumptions C50_offset_value.

Theorem C50_offset_three_variables_rejected : forall b o x y z r,
  o <> 0%Z -> mi_discrete b (Some o) (x :: y :: z :: r) = Raise ValueError.
Proof.
  intros b o x y z r N. unfold mi_discrete, mi_init. cbn [length Nat.ltb Nat.leb andb].
  destruct (Z.eqb_spec o 0); [contradiction|]. reflexivity.
Qed.

(** [offset=None] passes the documented check and then fails on [None > 0] *)
Theorem C50_offset_none_type_error : forall b xs ys, length xs = length ys ->
  mi_discrete b None [A1 xs; A1 ys] = Raise TypeError.
Proof.
  intros b xs ys L. unfold mi_discrete, mi_init. cbn [length Nat.ltb Nat.leb andb hd arr_len forallb].
  rewrite Nat.eqb_refl, <- L, Nat.eqb_refl. reflexivity.
Qed.

(** ** Hypotheses are met by concrete data *)
Example C10_example : big_base (BNum 2) /\ length [0; 1; 1; 2]%Z = length [3; 3; 4; 4]%Z /\
  [0; 1; 1; 2]%Z <> [] /\ small2 (length [0; 1; 1; 2]%Z).
Proof. repeat split; try discriminate; try (simpl; lra). Qed.
Example C12_example : forall x y,
  (count (combine [0; 0; 1; 1] [5; 6; 5; 6]) (x, y) * 4 = count [0; 0; 1; 1] x * count [5; 6; 5; 6] y)%nat%Z.
Proof.
  intros x y. unfold count. simpl.
  repeat match goal with |- context [if ?e then _ else _] => destruct e end; try reflexivity; exfalso; congruence.
Qed.
Example C13_example : no_constant [[0; 1; 0]; [0; 0; 1]; [2; 2; 3]]%Z /\ (3 ^ 3 < 2 ^ 64)%Z.
Proof.
  split; [|lia]. intros c [<-|[<-|[<-|[]]]].
  - exists 0%Z, 1%Z. simpl. repeat split; auto; discriminate.
  - exists 0%Z, 1%Z. simpl. repeat split; auto; discriminate.
  - exists 2%Z, 3%Z. simpl. repeat split; auto; discriminate.
Qed.
Example C15_example : all_len 2 [[[1; 2]; [3; 4]]; [[0]; [1]]]%Z /\
  rows_of [] 2 [[[1; 2]; [3; 4]]; [[0]; [1]]]%Z = [[[1; 2]; [0]]; [[3; 4]; [1]]]%Z.
Proof. split; [repeat constructor|reflexivity]. Qed.
Example C16_example : reduce_joint_space (RTuple [A1 [0; 1; 0]%Z; A1 [4; 4; 4]%Z]) = Ok [0; 1; 0]%Z.
Proof. reflexivity. Qed.
Example C50_example : shifted_pairs [1; 2; 3; 4]%Z [5; 6; 7; 8]%Z 1 = [(1, 6); (2, 7); (3, 8)]%Z /\
  shifted_pairs [1; 2; 3; 4]%Z [5; 6; 7; 8]%Z (-2) = [(3, 5); (4, 6)]%Z.
Proof. split; reflexivity. Qed.
