(** Property theorems completing C52: the data-processing inequality for any number of variables, for variables whose samples
    are rows, for conditional mutual information of any number of variables, and for joint entropies. *)
From Coq Require Import Reals Lra Lia List ZArith Arith Bool Permutation.
From Verif Require Import Res RSum Spec SpecBase SpecInput Info Info2 Ord MBase MData MEntropy MMI MGeneric PBase PEntropy PCoo PMI PMI2 PMI3 PCMI PMI4 PCMI2 PMI5 PMI6 PTE2 PEst5 PEst6 PropsMI PropsEst PropsInv PropsWrapC.
Import ListNotations.
Local Open Scope R_scope.
Local Notation length := List.length.

(** [c'] is computed from [c] sample by sample *)
Definition processed {A} (c c' : list A) : Prop := exists f : A -> A, c' = map f c.

Section Rows.
Context {A : Type} `{EqDec A} (d : A) (n : nat).

Lemma row_eq_iff (cols : list (list A)) i j :
  map (fun c => nth i c d) cols = map (fun c => nth j c d) cols <-> Forall (fun c => nth i c d = nth j c d) cols.
Proof.
  induction cols as [|c cs IH]; [split; constructor|]. cbn [map]. rewrite Forall_cons_iff, <- IH.
  split; [intros E; injection E; auto|intros [-> ->]; reflexivity].
Qed.

Lemma rows_nth (cols : list (list A)) i e : (i < n)%nat -> nth i (rows_of d n cols) e = map (fun c => nth i c d) cols.
Proof. intros Hi. unfold rows_of. rewrite (nth_seq_map (fun t => map (fun c => nth t c d) cols)) by exact Hi. reflexivity. Qed.

Lemma rows_len (cols : list (list A)) : length (rows_of d n cols) = n.
Proof. unfold rows_of. rewrite map_length, seq_length. reflexivity. Qed.

Lemma nth_in {B} (l : list B) i (a b : B) : (i < length l)%nat -> nth i l a = nth i l b.
Proof. apply nth_indep. Qed.

(** a joint sample is the pair of one column and the rest *)
Lemma rows_split pre c post : length c = n ->
  same_partition (rows_of d n (pre ++ c :: post)) (combine c (rows_of d n (pre ++ post))).
Proof.
  intros L. split; [rewrite combine_length, !rows_len; lia|]. rewrite rows_len. intros i j dx dy Hi Hj.
  rewrite !rows_nth by assumption. rewrite row_eq_iff, Forall_app, Forall_cons_iff.
  assert (LC : length (combine c (rows_of d n (pre ++ post))) = n) by (rewrite combine_length, rows_len; lia).
  rewrite (nth_in (combine c (rows_of d n (pre ++ post))) i dy (d, []) ltac:(lia)), (nth_in (combine c (rows_of d n (pre ++ post))) j dy (d, []) ltac:(lia)).
  rewrite !combine_nth by (rewrite rows_len; exact L). rewrite !rows_nth by assumption.
  split.
  - intros (P & E & Q). rewrite E. f_equal. apply row_eq_iff, Forall_app. auto.
  - intros E. injection E as E1 E2. apply row_eq_iff, Forall_app in E2. tauto.
Qed.

Lemma rows_split_cond pre c post zs : length c = n -> length zs = n ->
  same_partition (rows_of d n ((pre ++ c :: post) ++ [zs])) (combine (combine c (rows_of d n (pre ++ post))) zs).
Proof.
  intros L Lz. assert (LC : length (combine c (rows_of d n (pre ++ post))) = n) by (rewrite combine_length, rows_len; lia).
  assert (LC2 : length (combine (combine c (rows_of d n (pre ++ post))) zs) = n) by (rewrite combine_length; lia).
  split; [rewrite rows_len; lia|]. rewrite rows_len. intros i j dx dy Hi Hj.
  rewrite !rows_nth by assumption. rewrite row_eq_iff, !Forall_app, Forall_cons_iff.
  rewrite (nth_in (combine (combine c (rows_of d n (pre ++ post))) zs) i dy ((d, []), d) ltac:(lia)), (nth_in (combine (combine c (rows_of d n (pre ++ post))) zs) j dy ((d, []), d) ltac:(lia)).
  rewrite !combine_nth by (rewrite ?combine_length, ?rows_len; lia). rewrite !rows_nth by assumption.
  split.
  - intros ((P & E & Q) & Z). apply Forall_inv in Z. rewrite E, Z. do 2 f_equal. apply row_eq_iff, Forall_app. auto.
  - intros E. injection E as E1 E2 E3. apply row_eq_iff, Forall_app in E2. repeat split; try tauto. repeat constructor. exact E3.
Qed.

Lemma TC_step pre c post (f : A -> A) : length c = n ->
  TotalCorr d n (pre ++ map f c :: post) <= TotalCorr d n (pre ++ c :: post).
Proof.
  intros L. assert (L' : length (map f c) = n) by (rewrite map_length; exact L). unfold TotalCorr. rewrite !sumf_app. cbn [sumf].
  rewrite (Ent_partition _ _ (rows_split pre c post L)), (Ent_partition _ _ (rows_split pre (map f c) post L')).
  pose proof (MI_map_le f c (rows_of d n (pre ++ post)) ltac:(rewrite rows_len; exact L)) as M. unfold MI in M. lra.
Qed.

Lemma TC_processed_from pre cols cols' : Forall (fun c => length c = n) cols -> Forall2 processed cols cols' ->
  TotalCorr d n (pre ++ cols') <= TotalCorr d n (pre ++ cols).
Proof.
  intros L F. revert pre. induction F as [|c c' l l' (f & ->) F IH]; intros pre; [lra|]. pose proof (Forall_inv L) as L0. pose proof (Forall_inv_tail L) as Lr. cbv beta in L0.
  eapply Rle_trans; [|apply (TC_step pre c l f); assumption].
  replace (pre ++ map f c :: l') with ((pre ++ [map f c]) ++ l') by (rewrite <- app_assoc; reflexivity).
  replace (pre ++ map f c :: l) with ((pre ++ [map f c]) ++ l) by (rewrite <- app_assoc; reflexivity).
  apply IH. assumption.
Qed.

(** the conditional quantity the code computes *)
Definition CTC (cols : list (list A)) (zs : list A) : R :=
  sumf (fun c => Ent (combine c zs)) cols - Ent (rows_of d n (cols ++ [zs])) - Ent zs.

Lemma CTC_step pre c post zs (f : A -> A) : length c = n -> length zs = n ->
  CTC (pre ++ map f c :: post) zs <= CTC (pre ++ c :: post) zs.
Proof.
  intros L Lz. assert (L' : length (map f c) = n) by (rewrite map_length; exact L). unfold CTC. rewrite !sumf_app. cbn [sumf].
  rewrite (Ent_partition _ _ (rows_split_cond pre c post zs L Lz)), (Ent_partition _ _ (rows_split_cond pre (map f c) post zs L' Lz)).
  pose proof (CMI_map_le f c (rows_of d n (pre ++ post)) zs ltac:(rewrite rows_len; exact L) ltac:(congruence)) as M. unfold CMI in M. lra.
Qed.

Lemma CTC_processed_from pre cols cols' zs : length zs = n -> Forall (fun c => length c = n) cols -> Forall2 processed cols cols' ->
  CTC (pre ++ cols') zs <= CTC (pre ++ cols) zs.
Proof.
  intros Lz L F. revert pre. induction F as [|c c' l l' (f & ->) F IH]; intros pre; [lra|]. pose proof (Forall_inv L) as L0. pose proof (Forall_inv_tail L) as Lr. cbv beta in L0.
  eapply Rle_trans; [|apply (CTC_step pre c l zs f); assumption].
  replace (pre ++ map f c :: l') with ((pre ++ [map f c]) ++ l') by (rewrite <- app_assoc; reflexivity).
  replace (pre ++ map f c :: l) with ((pre ++ [map f c]) ++ l) by (rewrite <- app_assoc; reflexivity).
  apply IH. assumption.
Qed.
End Rows.

Lemma processed_len {A} n (cols cols' : list (list A)) : Forall (fun c => length c = n) cols -> Forall2 processed cols cols' ->
  Forall (fun c => length c = n) cols' /\ length cols' = length cols.
Proof.
  intros L F. induction F as [|c c' l l' (f & ->) F IH]; [split; constructor|]. pose proof (Forall_inv L) as L0. pose proof (Forall_inv_tail L) as Lr. cbv beta in L0.
  destruct (IH Lr) as [P Q]. split; [constructor; [rewrite map_length; exact L0|exact P]|simpl; congruence].
Qed.

Lemma processed_const (cols cols' : list (list Z)) : Forall2 processed cols cols' ->
  forall c, In c cols -> const_col c -> exists c', In c' cols' /\ const_col c'.
Proof.
  induction 1 as [|c c' l l' (f & ->) F IH]; intros x []; intros Cx.
  - subst x. exists (map f c). split; [left; reflexivity|]. intros u v Hu Hv. apply in_map_iff in Hu, Hv.
    destruct Hu as (a & <- & Ha), Hv as (b & <- & Hb). f_equal. apply Cx; assumption.
  - destruct (IH x ltac:(assumption) Cx) as (c' & Hc & Cc). exists c'. split; [right; exact Hc|exact Cc].
Qed.

(** ** mutual information of two or more one-dimensional variables, functions applied to any of them *)
Theorem C52_mi_many : forall b n cols cols', big_base b -> (2 <= length cols)%nat -> all_len n cols -> (0 < n)%nat ->
  (Z.of_nat n ^ Z.of_nat (length cols) < 2 ^ 64)%Z -> Forall2 processed cols cols' ->
  exists m m', mi_discrete b (Some 0%Z) (map A1 cols) = Ok m /\ mi_discrete b (Some 0%Z) (map A1 cols') = Ok m' /\ m' <= m.
Proof.
  intros b n cols cols' B Hk HL Hn SM F. pose proof (big_valid b B) as V.
  destruct (processed_len n cols cols' HL F) as [HL' Ek].
  pose proof (TC_processed_from 0%Z n [] cols cols' HL F) as TC. cbn [app] in TC.
  destruct (Nat.eq_dec (length cols) 2) as [E2|N2].
  - destruct cols as [|xs [|ys [|? ?]]]; try discriminate E2. destruct cols' as [|xs' [|ys' [|? ?]]]; try discriminate Ek.
    inversion HL as [|? ? Lx HL1]; subst. inversion HL1 as [|? ? Ly _]; subst. inversion HL' as [|? ? Lx' HL1']; subst. inversion HL1' as [|? ? Ly' _]; subst.
    assert (SS : small2 (length xs)).
    { unfold small2. change (2 ^ 64)%Z with ((2 ^ 32) ^ 2)%Z in SM. change (Z.of_nat (length [xs; ys])) with 2%Z in SM.
      apply (Z.pow_lt_mono_l_iff (Z.of_nat (length xs)) (2 ^ 32) 2); try lia; exact SM. }
    assert (NE : xs <> []) by (apply length_pos_ne; exact Hn). assert (NE' : xs' <> []) by (apply length_pos_ne; lia).
    exists (MI xs ys / unit_of b), (MI xs' ys' / unit_of b). cbn [map].
    rewrite !mi2_api by (auto; try congruence; rewrite ?Lx'; exact SS). split; [reflexivity|]. split; [reflexivity|].
    apply big_div_le; [exact B|]. rewrite !TotalCorr_2 in TC by congruence. exact TC.
  - assert (Hk3 : (3 <= length cols)%nat) by lia. assert (Hk3' : (3 <= length cols')%nat) by lia.
    assert (SM' : (Z.of_nat n ^ Z.of_nat (length cols') < 2 ^ 64)%Z) by (rewrite Ek; exact SM).
    destruct (const_or_not cols') as [NC'|(c' & Hc' & Cc')].
    + assert (NC : no_constant cols).
      { destruct (const_or_not cols) as [N|(c & Hc & Cc)]; [exact N|]. destruct (processed_const _ _ F c Hc Cc) as (c' & Hc' & Cc').
        destruct (NC' c' Hc') as (x & y & Hx & Hy & N). exfalso. apply N, Cc'; assumption. }
      eexists _, _. split; [exact (proj1 (C13_mi_is_total_correlation_partial b n cols V Hk3 HL Hn NC SM))|].
      split; [exact (proj1 (C13_mi_is_total_correlation_partial b n cols' V Hk3' HL' Hn NC' SM'))|]. apply big_div_le; assumption.
    + rewrite (C13_constant_variable_gives_zero b n cols' c' Hk3' HL' Hn Hc' Cc').
      destruct (const_or_not cols) as [NC|(c & Hc & Cc)].
      * destruct (C13_mi_is_total_correlation_partial b n cols V Hk3 HL Hn NC SM) as [E P]. eexists _, 0. split; [exact E|]. split; [reflexivity|].
        apply big_div_nonneg; assumption.
      * exists 0, 0. rewrite (C13_constant_variable_gives_zero b n cols c Hk3 HL Hn Hc Cc). repeat split; lra.
Qed.
Print Assumptions C52_mi_many.

(** ** variables whose samples are rows, a function of the rows applied to any of them (no bound on the sample size) *)
Theorem C52_mi_rows : forall b n (rvars rvars' : list (list (list Z))), big_base b -> (2 <= length rvars)%nat -> all_len n rvars -> (0 < n)%nat ->
  Forall2 processed rvars rvars' ->
  exists m m', mi_discrete b (Some 0%Z) (map A2 rvars) = Ok m /\ mi_discrete b (Some 0%Z) (map A2 rvars') = Ok m' /\ m' <= m.
Proof.
  intros b n rs rs' B Hk HL Hn F. pose proof (big_valid b B) as V. destruct (processed_len n rs rs' HL F) as [HL' Ek].
  eexists _, _. split; [apply (C15_mi_of_joint_variables b n rs); assumption|].
  split; [apply (C15_mi_of_joint_variables b n rs'); [exact V|lia|exact HL'|exact Hn]|]. apply big_div_le; [exact B|].
  exact (TC_processed_from (A := list Z) [] n [] rs rs' HL F).
Qed.
Print Assumptions C52_mi_rows.

(** ** conditional mutual information of two or more variables *)
Lemma const_pair_ent (c zs : list Z) : length c = length zs -> const_col c -> Ent (combine c zs) = Ent zs.
Proof.
  intros L C. apply Ent_partition. split; [rewrite combine_length; lia|]. rewrite combine_length. intros i j dx dy Hi Hj.
  rewrite (nth_indep _ dx (0%Z, 0%Z)) by (rewrite combine_length; lia). rewrite (nth_indep _ dx (0%Z, 0%Z)) by (rewrite combine_length; lia).
  rewrite !combine_nth by exact L. rewrite (nth_indep zs dy 0%Z) by lia. rewrite (nth_indep zs dy 0%Z) by lia.
  rewrite (C (nth i c 0%Z) (nth j c 0%Z)) by (apply nth_In; lia).
  split; [intros E; injection E; auto|intros ->; reflexivity].
Qed.

Lemma CTC_nonneg n cols zs : all_len n cols -> length zs = n -> (2 <= length cols)%nat -> 0 <= CTC 0%Z n cols zs.
Proof.
  intros HL Hz Hk. set (cols' := map (map (fun _ : Z => 0%Z)) cols).
  assert (F : Forall2 processed cols cols').
  { unfold cols'. clear. induction cols as [|c cs IH]; constructor; [exists (fun _ => 0%Z); reflexivity|exact IH]. }
  destruct (processed_len n cols cols' HL F) as [HL' Ek].
  pose proof (CTC_processed_from 0%Z n [] cols cols' zs Hz HL F) as LE. cbn [app] in LE. eapply Rle_trans; [|exact LE].
  assert (CC : forall c, In c cols' -> const_col c).
  { intros c Hc. apply in_map_iff in Hc. destruct Hc as (c0 & <- & _). intros u v Hu Hv. apply in_map_iff in Hu, Hv. destruct Hu as (? & <- & _), Hv as (? & <- & _). reflexivity. }
  unfold CTC. rewrite (sumf_ext (fun c => Ent (combine c zs)) (fun _ => Ent zs)).
  2:{ intros c Hc. apply const_pair_ent; [|apply CC, Hc]. unfold all_len in HL'. rewrite Forall_forall in HL'. rewrite (HL' c Hc). auto. }
  rewrite sumf_const.
  assert (EJ : Ent (rows_of 0%Z n (cols' ++ [zs])) = Ent zs).
  { apply Ent_partition. split; [rewrite rows_len; auto|]. rewrite rows_len. intros i j dx dy Hi Hj. rewrite !rows_nth by assumption.
    rewrite row_eq_iff, Forall_app. rewrite (nth_indep zs dy 0%Z) by lia. rewrite (nth_indep zs dy 0%Z) by lia. split.
    - intros [_ E]. apply Forall_inv in E. exact E.
    - intros E. split; [|repeat constructor; exact E]. rewrite Forall_forall. intros c Hc. apply (CC c Hc); apply nth_In;
        unfold all_len in HL'; rewrite Forall_forall in HL'; rewrite (HL' c Hc); assumption. }
  rewrite EJ. pose proof (Ent_nonneg zs). assert (2 <= INR (length cols')) by (rewrite Ek; apply (le_INR 2); exact Hk). nra.
Qed.

Theorem C52_cmi_many : forall b n cols cols' zs, big_base b -> (2 <= length cols)%nat -> all_len n cols -> length zs = n -> (0 < n)%nat ->
  (Z.of_nat n ^ Z.of_nat (length cols) < 2 ^ 64)%Z -> Forall2 processed cols cols' ->
  exists c c', cmi_discrete b (map A1 cols) (RArr (A1 zs)) = Ok c /\ cmi_discrete b (map A1 cols') (RArr (A1 zs)) = Ok c' /\ c' <= c.
Proof.
  intros b n cols cols' zs B Hk HL Hz Hn SM F. pose proof (big_valid b B) as V. destruct (processed_len n cols cols' HL F) as [HL' Ek].
  assert (Hk' : (2 <= length cols')%nat) by lia.
  assert (SM' : (Z.of_nat n ^ Z.of_nat (length cols') < 2 ^ 64)%Z) by (rewrite Ek; exact SM).
  pose proof (CTC_processed_from 0%Z n [] cols cols' zs Hz HL F) as LE. cbn [app] in LE.
  pose proof (CTC_nonneg n cols zs HL Hz Hk) as P.
  assert (VAL : forall cs, (2 <= length cs)%nat -> all_len n cs -> (Z.of_nat n ^ Z.of_nat (length cs) < 2 ^ 64)%Z -> cmi_nontrivial cs zs ->
    cmi_discrete b (map A1 cs) (RArr (A1 zs)) = Ok (CTC 0%Z n cs zs / unit_of b)).
  { intros cs K L S NT. exact (proj1 (cmi_nd_api b n cs zs V K L Hz Hn S NT)). }
  assert (CZ : const_col zs \/ exists x y, In x zs /\ In y zs /\ x <> y).
  { destruct (const_or_not [zs]) as [N|(d & [<-|[]] & C)]; [right; apply N; left; reflexivity|left; exact C]. }
  destruct CZ as [Cz|NZ].
  - destruct (const_or_not cols') as [NC'|(c' & Hc' & Cc')].
    + assert (NC : no_constant cols).
      { destruct (const_or_not cols) as [N|(c & Hc & Cc)]; [exact N|]. destruct (processed_const _ _ F c Hc Cc) as (c' & Hc' & Cc').
        destruct (NC' c' Hc') as (x & y & Hx & Hy & N). exfalso. apply N, Cc'; assumption. }
      eexists _, _. split; [apply VAL; try assumption; right; exact NC|]. split; [apply VAL; try assumption; right; exact NC'|]. apply big_div_le; assumption.
    + rewrite (proj2 (proj2 (C17_cmi_value b n cols' zs V Hk' HL' Hz Hn)) c' Hc' Cc' Cz).
      destruct (const_or_not cols) as [NC|(c & Hc & Cc)].
      * eexists _, 0. split; [apply VAL; try assumption; right; exact NC|]. split; [reflexivity|]. apply big_div_nonneg; assumption.
      * exists 0, 0. rewrite (proj2 (proj2 (C17_cmi_value b n cols zs V Hk HL Hz Hn)) c Hc Cc Cz). repeat split; lra.
  - eexists _, _. split; [apply VAL; try assumption; left; exact NZ|]. split; [apply VAL; try assumption; left; exact NZ|]. apply big_div_le; assumption.
Qed.
Print Assumptions C52_cmi_many.

(** ** entropies of arrays of rows and of joint variables: a function of the whole sample never increases the entropy *)
Theorem C52_entropy_any : forall b i j (f : list Z -> list Z), big_base b -> SpecInput.usable i -> SpecInput.usable j ->
  SpecInput.sample j = map f (SpecInput.sample i) ->
  exists h h', entropy_discrete b i = Ok h /\ entropy_discrete b j = Ok h' /\ h' <= h.
Proof.
  intros b i j f B U W E. pose proof (big_valid b B) as V.
  assert (X : forall i, entropy_of est_discrete b i = entropy_discrete b i).
  { intros k. unfold entropy_of, entropy_discrete, e_global. destruct (make_data k) as [d| |]; try reflexivity. cbn [bind est_discrete e_calc]. destruct (discrete_simple b d); reflexivity. }
  rewrite <- !X. exists (Ent (SpecInput.sample i) / unit_of b), (Ent (SpecInput.sample j) / unit_of b).
  split; [apply (discrete_closed b i V U)|]. split; [apply (discrete_closed b j V W)|]. apply big_div_le; [exact B|]. rewrite E. apply Ent_map_le.
Qed.
Print Assumptions C52_entropy_any.

(** merging two of three symbols of one of three variables *)
Example C52_many_example : Forall2 processed [[1; 2; 3; 1]; [0; 1; 0; 1]; [2; 2; 5; 5]]%Z [[1; 2; 2; 1]; [0; 1; 0; 1]; [2; 2; 5; 5]]%Z /\
  all_len 4 [[1; 2; 3; 1]; [0; 1; 0; 1]; [2; 2; 5; 5]]%Z /\ (Z.of_nat 4 ^ 3 < 2 ^ 64)%Z.
Proof.
  split; [|split; [repeat constructor|reflexivity]].
  repeat constructor; [exists (fun x => if Z.eqb x 3 then 2%Z else x)|exists (fun x => x)|exists (fun x => x)]; reflexivity.
Qed.
