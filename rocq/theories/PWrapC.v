(** Proofs: conditional mutual information of integer data including the wrap-around of 64-bit products. *)
From Coq Require Import Reals Lra Lia List ZArith Arith Bool.
From Verif Require Import Res RSum Spec Info Info2 Ord MBase MData MMI SpecBase PBase PEntropy PCoo PMI PMI2 PMI3 PCMI PMI4 PCMI2 PMI6 SpecWrap PWrap.
Import ListNotations.
Local Open Scope R_scope.

Section WC.
Variable vars : list arr.
Variable zs : list Z.
Variable N : nat.
Hypothesis Hvars : List.Forall (fun a => arr_len a = N) vars.
Hypothesis Hz : length zs = N.
Hypothesis HN : (0 < N)%nat.
Notation al := (vars ++ [A1 zs]).
Notation l := (seq 0 N).
Notation c := (the_coo al).
Notation rc := (rowc al).
Notation X := (Xi al).
Notation k := (length vars).
Notation O t := (prodZ (outerC vars zs t)).
Notation J t := (Z.of_nat (count (coo_rows al) (rc t)) * nth (nth k (rc t) 0%nat) (marginal c k) 0)%Z.
Let AL := al_len vars zs N Hvars Hz.
Let AN := al_ne vars zs.

Lemma low64_nonneg z : (0 <= low64 z)%Z. Proof using. apply Z.mod_pos_bound. reflexivity. Qed.
Lemma outerC_mod t : (t < N)%nat ->
  uprod (map (fun i => u64 (nth (nth k (rc t) 0%nat) (nth (nth i (rc t) 0%nat)
       (nth i (map (fun i => marginal2 c i k) (seq 0 k)) []) []) 0%Z)) (seq 0 k)) = low64 (O t).
Proof using.
  intros Ht. unfold low64. rewrite <- uprod_mod. unfold outerC. rewrite map_map. f_equal.
  apply map_ext_in. intros i Hi. apply in_seq in Hi. rewrite nth_map_seq by (clear -Hi; lia). reflexivity.
Qed.
Lemma joint_mod t :
  u64 (Z.of_nat (count (coo_rows al) (rc t)) * u64 (nth (nth k (rc t) 0%nat) (marginal c k) 0%Z)) = low64 (J t).
Proof using. unfold u64, low64. rewrite Zmult_mod_idemp_r. reflexivity. Qed.
Lemma J_real t : (t < N)%nat -> IZR (J t) = cnt l rc (rc t) * cnt l (X k) (X k t) /\ 0 < IZR (J t).
Proof using Hvars Hz HN.
  intros Ht. rewrite mult_IZR, (Z_eq vars zs N Hvars Hz t Ht), (count_rc al N AL AN HN). split; [reflexivity|].
  apply Rmult_lt_0_compat; apply cnt_self_pos; apply in_l; exact Ht.
Qed.
Definition lostC : R :=
  sumf (fun t => ln (IZR (O t) / IZR (low64 (O t))) - ln (IZR (J t) / IZR (low64 (J t)))) l / INR N.

Lemma log_sizes b : valid_base b -> (1 <= k)%nat ->
  exists r, mapM (fun m => log_base b (IZR (sumZ (map sumZ m)))) (removelast (map (fun i => marginal2 c i k) (seq 0 k))) = Ok r /\
    sumR r = (INR k - 1) * (ln (INR N) / unit_of b).
Proof using Hvars Hz HN.
  intros V Hk. pose proof (INR_pos N HN) as P.
  exists (map (fun _ => ln (INR N) / unit_of b) (removelast (map (fun i => marginal2 c i k) (seq 0 k)))). split.
  - apply mapM_ok. intros m Hm. apply In_removelast in Hm. apply in_map_iff in Hm.
    destruct Hm as [i [<- Hi]]. apply in_seq in Hi. rewrite (marginal2_total vars zs N Hvars Hz) by (clear -Hi; lia).
    rewrite <- INR_IZR_INZ. apply log_base_ok; assumption.
  - unfold sumR. rewrite sumf_map, sumf_const, removelast_length, map_length, seq_length, minus_INR by exact Hk. simpl. ring.
Qed.

Lemma cmi_wrap b mm : valid_base b -> (1 <= k)%nat ->
  (forall t, (t < N)%nat -> low64 (O t) <> 0%Z /\ low64 (J t) <> 0%Z) -> early vars zs = false ->
  cmi_global b mm vars (A1 zs) = add_corr mm ((cmi_value vars zs N + lostC) / unit_of b) (cmi_corr vars zs N).
Proof using Hvars Hz HN.
  intros V Hk NZ EA. unfold cmi_global. rewrite (coo_of_ok al N AL AN). cbn [bind].
  rewrite ndim_k1. rewrite early_eq, EA. pose proof (INR_pos N HN) as P. pose proof (unit_neq0 b V) as U.
  rewrite (coo_sum_eq al N AL AN).
  destruct (log_sizes b V Hk) as (lr & LS & LSs). rewrite LS.
  assert (WP : forall t, (t < N)%nat -> 0 < IZR (low64 (O t)) /\ 0 < IZR (low64 (J t))).
  { intros t Ht. destruct (NZ t Ht) as [A B]. pose proof (low64_nonneg (O t)). pose proof (low64_nonneg (J t)).
    split; apply IZR_lt; lia. }
  match goal with |- bind (mapM ?F _) _ = _ =>
    destruct (cells_mapM al N AL AN HN F
     (fun t => (Ct vars zs N t + (ln (IZR (O t) / IZR (low64 (O t))) - ln (IZR (J t) / IZR (low64 (J t))))) / unit_of b / INR N)
     (fun r => (ln (IZR (u64 (Z.of_nat (count (coo_rows al) r) * u64 (nth (nth k r 0%nat) (marginal c k) 0%Z))))
        - ln (INR N)
        - ln (IZR (uprod (map (fun i => u64 (nth (nth k r 0%nat) (nth (nth i r 0%nat)
           (nth i (map (fun i => marginal2 c i k) (seq 0 k)) []) []) 0%Z)) (seq 0 k))))
        + (INR k - 1) * ln (INR N)) / unit_of b / INR N)) as [ts [E1 E2]]
  end.
  - intros t Ht. rewrite joint_mod, outerC_mod by assumption.
    destruct (ln_outerC vars zs N Hvars Hz t Ht) as [O1 O2]. destruct (J_real t Ht) as [J1 J2]. destruct (WP t Ht) as [W1 W2].
    rewrite (ln_div (IZR (O t))) by assumption. rewrite (ln_div (IZR (J t))) by assumption.
    rewrite O2, J1. unfold Ct. rewrite (ln_mult (cnt l rc (rc t))) by (apply cnt_self_pos; apply in_l; exact Ht). f_equal. f_equal. ring.
  - intros t Ht. cbn [fst snd]. destruct (WP t Ht) as [W1 W2].
    rewrite joint_mod, outerC_mod by assumption. rewrite (count_rc al N AL AN HN), <- INR_IZR_INZ, np_div_ok by lra.
    cbn [bind].
    rewrite !log_base_ok by (try exact V; try exact P; assumption).
    cbn [bind]. rewrite LSs. f_equal. field. split; try exact U; lra.
  - rewrite E1. cbn [bind]. rewrite E2, sumf_div, sumf_div, sumf_plus. f_equal.
    + rewrite <- (Ct_sum vars zs N HN). unfold lostC. field. split; try exact U; lra.
    + unfold cmi_corr. rewrite count_cond_len.
      assert (EH : arr_len (hd (A1 []) vars) = N).
      { clear -Hvars Hk. destruct vars as [|a r]; [simpl in Hk; lia|]. inversion Hvars. assumption. }
      rewrite EH. unfold the_coo at 2. cbn [coo_vals]. rewrite map_length. reflexivity.
Qed.

Lemma cmi_wrap_zero b mm t : valid_base b -> (1 <= k)%nat -> (t < N)%nat ->
  (low64 (O t) = 0 \/ low64 (J t) = 0)%Z -> early vars zs = false -> cmi_global b mm vars (A1 zs) = NonFinite.
Proof using Hvars Hz HN.
  intros V Hk Ht Z0 EA. unfold cmi_global. rewrite (coo_of_ok al N AL AN). cbn [bind].
  rewrite ndim_k1. rewrite early_eq, EA. pose proof (INR_pos N HN) as P.
  rewrite (coo_sum_eq al N AL AN). destruct (log_sizes b V Hk) as (lr & LS & LSs). rewrite LS.
  assert (Z1 : log_base b (IZR 0) = NonFinite) by exact (log_base_zero b V).
  match goal with |- bind (mapM ?F _) _ = _ => rewrite (mapM_nonfinite F _ (rc t, Z.of_nat (count (coo_rows al) (rc t)))); [reflexivity| | |] end.
  - intros rv _ e.
    destruct (np_div (IZR (snd rv)) _) eqn:Q1; cbn [bind]; [|exact (fun _ => np_div_no_raise _ _ _ Q1)|discriminate].
    destruct (log_base b (IZR (u64 _))) eqn:Q2; cbn [bind]; [|exact (fun _ => log_base_no_raise b _ V _ Q2)|discriminate].
    destruct (log_base b (IZR (Z.of_nat N))) eqn:Q3; cbn [bind]; [|exact (fun _ => log_base_no_raise b _ V _ Q3)|discriminate].
    destruct (log_base b (IZR (uprod _))) eqn:Q4; cbn [bind]; [discriminate|exact (fun _ => log_base_no_raise b _ V _ Q4)|discriminate].
  - rewrite entries_eq. apply in_map_iff. exists (rc t). split; [reflexivity|]. rewrite unique_In, (coo_rows_eq al N AL AN).
    apply in_map. apply in_seq. clear -Ht. lia.
  - cbn [fst snd]. rewrite joint_mod, outerC_mod by assumption.
    rewrite (count_rc al N AL AN HN), <- INR_IZR_INZ, np_div_ok by lra. cbn [bind].
    destruct (log_base b (IZR (low64 (J t)))) as [lj|e|] eqn:LJ; cbn [bind]; [|destruct (log_base_no_raise b _ V e LJ)|reflexivity].
    rewrite (log_base_ok b (INR N)) by assumption. cbn [bind].
    destruct Z0 as [Z0|Z0]; rewrite Z0 in *; [rewrite Z1; reflexivity|]. rewrite Z1 in LJ. discriminate.
Qed.
End WC.

(** in terms of the data *)
Section D.
Variables (cols : list (list Z)) (zs : list Z) (n : nat).
Hypothesis HL : all_len n cols.
Hypothesis Hz : length zs = n.
Hypothesis HN : (0 < n)%nat.
Notation vars := (map A1 cols).
Notation al := (vars ++ [A1 zs]).
Notation k := (length vars).
Notation l := (seq 0 n).

Lemma outerC_1d t : (t < n)%nat -> prodZ (outerC vars zs t) = pair_product cols zs t.
Proof using HL Hz HN.
  intros Ht. unfold outerC, pair_product, prodZ. f_equal.
  assert (LM : map (fun x : list Z => Z.of_nat (count (combine x zs) (nth t x 0%Z, nth t zs 0%Z))) cols =
    map (fun i => Z.of_nat (count (combine (nth i cols []) zs) (nth t (nth i cols []) 0%Z, nth t zs 0%Z))) (seq 0 (length cols))).
  { rewrite (list_as_map [] cols (length cols) eq_refl) at 1. rewrite map_map. reflexivity. }
  rewrite LM, map_length. apply map_ext_in. intros i Hi. apply in_seq in Hi.
  assert (Hi' : (i < k)%nat) by (rewrite map_length; lia).
  apply eq_IZR. pose proof (XZ_eq vars zs n (HLv cols zs n HL Hz HN) Hz i t Hi' Ht) as E. rewrite map_length in E. rewrite E.
  rewrite <- INR_IZR_INZ. rewrite (combine_as_map cols zs n HL Hz HN i Hi').
  rewrite <- (cnt_count l (fun t => (nth t (nth i cols []) 0%Z, nth t zs 0%Z))).
  unfold cnt. apply sumf_ext. intros s Hs. apply in_seq in Hs.
  pose proof (pair_part cols zs n HL Hz HN i t s Hi' Ht ltac:(lia)) as Q. unfold pair in Q. rewrite map_length in Q. unfold eqb, pair.
  destruct (eq_dec (_, _) _) as [a|a], (eq_dec (_, _) (nth t (nth i cols []) 0%Z, nth t zs 0%Z)) as [d|d]; tauto || reflexivity.
Qed.

Lemma row_count t : (t < n)%nat ->
  count (coo_rows al) (rowc al t) = count (rows_of 0%Z n (cols ++ [zs])) (map (fun c => nth t c 0%Z) (cols ++ [zs])).
Proof using HL Hz HN.
  intros Ht. assert (AL : List.Forall (fun a => arr_len a = n) al) by exact (al_len vars zs n (HLv cols zs n HL Hz HN) Hz).
  rewrite (coo_rows_eq al n AL (al_ne vars zs)). apply INR_eq. unfold rows_of.
  rewrite <- !cnt_count. unfold cnt. apply sumf_ext. intros s Hs. apply in_seq in Hs.
  assert (Q : rowc al s = rowc al t <-> map (fun c : list Z => nth s c 0%Z) (cols ++ [zs]) = map (fun c : list Z => nth t c 0%Z) (cols ++ [zs])).
  { rewrite (rowc_partition al n AL t s Ht ltac:(lia)). rewrite (al_map cols zs n HL Hz HN).
    pose proof (HL' cols zs n HL Hz HN) as HA. revert HA. generalize (cols ++ [zs]). intros m HA.
    rewrite !map_map. induction HA as [|c cs Hc HA IH]; [simpl; tauto|]. cbn [map].
    rewrite !arr_at_A1 by lia. split; intros E; injection E as E0 E1; f_equal; try congruence; apply IH; exact E1. }
  unfold eqb. destruct (eq_dec (rowc al s) _) as [a|a], (eq_dec (map _ (cols ++ [zs])) _) as [d|d]; tauto || reflexivity.
Qed.
Lemma cond_count t : (t < n)%nat ->
  nth (nth k (rowc al t) 0%nat) (marginal (the_coo al) k) 0%Z = Z.of_nat (count zs (nth t zs 0%Z)).
Proof using HL Hz HN.
  intros Ht. apply eq_IZR. rewrite (Z_eq vars zs n (HLv cols zs n HL Hz HN) Hz t Ht). rewrite <- INR_IZR_INZ.
  rewrite (list_as_map 0%Z zs n Hz) at 3. rewrite <- (cnt_count l (fun t => nth t zs 0%Z)). unfold cnt. apply sumf_ext.
  intros s Hs. apply in_seq in Hs. pose proof (Xk_part cols zs n HL Hz HN t s Ht ltac:(lia)) as Q. unfold eqb.
  destruct (eq_dec (Xi al k s) _) as [a|a], (eq_dec (nth s zs 0%Z) _) as [d|d]; tauto || reflexivity.
Qed.
Lemma jointC_1d t : (t < n)%nat ->
  (Z.of_nat (count (coo_rows al) (rowc al t)) * nth (nth k (rowc al t) 0%nat) (marginal (the_coo al) k) 0)%Z = joint_product n cols zs t.
Proof using HL Hz HN. intros Ht. rewrite row_count, cond_count by exact Ht. reflexivity. Qed.

Definition fits (t : nat) : bool := (negb (Z.eqb (low64 (pair_product cols zs t)) 0) && negb (Z.eqb (low64 (joint_product n cols zs t)) 0))%bool.

Lemma cmi_nd_wrapped b mm : valid_base b -> cols <> [] -> cmi_nontrivial cols zs ->
  (match mm with Some bb => valid_base bb | None => True end) ->
  cmi_global b mm vars (A1 zs) =
  if forallb fits (seq 0 n)
  then Ok ((CMIn n cols zs + lost_cond n cols zs) / unit_of b +
      match mm with
      | Some bb => (sumf (fun c => mmc (combine c zs)) cols - mmc (rows_of 0%Z n (cols ++ [zs])) - mmc zs) / unit_of bb
      | None => 0 end)
  else NonFinite.
Proof using HL Hz HN.
  intros V NE NT VB. assert (Hk : (1 <= k)%nat) by (rewrite map_length; destruct cols; [congruence|simpl; lia]).
  pose proof (HLv cols zs n HL Hz HN) as HV. pose proof (early_false cols zs n HL Hz HN NT) as EA.
  destruct (forallb fits (seq 0 n)) eqn:FA.
  - rewrite forallb_forall in FA. rewrite (cmi_wrap vars zs n HV Hz HN b mm V Hk); [|  |exact EA].
    + rewrite (cmi_value_1d cols zs n HL Hz HN).
      assert (LE : lostC vars zs n = lost_cond n cols zs).
      { unfold lostC, lost_cond. f_equal. apply sumf_ext. intros t Ht. apply in_seq in Ht.
        rewrite outerC_1d, jointC_1d by lia. reflexivity. }
      rewrite LE. unfold add_corr. destruct mm as [bb|]; [|f_equal; ring].
      rewrite (cmi_corr_1d cols zs n HL Hz HN) by exact VB. reflexivity.
    + intros t Ht. rewrite outerC_1d, jointC_1d by lia. specialize (FA t ltac:(apply in_seq; lia)). unfold fits in FA.
      apply andb_true_iff in FA. destruct FA as [F1 F2]. apply negb_true_iff, Z.eqb_neq in F1. apply negb_true_iff, Z.eqb_neq in F2. auto.
  - assert (EX : exists t, In t (seq 0 n) /\ fits t = false).
    { clear - FA. induction (seq 0 n) as [|t m IH]; [discriminate|]. cbn [forallb] in FA. apply andb_false_iff in FA.
      destruct FA as [FA|FA]; [exists t; split; [left; reflexivity|exact FA]|].
      destruct (IH FA) as (u & Hu & E). exists u. split; [right; exact Hu|exact E]. }
    destruct EX as (t & Ht & E). apply in_seq in Ht.
    apply (cmi_wrap_zero vars zs n HV Hz HN b mm t V Hk ltac:(lia)); [|exact EA].
    rewrite outerC_1d, jointC_1d by lia. unfold fits in E. apply andb_false_iff in E.
    destruct E as [E|E]; apply negb_false_iff, Z.eqb_eq in E; auto.
Qed.
End D.
