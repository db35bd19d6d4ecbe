(** Proofs: the time-delay embedding, and discrete (conditional) transfer entropy as
    conditional mutual information of the embedded rows. *)
From Coq Require Import Reals Lra Lia List ZArith Arith Bool Permutation Sorted.
From Verif Require Import Res RSum Spec SpecTE Info Info2 Ord MBase MData MEntropy MMI MTE SpecBase PBase PEntropy PCoo PMI PMI2 PMI3 PCMI PMI4 PCMI2 PMI5 PMI6 PTE.
Import ListNotations.
Local Open Scope R_scope.

Lemma nth_seq_map {A} (f : nat -> A) n i d : (i < n)%nat -> nth i (map f (seq 0 n)) d = f i.
Proof.
  intros H. rewrite nth_indep with (d' := f 0%nat) by (rewrite map_length, seq_length; exact H).
  rewrite map_nth, seq_nth by exact H. reflexivity.
Qed.

Lemma arange_mult s len : (1 <= s)%nat ->
  arange s ((len + 1) * s) s = map (fun i => ((i + 1) * s)%nat) (seq 0 len).
Proof.
  intros Hs. unfold arange.
  replace (((len + 1) * s - s + (s - 1)) / s)%nat with len.
  - apply map_ext. intros i. lia.
  - replace ((len + 1) * s - s + (s - 1))%nat with ((s - 1) + len * s)%nat by lia.
    rewrite Nat.div_add by lia. rewrite Nat.div_small by lia. lia.
Qed.

Lemma hist_row b len s : (1 <= s)%nat ->
  map (fun o => (b - o)%nat) (rev (arange s ((len + 1) * s) s)) =
  map (fun j => (b - (len - j) * s)%nat) (seq 0 len).
Proof.
  intros Hs. rewrite arange_mult by exact Hs.
  apply nth_ext with (d := 0%nat) (d' := 0%nat).
  - rewrite !map_length, rev_length, map_length. reflexivity.
  - intros i Hi. rewrite map_length, rev_length, map_length, seq_length in Hi.
    rewrite nth_indep with (d' := (fun o => (b - o)%nat) 0%nat)
      by (rewrite map_length, rev_length, map_length, seq_length; exact Hi).
    rewrite map_nth. rewrite rev_nth by (rewrite map_length, seq_length; exact Hi).
    rewrite map_length, seq_length. rewrite nth_seq_map by lia. rewrite nth_seq_map by exact Hi.
    do 2 f_equal. lia.
Qed.

Lemma arange_base n d s : arange d n s = base_times n d s.
Proof. reflexivity. Qed.

Lemma base_times_In n d s b : (1 <= s)%nat ->
  (In b (base_times n d s) <-> (d <= b < n)%nat /\ exists r, b = (d + r * s)%nat).
Proof.
  intros Hs. unfold base_times, nrows. rewrite in_map_iff. split.
  - intros (r & <- & Hr). apply in_seq in Hr. destruct Hr as [_ Hr]. simpl in Hr.
    split; [|exists r; reflexivity]. split; [lia|].
    assert (H : (r * s < n - d)%nat).
    { destruct (Nat.lt_ge_cases (r * s) (n - d)) as [|C]; [assumption|exfalso].
      apply (Nat.lt_irrefl r). eapply Nat.lt_le_trans; [exact Hr|].
      apply Nat.lt_succ_r. apply Nat.div_lt_upper_bound; nia. }
    lia.
  - intros ([H1 H2] & r & ->). exists r. split; [reflexivity|]. apply in_seq. split; [lia|]. simpl.
    apply Nat.div_le_lower_bound; nia.
Qed.

Lemma nrows_pos n d s : (1 <= s)%nat -> (d < n)%nat -> (0 < nrows n d s)%nat.
Proof. intros Hs Hd. unfold nrows. apply Nat.div_str_pos. lia. Qed.

Lemma nrows_le n d s : (1 <= s)%nat -> (nrows n d s <= n)%nat.
Proof.
  intros Hs. unfold nrows. destruct (Nat.le_gt_cases n d).
  - rewrite Nat.div_small by lia. lia.
  - apply Nat.lt_succ_r. apply Nat.div_lt_upper_bound; nia.
Qed.

Lemma base_times_length n d s : length (base_times n d s) = nrows n d s.
Proof. unfold base_times. rewrite map_length, seq_length. reflexivity. Qed.

Lemma gather_row_ok a idx : (forall i, In i idx -> (i < arr_len a)%nat) ->
  gather_row a idx = Ok (concat (map (fun i => nth i (arr_rows a) []) idx)).
Proof.
  intros H. unfold gather_row.
  rewrite (mapM_ok _ (fun i => nth i (arr_rows a) [])); [reflexivity|].
  intros i Hi. unfold gather. assert (L : (i < length (arr_rows a))%nat).
  { specialize (H i Hi). destruct a; simpl in *; rewrite ?map_length; exact H. }
  rewrite (nth_error_nth' _ [] L). reflexivity.
Qed.

(** rows of flattened histories / futures of any (1-D or 2-D) series *)
Definition flat_pasts (a : arr) (s len : nat) (ts : list nat) : list (list Z) :=
  map (@concat Z) (pasts [] (arr_rows a) s len ts).
Definition flat_presents (a : arr) (ts : list nat) : list (list Z) := presents [] (arr_rows a) ts.

Lemma gather_hist a ts len s : (1 <= s)%nat ->
  (forall b, In b ts -> (len * s <= b < arr_len a)%nat) ->
  gather_rows a (hist_idx ts len s) = Ok (flat_pasts a s len ts).
Proof.
  intros Hs H. unfold gather_rows, hist_idx.
  transitivity (Ok (map (fun idx => concat (map (fun i => nth i (arr_rows a) []) idx))
    (map (fun b => map (fun o => (b - o)%nat) (rev (arange s ((len + 1) * s) s))) ts))).
  - apply mapM_ok. intros idx Hidx. apply gather_row_ok. intros i Hi.
    apply in_map_iff in Hidx. destruct Hidx as (b & <- & Hb). rewrite hist_row in Hi by exact Hs.
    apply in_map_iff in Hi. destruct Hi as (j & <- & Hj). apply in_seq in Hj.
    specialize (H b Hb). nia.
  - f_equal. unfold flat_pasts, pasts. rewrite !map_map. apply map_ext. intros b. f_equal.
    rewrite hist_row by exact Hs. rewrite map_map. reflexivity.
Qed.

Lemma gather_now a ts : (forall b, In b ts -> (b < arr_len a)%nat) ->
  gather_rows a (map (fun b => [b]) ts) = Ok (flat_presents a ts).
Proof.
  intros H. unfold gather_rows.
  transitivity (Ok (map (fun idx => concat (map (fun i => nth i (arr_rows a) []) idx)) (map (fun b => [b]) ts))).
  - apply mapM_ok. intros idx Hidx. apply in_map_iff in Hidx. destruct Hidx as (b & <- & Hb).
    apply gather_row_ok. intros i [<-|[]]. auto.
  - f_equal. unfold flat_presents, presents. rewrite map_map. apply map_ext. intros b. simpl.
    apply app_nil_r.
Qed.

Lemma concat_singletons {A} (l : list A) : concat (map (fun x => [x]) l) = l.
Proof. induction l as [|x l IH]; simpl; congruence. Qed.

Lemma nth_singletons (xs : list Z) i : (i < length xs)%nat ->
  nth i (map (fun x => [x]) xs) [] = [nth i xs 0%Z].
Proof.
  intros H. rewrite nth_indep with (d' := [0%Z]) by (rewrite map_length; exact H).
  exact (map_nth (fun x => [x]) xs 0%Z i).
Qed.

Lemma flat_pasts_1d xs s len ts : (forall b, In b ts -> (b < length xs)%nat) -> 
  (1 <= s)%nat -> flat_pasts (A1 xs) s len ts = pasts 0%Z xs s len ts.
Proof.
  intros H Hs. unfold flat_pasts, pasts. rewrite map_map. apply map_ext_in. intros b Hb.
  unfold past. simpl. transitivity (concat (map (fun x => [x]) (map (fun j => nth (b - (len - j) * s) xs 0%Z) (seq 0 len)))); [|apply concat_singletons].
  rewrite map_map. f_equal.
  apply map_ext_in. intros j Hj. apply nth_singletons. specialize (H b Hb). lia.
Qed.

Lemma flat_presents_1d xs ts : (forall b, In b ts -> (b < length xs)%nat) ->
  flat_presents (A1 xs) ts = map (fun v => [v]) (presents 0%Z xs ts).
Proof.
  intros H. unfold flat_presents, presents. rewrite map_map. apply map_ext_in. intros b Hb.
  apply nth_singletons. auto.
Qed.

Lemma pos_int_pos n : (1 <= n)%nat -> pos_int (NInt (Z.of_nat n)) = Some n.
Proof.
  intros H. simpl. destruct (Z.ltb_spec 0 (Z.of_nat n)); [|lia]. rewrite Nat2Z.id. reflexivity.
Qed.

Section Embed.
Variables (source dest : arr) (l k s n : nat).
Hypothesis (Hl : (1 <= l)%nat) (Hk : (1 <= k)%nat) (Hs : (1 <= s)%nat).
Hypothesis (Ls : arr_len source = n) (Ld : arr_len dest = n).

Lemma slices_ok d rnd : (Nat.max k l * s <= d)%nat -> rnd <> RBoth ->
  let ts := base_times n d s in
  let sh := flat_pasts source s l ts in
  (match rnd with RPermute sg | RResample sg => Forall (fun j => (j < nrows n d s)%nat) sg | _ => True end) ->
  src_dest_slices source dest l k s d rnd =
  Ok (flat_presents dest ts, flat_pasts dest s k ts,
      match rnd with RPermute sg | RResample sg => map (fun j => nth j sh []) sg | _ => sh end, ts).
Proof using Hl Hk Hs Ls Ld.
  intros Hd Hr ts sh Hj.
  assert (HT : forall b, In b ts -> (d <= b < n)%nat).
  { intros b Hb. unfold ts in Hb. rewrite base_times_In in Hb by exact Hs. tauto. }
  assert (GS : gather_rows source (hist_idx ts l s) = Ok sh).
  { apply gather_hist; [exact Hs|]. intros b Hb. specialize (HT b Hb). rewrite Ls. nia. }
  assert (GD : gather_rows dest (hist_idx ts k s) = Ok (flat_pasts dest s k ts)).
  { apply gather_hist; [exact Hs|]. intros b Hb. specialize (HT b Hb). rewrite Ld. nia. }
  assert (GF : gather_rows dest (map (fun b => [b]) ts) = Ok (flat_presents dest ts)).
  { apply gather_now. intros b Hb. specialize (HT b Hb). rewrite Ld. lia. }
  assert (GJ : forall sg, Forall (fun j => (j < nrows n d s)%nat) sg ->
     gather_rows source (map (fun j => nth j (hist_idx ts l s) []) sg) = Ok (map (fun j => nth j sh []) sg)).
  { intros sg Hsg. unfold gather_rows in *. apply mapM_inv in GS.
    assert (LH : length (hist_idx ts l s) = nrows n d s)
      by (unfold hist_idx; rewrite map_length; apply base_times_length).
    clear -Hsg GS LH. induction Hsg as [|j sg Hj _ IH]; [reflexivity|].
    cbn [map mapM]. 
    assert (E : gather_row source (nth j (hist_idx ts l s) []) = Ok (nth j sh [])).
    { rewrite <- LH in Hj. clear LH IH. revert j Hj. induction GS as [|x y xs ys H1 H2 IH2]; intros j Hj; [simpl in Hj; lia|].
      destruct j; [exact H1|]. simpl. apply IH2. simpl in Hj. lia. }
    rewrite E. cbn [bind]. rewrite IH. reflexivity. }
  unfold src_dest_slices. rewrite Ld, arange_base. fold ts.
  destruct rnd as [|sg|sg|]; [| | |congruence]; cbn [bind].
  - rewrite GS. cbn [bind]. rewrite GD. cbn [bind]. rewrite GF. reflexivity.
  - rewrite (GJ sg Hj). cbn [bind]. rewrite GD. cbn [bind]. rewrite GF. reflexivity.
  - rewrite (GJ sg Hj). cbn [bind]. rewrite GD. cbn [bind]. rewrite GF. reflexivity.
Qed.

Lemma te_obs_ok rnd : rnd <> RBoth ->
  let d := (Nat.max k l * s)%nat in
  let ts := base_times n d s in
  let sh := flat_pasts source s l ts in
  (d < n)%nat ->
  (match rnd with RPermute sg | RResample sg => Forall (fun j => (j < nrows n d s)%nat) sg | _ => True end) ->
  te_observations source dest (NInt (Z.of_nat l)) (NInt (Z.of_nat k)) (NInt (Z.of_nat s)) rnd =
  Ok (match rnd with RPermute sg | RResample sg => map (fun j => nth j sh []) sg | _ => sh end,
      flat_pasts dest s k ts, flat_presents dest ts).
Proof using Hl Hk Hs Ls Ld.
  intros Hr d ts sh Hd Hj. unfold te_observations.
  rewrite !pos_int_pos by assumption. cbv zeta. fold d. rewrite Ls.
  destruct (Nat.leb_spec n d); [lia|].
  rewrite (slices_ok d rnd) by (assumption || unfold d; lia). reflexivity.
Qed.

Lemma cte_obs_ok cond m rnd : (1 <= m)%nat -> arr_len cond = n -> rnd <> RBoth ->
  let d := (Nat.max (Nat.max k l) m * s)%nat in
  let ts := base_times n d s in
  let sh := flat_pasts source s l ts in
  (d < n)%nat ->
  (match rnd with RPermute sg | RResample sg => Forall (fun j => (j < nrows n d s)%nat) sg | _ => True end) ->
  cte_observations source dest cond (NInt (Z.of_nat l)) (NInt (Z.of_nat k)) (NInt (Z.of_nat m)) (NInt (Z.of_nat s)) rnd =
  Ok (match rnd with RPermute sg | RResample sg => map (fun j => nth j sh []) sg | _ => sh end,
      flat_pasts dest s k ts, flat_presents dest ts, flat_pasts cond s m ts).
Proof using Hl Hk Hs Ls Ld.
  intros Hm Lc Hr d ts sh Hd Hj. unfold cte_observations.
  rewrite !pos_int_pos by assumption. cbv zeta. fold d. rewrite Ls.
  destruct (Nat.leb_spec n d); [lia|].
  rewrite (slices_ok d rnd) by (assumption || unfold d; nia). cbn [bind].
  fold ts. rewrite gather_hist; [reflexivity|exact Hs|].
  intros b Hb. unfold ts in Hb. rewrite base_times_In in Hb by exact Hs. rewrite Lc.
  unfold d in *. nia.
Qed.
End Embed.

Lemma flat_pasts_length a s len ts : length (flat_pasts a s len ts) = length ts.
Proof. unfold flat_pasts, pasts. rewrite !map_length. reflexivity. Qed.
Lemma flat_presents_length a ts : length (flat_presents a ts) = length ts.
Proof. unfold flat_presents, presents. rewrite !map_length. reflexivity. Qed.
Lemma pasts_length {A} (d : A) xs s len ts : length (pasts d xs s len ts) = length ts.
Proof. unfold pasts. rewrite map_length. reflexivity. Qed.
Lemma presents_length {A} (d : A) xs ts : length (presents d xs ts) = length ts.
Proof. unfold presents. rewrite map_length. reflexivity. Qed.

Definition mm_ok (mm : option base) : Prop := match mm with Some bb => valid_base bb | None => True end.

(** the four-term combination of Miller-Madow corrections *)
Definition mm_comb {A B C} `{EqDec A} `{EqDec B} `{EqDec C} (xs : list A) (ys : list B) (zs : list C) : R :=
  mmc (combine xs zs) + mmc (combine ys zs) - mmc (combine (combine xs ys) zs) - mmc zs.

Lemma mm_comb_partition {A B C A' B' C'} `{EqDec A} `{EqDec B} `{EqDec C} `{EqDec A'} `{EqDec B'} `{EqDec C'}
  (xs : list A) (ys : list B) (zs : list C) (xs' : list A') (ys' : list B') (zs' : list C') :
  length xs = length ys -> length xs = length zs ->
  same_partition xs xs' -> same_partition ys ys' -> same_partition zs zs' ->
  mm_comb xs ys zs = mm_comb xs' ys' zs'.
Proof.
  intros L1 L2 P1 P2 P3. unfold mm_comb.
  rewrite (mmc_partition (combine xs zs) (combine xs' zs')) by (apply same_partition_combine; assumption).
  rewrite (mmc_partition (combine ys zs) (combine ys' zs')) by (apply same_partition_combine; congruence || assumption).
  rewrite (mmc_partition (combine (combine xs ys) zs) (combine (combine xs' ys') zs')).
  - rewrite (mmc_partition zs zs') by assumption. reflexivity.
  - apply same_partition_combine; [rewrite combine_length; lia| |assumption].
    apply same_partition_combine; assumption.
Qed.

Lemma te_form_ok b mm sh dh df : valid_base b -> mm_ok mm ->
  length df = length sh -> length df = length dh -> df <> [] -> small2 (length df) ->
  let v := CMI df sh dh / unit_of b +
           match mm with Some bb => mm_comb df sh dh / unit_of bb | None => 0 end in
  te_form b mm sh dh df = Ok v /\
  exists ls, te_form_local b mm sh dh df = Ok ls /\ length ls = length df /\ mean ls = v.
Proof.
  intros Hb Hm L1 L2 Hne Hs v. unfold te_form, te_form_local. cbn [reduce_joint_space bind].
  assert (Ev : v = CMI df sh (reduce_rows dh) / unit_of b +
           match mm with Some bb => mm_comb df sh (reduce_rows dh) / unit_of bb | None => 0 end).
  { unfold v. f_equal.
    - f_equal. apply CMI_partition; try assumption; try apply same_partition_refl. apply reduce_rows_partition.
    - destruct mm; [|reflexivity]. f_equal. apply mm_comb_partition; try assumption; try apply same_partition_refl.
      apply reduce_rows_partition. }
  rewrite Ev. apply (cmi_rows b mm df sh (reduce_rows dh)); try assumption.
  rewrite reduce_rows_length. exact L2.
Qed.

Lemma column_stack_2 dh ch : length dh = length ch ->
  column_stack [A2 dh; A2 ch] = Ok (hcat [dh; ch]).
Proof.
  intros L. unfold column_stack. cbn [forallb]. simpl arr_len. rewrite Nat.eqb_refl.
  replace (Nat.eqb (length ch) (length dh)) with true by (symmetry; apply Nat.eqb_eq; congruence).
  cbn [andb]. f_equal. unfold hcat, rows_of. rewrite map_map. reflexivity.
Qed.

Lemma cte_form_ok b mm sh dh df ch : valid_base b -> mm_ok mm ->
  length df = length sh -> length df = length dh -> length df = length ch -> df <> [] -> small2 (length df) ->
  let v := CMI df sh (hcat [dh; ch]) / unit_of b +
           match mm with Some bb => mm_comb df sh (hcat [dh; ch]) / unit_of bb | None => 0 end in
  cte_form b mm sh dh df ch = Ok v /\
  exists ls, cte_form_local b mm sh dh df ch = Ok ls /\ length ls = length df /\ mean ls = v.
Proof.
  intros Hb Hm L1 L2 L3 Hne Hs v. unfold cte_form, cte_form_local. cbn [reduce_joint_space].
  rewrite column_stack_2 by congruence. unfold rmap. cbn [bind].
  set (h := hcat [dh; ch]) in *.
  assert (Lh : length h = length df) by (unfold h, hcat; rewrite map_length, rows_of_length; simpl; congruence).
  assert (Ev : v = CMI df sh (reduce_rows h) / unit_of b +
           match mm with Some bb => mm_comb df sh (reduce_rows h) / unit_of bb | None => 0 end).
  { unfold v. f_equal.
    - f_equal. apply CMI_partition; try assumption; try congruence; try apply same_partition_refl. apply reduce_rows_partition.
    - destruct mm; [|reflexivity]. f_equal. apply mm_comb_partition; try assumption; try congruence; try apply same_partition_refl.
      apply reduce_rows_partition. }
  rewrite Ev. apply (cmi_rows b mm df sh (reduce_rows h)); try assumption.
  rewrite reduce_rows_length. congruence.
Qed.

(** juxtaposing rows of fixed width identifies pairs of rows exactly *)
Lemma hcat_partition (us vs : list (list Z)) w : length us = length vs ->
  (forall r, In r us -> length r = w) -> same_partition (hcat [us; vs]) (combine us vs).
Proof.
  intros L W.
  assert (Lc : length (hcat [us; vs]) = length us) by (unfold hcat; rewrite map_length, rows_of_length; reflexivity).
  split.
  - rewrite Lc, combine_length. lia.
  - intros i j dx [dy dy'] Hi Hj. rewrite Lc in Hi, Hj.
    assert (N : forall i, (i < length us)%nat -> nth i (hcat [us; vs]) dx = nth i us [] ++ nth i vs []).
    { intros i' Hi'. rewrite nth_indep with (d' := concat (map (fun c => nth 0%nat c []) [us; vs])) by lia.
      unfold hcat, rows_of. rewrite map_map. cbn [hd].
      rewrite (nth_seq_map (fun x => concat (map (fun c => nth x c []) [us; vs]))) by exact Hi'.
      cbn [map concat]. rewrite app_nil_r. reflexivity. }
    rewrite !N by assumption.
    rewrite !combine_nth by exact L.
    rewrite !(nth_indep us dy []), !(nth_indep vs dy' []) by congruence.
    assert (W1 : length (nth i us []) = length (nth j us [])) by (rewrite !W; [reflexivity|apply nth_In; assumption..]).
    split.
    + intros E. assert (E1 : nth i us [] = nth j us []).
      { apply (f_equal (firstn (length (nth i us [])))) in E. rewrite W1 in E at 2.
        rewrite !firstn_app, !Nat.sub_diag, !firstn_O, !app_nil_r, !firstn_all in E. exact E. }
      rewrite E1 in *. apply app_inv_head in E. congruence.
    + intros E. injection E as -> ->. reflexivity.
Qed.

Lemma singletons_partition {A} (xs : list A) : same_partition (map (fun v => [v]) xs) xs.
Proof.
  split; [apply map_length|]. rewrite map_length. intros i j dx dy Hi Hj.
  rewrite !(nth_indep (map (fun v => [v]) xs) dx [dy]) by (rewrite map_length; assumption).
  rewrite !(map_nth (fun v => [v])). split; congruence.
Qed.
