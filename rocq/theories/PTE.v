(** Proofs: transfer entropy embedding; TE as conditional MI. *)
From Coq Require Import Reals Lra Lia List ZArith Arith Bool Permutation Sorted.
From Verif Require Import Res RSum Spec SpecTE Info Info2 Ord MBase MData MEntropy MMI MTE SpecBase PBase PEntropy PCoo PMI PMI2 PMI3 PCMI PMI4 PCMI2 PMI5 PMI6.
Import ListNotations.
Local Open Scope R_scope.

(** ** variables enter the contingency tables only through their codes *)
Lemma coo_rows_ext vars vars' : map codes vars = map codes vars' ->
  arr_len (hd (A1 []) vars) = arr_len (hd (A1 []) vars') -> coo_rows vars = coo_rows vars'.
Proof. unfold coo_rows. intros -> ->. reflexivity. Qed.

Lemma coo_of_ext vars vars' : map codes vars = map codes vars' -> map nlevels vars = map nlevels vars' ->
  map arr_len vars = map arr_len vars' -> coo_of vars = coo_of vars'.
Proof.
  intros E1 E2 E3. unfold coo_of.
  assert (EH : arr_len (hd (A1 []) vars) = arr_len (hd (A1 []) vars')).
  { destruct vars, vars'; try discriminate; [reflexivity|]. injection E3; auto. }
  rewrite (coo_rows_ext vars vars' E1 EH), E2, EH.
  assert (EF : forall n vs, forallb (fun a => Nat.eqb (arr_len a) n) vs = forallb (fun m => Nat.eqb m n) (map arr_len vs)).
  { intros n vs. induction vs as [|v vs IH]; [reflexivity|]. simpl. rewrite IH. reflexivity. }
  rewrite !EF, E3. reflexivity.
Qed.

Lemma cmi_ext vars vars' z b mm : map codes vars = map codes vars' -> map nlevels vars = map nlevels vars' ->
  map arr_len vars = map arr_len vars' ->
  cmi_global b mm vars (A1 z) = cmi_global b mm vars' (A1 z) /\
  cmi_local b mm vars (A1 z) = cmi_local b mm vars' (A1 z).
Proof.
  intros E1 E2 E3.
  assert (EC : coo_of (vars ++ [A1 z]) = coo_of (vars' ++ [A1 z])).
  { apply coo_of_ext; rewrite !map_app; congruence. }
  assert (EH : arr_len (hd (A1 []) vars) = arr_len (hd (A1 []) vars')).
  { destruct vars, vars'; try discriminate; [reflexivity|]. injection E3; auto. }
  assert (EH2 : arr_len (hd (A1 []) (vars ++ [A1 z])) = arr_len (hd (A1 []) (vars' ++ [A1 z]))).
  { destruct vars, vars'; try discriminate; [reflexivity|]. injection E3; auto. }
  assert (ER : coo_rows (vars ++ [A1 z]) = coo_rows (vars' ++ [A1 z])).
  { apply coo_rows_ext; [rewrite !map_app; congruence|exact EH2]. }
  unfold cmi_global, cmi_local. rewrite EC, ER, EH. split; reflexivity.
Qed.

(** re-coding twice changes nothing *)
Lemma sorted_lt_eq (l1 l2 : list Z) : StronglySorted Z.lt l1 -> StronglySorted Z.lt l2 ->
  (forall x, In x l1 <-> In x l2) -> l1 = l2.
Proof.
  revert l2; induction l1 as [|a l1 IH]; intros l2 S1 S2 E.
  - destruct l2 as [|b l2]; [reflexivity|]. exfalso. apply (E b). left. reflexivity.
  - destruct l2 as [|b l2]; [exfalso; apply (E a); left; reflexivity|].
    inversion S1 as [|? ? S1' F1]; subst. inversion S2 as [|? ? S2' F2]; subst.
    rewrite Forall_forall in F1, F2.
    assert (Eab : a = b).
    { destruct (proj1 (E a) (or_introl eq_refl)) as [->|Ha]; [reflexivity|].
      destruct (proj2 (E b) (or_introl eq_refl)) as [<-|Hb]; [reflexivity|].
      pose proof (F1 b Hb). pose proof (F2 a Ha). lia. }
    subst b. f_equal. apply IH; auto. intros x. split; intros Hx.
    + destruct (proj1 (E x) (or_intror Hx)) as [<-|H]; [|exact H]. pose proof (F1 a Hx). lia.
    + destruct (proj2 (E x) (or_intror Hx)) as [<-|H]; [|exact H]. pose proof (F2 a Hx). lia.
Qed.

Lemma codes_unique (rs : list (list Z)) :
  unique (reduce_rows rs) = map Z.of_nat (seq 0 (length (unique rs))).
Proof.
  apply sorted_lt_eq.
  - exact (unique_sorted (A := Z) (reduce_rows rs)).
  - generalize 0%nat. induction (length (unique rs)) as [|n IH]; intros a; simpl; constructor.
    + apply IH.
    + rewrite Forall_forall. intros x Hx. apply in_map_iff in Hx. destruct Hx as (i & <- & Hi).
      apply in_seq in Hi. lia.
  - intros x. rewrite unique_In. unfold reduce_rows, inverse. rewrite map_map, !in_map_iff. split.
    + intros (r & <- & Hr). eexists; split; [reflexivity|]. apply in_seq. split; [lia|].
      apply index_of_lt. apply unique_In. exact Hr.
    + intros (i & <- & Hi). apply in_seq in Hi.
      exists (nth i (unique rs) []). split.
      * f_equal. apply index_of_nth; [apply unique_NoDup|lia].
      * apply unique_In. apply nth_In. lia.
Qed.

Lemma reduce_codes rs : codes (A1 (reduce_rows rs)) = codes (A2 rs) /\
  nlevels (A1 (reduce_rows rs)) = nlevels (A2 rs) /\ arr_len (A1 (reduce_rows rs)) = arr_len (A2 rs).
Proof.
  split; [|split].
  - simpl. unfold inverse at 1. rewrite codes_unique.
    unfold reduce_rows. rewrite map_map. rewrite <- (map_id (inverse rs)) at 2.
    apply map_ext_in. intros i Hi. unfold inverse in Hi. apply in_map_iff in Hi.
    destruct Hi as (r & <- & Hr).
    assert (Hlt : (index_of r (unique rs) < length (unique rs))%nat)
      by (apply index_of_lt; apply unique_In; exact Hr).
    set (i := index_of r (unique rs)) in *. set (K := length (unique rs)) in *.
    assert (E : nth i (map Z.of_nat (seq 0 K)) (Z.of_nat 0) = Z.of_nat i).
    { rewrite map_nth. rewrite seq_nth by exact Hlt. reflexivity. }
    rewrite <- E at 1. apply index_of_nth; [|rewrite map_length, seq_length; exact Hlt].
    apply FinFun.Injective_map_NoDup; [intros a b; apply Nat2Z.inj|apply seq_NoDup].
  - simpl. rewrite codes_unique, map_length, seq_length. reflexivity.
  - simpl. apply reduce_rows_length.
Qed.

(** two embedded variables given by rows, one-dimensional condition *)
Lemma cmi_rows b mm (us vs : list (list Z)) (zs : list Z) : valid_base b ->
  length us = length vs -> length us = length zs -> us <> [] -> small2 (length us) ->
  (match mm with Some bb => valid_base bb | None => True end) ->
  let v := CMI us vs zs / unit_of b +
      match mm with
      | Some bb => (mmc (combine us zs) + mmc (combine vs zs) - mmc (combine (combine us vs) zs) - mmc zs) / unit_of bb
      | None => 0 end in
  cmi_global b mm [A2 us; A2 vs] (A1 zs) = Ok v /\
  exists ls, cmi_local b mm [A2 us; A2 vs] (A1 zs) = Ok ls /\ length ls = length us /\ mean ls = v.
Proof.
  intros Hb L1 L2 Hne Hs Hmm v.
  destruct (reduce_codes us) as (a1 & a2 & a3). destruct (reduce_codes vs) as (b1 & b2 & b3).
  destruct (cmi_ext [A2 us; A2 vs] [A1 (reduce_rows us); A1 (reduce_rows vs)] zs b mm) as [-> ->];
    [cbn [map]; congruence..|].
  pose proof (reduce_rows_length us) as Lu. pose proof (reduce_rows_length vs) as Lv.
  pose proof (reduce_rows_partition us) as Pu. pose proof (reduce_rows_partition vs) as Pv.
  pose proof (@same_partition_refl Z zs) as Pz.
  assert (Hp : (0 < length us)%nat) by (apply len_pos; exact Hne).
  destruct (cmi2_general b mm (reduce_rows us) (reduce_rows vs) zs) as [G (ls & Gl & Gn & Gm)];
    try assumption; try congruence; rewrite ?Lu; try assumption.
  assert (Ev : v = CMI (reduce_rows us) (reduce_rows vs) zs / unit_of b +
      match mm with
      | Some bb => (mmc (combine (reduce_rows us) zs) + mmc (combine (reduce_rows vs) zs)
                    - mmc (combine (combine (reduce_rows us) (reduce_rows vs)) zs) - mmc zs) / unit_of bb
      | None => 0 end).
  { unfold v. f_equal.
    - f_equal. apply CMI_partition; assumption.
    - destruct mm as [bb|]; [|reflexivity].
      rewrite (mmc_partition (combine us zs) (combine (reduce_rows us) zs))
        by (apply same_partition_combine; assumption).
      rewrite (mmc_partition (combine vs zs) (combine (reduce_rows vs) zs))
        by (apply same_partition_combine; congruence || assumption).
      rewrite (mmc_partition (combine (combine us vs) zs) (combine (combine (reduce_rows us) (reduce_rows vs)) zs)).
      + reflexivity.
      + apply same_partition_combine; [rewrite combine_length; lia| |exact Pz].
        apply same_partition_combine; assumption. }
  rewrite Ev. split; [exact G|]. exists ls. repeat split; [exact Gl|congruence|exact Gm].
Qed.
