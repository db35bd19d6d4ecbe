(** Proofs: the Counter-based path for multi-dimensional variables. *)
From Coq Require Import Reals Lra Lia List ZArith Arith Bool Permutation.
From Verif Require Import Res RSum Spec Info Info2 Ord MBase MData MMI SpecBase PBase PEntropy PCoo PMI PMI2.
Import ListNotations.
Local Open Scope R_scope.

Lemma prob_group {A} `{EqDec A} (J : list A) (g : A -> R) : J <> [] ->
  sumf (fun v => prob J v * g v) (distinct J) = sumf g J / INR (length J).
Proof.
  intros NE. pose proof (group J (fun x => x) (distinct J) g (NoDup_nodup _ _)) as G.
  cbv beta in G. change (sumf g J) with (sumf (fun s => g s) J).
  rewrite <- G by (intros s Hs; apply nodup_In; exact Hs).
  rewrite <- sumf_div. apply sumf_ext. intros v _. rewrite cnt_count, map_id. unfold prob, Rdiv. ring.
Qed.

Section Other.
Variable rvars : list (list (list Z)).
Variable N : nat.
Hypothesis HL : all_len N rvars.
Hypothesis Hne : rvars <> [].
Hypothesis HN : (0 < N)%nat.
Notation J := (rows_of [] N rvars).

Lemma J_len : length J = N. Proof. apply rows_of_length. Qed.
Lemma J_ne : J <> []. Proof using HN. intros E. apply (f_equal (@length _)) in E. rewrite J_len in E. simpl in E. clear -E HN. lia. Qed.

Lemma rvar_len i : (i < length rvars)%nat -> length (nth i rvars []) = N.
Proof using HL.
  intros Hi. unfold all_len in HL. rewrite Forall_forall in HL. apply HL. apply nth_In. exact Hi.
Qed.

Lemma key_nth i t : (i < length rvars)%nat ->
  nth i (map (fun c => nth t c []) rvars) [] = nth t (nth i rvars []) [].
Proof using.
  intros Hi. rewrite (nth_indep _ [] (nth t [] [])) by (rewrite map_length; exact Hi).
  rewrite (map_nth (fun c => nth t c [])). reflexivity.
Qed.

Lemma ln_prod_probs (is : list nat) (f : nat -> R) : (forall i, In i is -> 0 < f i) ->
  0 < fold_right Rmult 1 (map f is) /\ ln (fold_right Rmult 1 (map f is)) = sumf (fun i => ln (f i)) is.
Proof using.
  induction is as [|i is IH]; intros Hf; [simpl; rewrite ln_1; split; lra|].
  destruct IH as [P E]; [intros; apply Hf; right; assumption|].
  cbn [map fold_right sumf]. assert (0 < f i) by (apply Hf; left; reflexivity).
  split; [apply Rmult_lt_0_compat; assumption|]. rewrite ln_mult, E by assumption. reflexivity.
Qed.

Lemma nd_other_ok b mm : valid_base b ->
  mi_global_nd_other b mm (map A2 rvars) =
  add_corr mm ((sumf Ent rvars - Ent J) / unit_of b)
    (fun bb => mm_mi_corr (map (fun var => length (distinct var)) rvars) (length (distinct J)) N bb None).
Proof using HL Hne HN.
  intros V. unfold mi_global_nd_other.
  assert (E0 : mapM as_rows (map A2 rvars) = Ok rvars).
  { clear. induction rvars as [|r rs IH]; [reflexivity|]. cbn [map mapM as_rows bind]. rewrite IH. reflexivity. }
  rewrite E0. cbn [bind].
  assert (EL : length (hd [] rvars) = N).
  { destruct rvars as [|r rs] eqn:E; [congruence|]. inversion HL. assumption. }
  rewrite EL. pose proof (unit_neq0 b V) as U.
  assert (PN : 0 < INR N) by (apply INR_pos; exact HN).
  set (g := fun key => (ln (prob J key)
     - sumf (fun i => ln (prob (nth i rvars []) (nth i key []))) (seq 0 (length rvars))) / unit_of b).
  match goal with |- bind (mapM ?F _) _ = _ => assert (EM : mapM F (distinct J) =
      Ok (map (fun key => prob J key * g key) (distinct J))) end.
  { apply mapM_ok. intros key Hk. unfold distinct in Hk. rewrite nodup_In in Hk.
    assert (Hk' := Hk). unfold rows_of in Hk. apply in_map_iff in Hk. destruct Hk as [t [<- Ht]].
    apply in_seq in Ht. set (key := map (fun c => nth t c []) rvars) in *.
    rewrite J_len, np_div_ok by lra. cbn [bind].
    assert (Pi : forall i, In i (seq 0 (length rvars)) -> 0 < prob (nth i rvars []) (nth i key [])).
    { intros i Hi. apply in_seq in Hi. apply prob_pos. unfold key. rewrite key_nth by (clear -Hi; lia).
      apply nth_In. rewrite rvar_len by (clear -Hi; lia). clear -Ht. lia. }
    rewrite (mapM_ok _ (fun i => prob (nth i rvars []) (nth i key []))).
    2:{ intros i Hi. apply in_seq in Hi. unfold prob. apply np_div_ok.
        rewrite rvar_len by (clear -Hi; lia). lra. }
    cbn [bind]. destruct (ln_prod_probs _ _ Pi) as [PP PE].
    rewrite np_div_ok by lra. cbn [bind].
    assert (PJ : 0 < prob J key) by (apply prob_pos; exact Hk').
    assert (EPJ : INR (count J key) / INR N = prob J key) by (unfold prob; rewrite J_len; reflexivity).
    rewrite EPJ. rewrite log_base_ok by (try exact V; apply Rdiv_lt_0_compat; assumption).
    cbn [bind]. rewrite ln_div, PE by assumption. unfold g. reflexivity. }
  rewrite EM. cbn [bind]. rewrite map_length.
  pose proof (distinct_length_pos J J_ne) as DP.
  destruct (Nat.eqb_spec (length (distinct J)) 0) as [E|_]; [clear -E DP; lia|].
  f_equal. unfold sumR. rewrite sumf_map, prob_group by apply J_ne. rewrite J_len.
  unfold g. rewrite sumf_div, sumf_minus.
  pose proof (Ent_sample J J_ne) as EJ. rewrite J_len in EJ. rewrite EJ.
  assert (ES : sumf (fun key => sumf (fun i => ln (prob (nth i rvars []) (nth i key []))) (seq 0 (length rvars))) J
     = - INR N * sumf Ent rvars).
  { rewrite (sumf_swap (fun key i => ln (prob (nth i rvars []) (nth i key [])))).
    transitivity (sumf (fun i => - INR N * Ent (nth i rvars [])) (seq 0 (length rvars))).
    - apply sumf_ext. intros i Hi. apply in_seq in Hi. unfold rows_of. rewrite sumf_map.
      rewrite (sumf_ext _ (fun t => ln (prob (nth i rvars []) (nth t (nth i rvars []) [])))).
      2:{ intros t _. rewrite key_nth by (clear -Hi; lia). reflexivity. }
      assert (Li : length (nth i rvars []) = N) by (apply rvar_len; clear -Hi; lia).
      rewrite <- (sumf_map (fun t => nth t (nth i rvars []) []) (fun v => ln (prob (nth i rvars []) v))).
      rewrite <- (list_as_map [] _ N Li).
      rewrite Ent_sample by (intros E; rewrite E in Li; simpl in Li; clear -Li HN; lia).
      rewrite Li. field. lra.
    - rewrite sumf_scal. f_equal. rewrite <- (sumf_map (fun i => nth i rvars []) Ent).
      rewrite <- (list_as_map [] rvars (length rvars) eq_refl). reflexivity. }
  rewrite ES. field. split; try exact U; lra.
Qed.
End Other.
