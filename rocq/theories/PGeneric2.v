(** Proofs: entropy combinations of rows; discrete instance agrees with the dedicated formulas. *)
From Coq Require Import Reals Lra Lia List ZArith Arith Bool Permutation Sorted.
From Verif Require Import Res RSum Spec SpecTE Info Info2 Ord MBase MData MEntropy MMI MTE MGeneric SpecBase PBase PEntropy PCoo PMI PMI2 PMI3 PCMI PMI4 PCMI2 PMI5 PMI6 PTE PTE2 PropsTE PGeneric.
Import ListNotations.
Local Open Scope R_scope.

Lemma hcat_snoc a ts c : (length (hd [] (a :: ts)) = length (hcat (a :: ts))) ->
  hcat (a :: ts ++ [c]) = hcat [hcat (a :: ts); c].
Proof.
  intros _. unfold hcat, rows_of. rewrite !map_map. cbn [hd].
  rewrite map_length, seq_length. apply map_ext_in. intros t Ht. apply in_seq in Ht.
  cbn [map concat]. rewrite app_nil_r.
  rewrite (nth_seq_map (fun x => concat (map (fun c => nth x c []) (a :: ts)))) by lia.
  rewrite map_app, concat_app. cbn [map concat]. rewrite app_nil_r. rewrite app_assoc. reflexivity.
Qed.

Lemma hcat_length a ts : length (hcat (a :: ts)) = length a.
Proof. unfold hcat. rewrite map_length, rows_of_length. reflexivity. Qed.

Lemma hcat_width a b wa wb : length a = length b -> (forall r, In r a -> length r = wa) -> (forall r, In r b -> length r = wb) ->
  forall r, In r (hcat [a; b]) -> length r = (wa + wb)%nat.
Proof.
  intros L Ha Hb r Hr. unfold hcat, rows_of in Hr. rewrite map_map in Hr. apply in_map_iff in Hr.
  destruct Hr as (t & <- & Ht). apply in_seq in Ht. cbn [hd] in Ht. cbn [map concat]. rewrite !app_length, Ha, Hb; [simpl; lia| |];
    apply nth_In; lia.
Qed.

Definition rect (w : nat) (a : arr) : Prop := forall r, In r (arr_rows a) -> length r = w.

Lemma rect_1d xs : rect 1 (A1 xs).
Proof. intros r Hr. simpl in Hr. apply in_map_iff in Hr. destruct Hr as (x & <- & _). reflexivity. Qed.

Lemma arr_rows_length a : length (arr_rows a) = arr_len a.
Proof. destruct a; simpl; [apply map_length|reflexivity]. Qed.

Lemma flat_pasts_width a w s len ts : rect w a -> (forall b, In b ts -> (b < arr_len a)%nat) ->
  forall r, In r (flat_pasts a s len ts) -> length r = (len * w)%nat.
Proof.
  intros HR HT r Hr. unfold flat_pasts, pasts in Hr. rewrite map_map in Hr. apply in_map_iff in Hr.
  destruct Hr as (b & <- & Hb). specialize (HT b Hb). unfold past.
  assert (G : forall q, length (concat (map (fun j => nth (b - (len - j) * s) (arr_rows a) []) q)) = (length q * w)%nat).
  { induction q as [|j q IH]; [reflexivity|]. cbn [map concat length]. rewrite app_length, IH.
    rewrite HR; [lia|]. apply nth_In. rewrite arr_rows_length. lia. }
  rewrite G, seq_length. reflexivity.
Qed.

Lemma flat_presents_width a w ts : rect w a -> (forall b, In b ts -> (b < arr_len a)%nat) ->
  forall r, In r (flat_presents a ts) -> length r = w.
Proof.
  intros HR HT r Hr. unfold flat_presents, presents in Hr. apply in_map_iff in Hr.
  destruct Hr as (b & <- & Hb). apply HR. apply nth_In. rewrite arr_rows_length. auto.
Qed.

Lemma Ent_swap {A B} `{EqDec A} `{EqDec B} (xs : list A) (ys : list B) :
  length xs = length ys -> Ent (combine xs ys) = Ent (combine ys xs).
Proof. intros L. pose proof (MI_sym xs ys L) as M. unfold MI in M. lra. Qed.

Lemma same_partition_swap {A B} (xs : list A) (ys : list B) : length xs = length ys ->
  same_partition (combine xs ys) (combine ys xs).
Proof.
  intros L. split; [rewrite !combine_length; lia|]. rewrite combine_length. intros i j [dx dy] [dy' dx'] Hi Hj.
  rewrite !combine_nth by congruence.
  rewrite !(nth_indep xs dx' dx), !(nth_indep ys dy' dy) by lia. split; intros E; injection E; congruence.
Qed.

(** the four joint spaces of TE, as entropies of combined rows *)
Lemma te_space_entropies sh dh df ws wd : length df = length sh -> length df = length dh ->
  (forall r, In r sh -> length r = ws) -> (forall r, In r dh -> length r = wd) ->
  same_partition (hcat [dh; df]) (combine df dh) /\
  same_partition (hcat [sh; dh]) (combine sh dh) /\
  same_partition (hcat [sh; dh; df]) (combine (combine df sh) dh).
Proof.
  intros L1 L2 Ws Wd. split; [|split].
  - eapply same_partition_trans; [apply (hcat_partition dh df wd); [congruence|exact Wd]|].
    apply same_partition_swap. congruence.
  - apply (hcat_partition sh dh ws); [congruence|exact Ws].
  - change [sh; dh; df] with (sh :: [dh] ++ [df]). rewrite hcat_snoc by (rewrite hcat_length; reflexivity).
    eapply same_partition_trans.
    + apply (hcat_partition (hcat [sh; dh]) df (ws + wd)); [rewrite hcat_length; congruence|].
      apply hcat_width; [congruence|assumption..].
    + eapply same_partition_trans.
      * apply (same_partition_combine (hcat [sh; dh]) (combine sh dh) df df);
          [rewrite hcat_length; congruence|apply (hcat_partition sh dh ws); [congruence|exact Ws]|apply same_partition_refl].
      * eapply same_partition_trans; [apply same_partition_swap; rewrite combine_length; lia|].
        apply combine_assoc_partition; congruence.
Qed.

Lemma cte_space_entropies sh dh df ch ws wd wf : length df = length sh -> length df = length dh -> length df = length ch ->
  (forall r, In r sh -> length r = ws) -> (forall r, In r dh -> length r = wd) -> (forall r, In r df -> length r = wf) ->
  same_partition (hcat [dh; df; ch]) (combine df (hcat [dh; ch])) /\
  same_partition (hcat [sh; dh; ch]) (combine sh (hcat [dh; ch])) /\
  same_partition (hcat [sh; dh; df; ch]) (combine (combine df sh) (hcat [dh; ch])).
Proof.
  intros L1 L2 L3 Ws Wd Wf.
  assert (P2 : same_partition (hcat [dh; ch]) (combine dh ch)) by (apply (hcat_partition dh ch wd); [congruence|exact Wd]).
  assert (R : forall {A} (us : list A), length us = length df ->
     same_partition (combine us (hcat [dh; ch])) (combine us (combine dh ch))).
  { intros A us Lu. apply same_partition_combine; [rewrite hcat_length; congruence|apply same_partition_refl|exact P2]. }
  assert (Q1 : forall us wu, length us = length df -> (forall r, In r us -> length r = wu) ->
     same_partition (hcat [us; dh; ch]) (combine us (combine dh ch))).
  { intros us wu Lu Wu. change [us; dh; ch] with (us :: [dh] ++ [ch]). rewrite hcat_snoc by (rewrite hcat_length; reflexivity).
    eapply same_partition_trans; [apply (hcat_partition (hcat [us; dh]) ch (wu + wd)); [rewrite hcat_length; congruence|]|].
    - apply hcat_width; [congruence|assumption..].
    - eapply same_partition_trans; [|apply same_partition_sym; apply combine_assoc_partition; congruence].
      apply same_partition_combine; [rewrite hcat_length; congruence| |apply same_partition_refl].
      apply (hcat_partition us dh wu); [congruence|exact Wu]. }
  assert (Q2 : same_partition (hcat [dh; df; ch]) (combine df (combine dh ch))).
  { change [dh; df; ch] with (dh :: [df] ++ [ch]). rewrite hcat_snoc by (rewrite hcat_length; reflexivity).
    eapply same_partition_trans; [apply (hcat_partition (hcat [dh; df]) ch (wd + wf)); [rewrite hcat_length; congruence|]|].
    - apply hcat_width; [congruence|assumption..].
    - eapply same_partition_trans; [|apply same_partition_sym; apply combine_assoc_partition; congruence].
      apply same_partition_combine; [rewrite hcat_length; congruence| |apply same_partition_refl].
      eapply same_partition_trans; [apply (hcat_partition dh df wd); [congruence|exact Wd]|].
      apply same_partition_swap. congruence. }
  split; [|split].
  - eapply same_partition_trans; [exact Q2|]. apply same_partition_sym. apply R. reflexivity.
  - eapply same_partition_trans; [apply (Q1 sh ws); [congruence|exact Ws]|]. apply same_partition_sym. apply R. congruence.
  - change [sh; dh; df; ch] with (sh :: [dh; df] ++ [ch]). rewrite hcat_snoc by (rewrite hcat_length; reflexivity).
    destruct (te_space_entropies sh dh df ws wd L1 L2 Ws Wd) as (_ & _ & T).
    assert (W3 : forall r, In r (hcat [sh; dh; df]) -> length r = (ws + wd + wf)%nat).
    { change [sh; dh; df] with (sh :: [dh] ++ [df]). rewrite hcat_snoc by (rewrite hcat_length; reflexivity).
      apply hcat_width; [rewrite hcat_length; congruence| |exact Wf]. apply hcat_width; [congruence|assumption..]. }
    eapply same_partition_trans; [apply (hcat_partition (hcat [sh; dh; df]) ch (ws + wd + wf)); [rewrite hcat_length; congruence|exact W3]|].
    eapply same_partition_trans; [|apply same_partition_sym; apply R; rewrite combine_length; lia].
    eapply same_partition_trans; [|apply same_partition_sym; apply combine_assoc_partition; rewrite combine_length; lia].
    apply same_partition_combine; [rewrite hcat_length; congruence|exact T|apply same_partition_refl].
Qed.
