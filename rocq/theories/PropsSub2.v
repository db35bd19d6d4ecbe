(** C92 for the discrete conditional transfer entropy with a 2-D condition: the condition is turned into codes before the
    embedding, so the codes depend on samples between the grid points; the result does not. *)
From Coq Require Import Reals List ZArith Arith Bool Lia Lra.
From Verif Require Import Res RSum Spec SpecTE SpecInv Info Info2 Ord MBase MData MMI MTE SpecBase PBase PMI4 PCMI2 PMI5 PTE2 PropsTE PGeneric2 SpecSub PSub PropsSub PropsInv PropsInv2.
Import ListNotations.

Lemma every_partition {A B} s (xs : list A) (ys : list B) : (1 <= s)%nat -> same_partition xs ys -> same_partition (every s xs) (every s ys).
Proof.
  intros Hs [L P]. assert (E : length (every s xs) = length (every s ys)).
  { apply Nat.le_antisymm; apply Nat.nlt_ge; intros Q.
    - pose proof (every_lt s ys (length (every s ys)) Hs) as A1. pose proof (every_lt s xs (length (every s ys)) Hs) as A2. lia.
    - pose proof (every_lt s ys (length (every s xs)) Hs) as A1. pose proof (every_lt s xs (length (every s xs)) Hs) as A2. lia. }
  split; [exact E|]. intros i j dx dy Hi Hj.
  assert (N : forall (C : Type) (l : list C) d t, nth t (every s l) d = nth (t * s) l d).
  { intros C l d t. unfold every. pose proof (thin_nth s l Hs 0 t) as T. simpl in T.
    destruct (nth_error (thin 0 s l) t) eqn:Q; symmetry in T.
    - rewrite (nth_error_nth _ _ d Q), (nth_error_nth _ _ d T). reflexivity.
    - apply nth_error_None in Q. apply nth_error_None in T. rewrite !nth_overflow by lia. reflexivity. }
  rewrite !N. apply P; [apply (every_lt s xs i Hs); exact Hi|apply (every_lt s xs j Hs); exact Hj].
Qed.

Lemma every_in {A} s (l : list A) x : (1 <= s)%nat -> In x (every s l) -> In x l.
Proof.
  intros Hs Hx. apply In_nth_error in Hx. destruct Hx as [i E]. unfold every in E. rewrite (thin_nth s l Hs 0 i) in E. eapply nth_error_In, E.
Qed.
Lemma table_sub s a : (1 <= s)%nat -> table a -> table (sub_arr s a).
Proof. intros Hs (w & W). exists w. intros r Hr. rewrite (sub_rows s Hs) in Hr. apply W. eapply every_in; eassumption. Qed.
Lemma sub_len s a : (1 <= s)%nat -> arr_len (sub_arr s a) = length (every s (arr_rows a)).
Proof. intros Hs. rewrite <- (sub_rows s Hs), arr_rows_length. reflexivity. Qed.

Theorem C92_cte_discrete_2d b source dest cond l k m s n : valid_base b -> (1 <= s)%nat ->
  arr_len source = n -> arr_len dest = n -> arr_len cond = n -> table source -> table dest -> table cond ->
  (1 <= l)%nat -> (1 <= k)%nat -> (1 <= m)%nat -> (Nat.max (Nat.max k l) m * s < n)%nat -> small2 n ->
  cte_discrete b source dest (RArr cond) (cte_kw l k m s) =
  cte_discrete b (sub_arr s source) (sub_arr s dest) (RArr (sub_arr s cond)) (cte_kw l k m 1).
Proof.
  intros V Hs Ls Ld Lc Ts Td Tc Hl Hk Hm Hd Hn. unfold cte_discrete.
  destruct (reduce_joint_space (RArr cond)) as [z| |] eqn:E; [|destruct cond; discriminate E|destruct cond; discriminate E].
  destruct (reduce_joint_space (RArr (sub_arr s cond))) as [z'| |] eqn:E'; [|destruct cond; discriminate E'|destruct cond; discriminate E']. cbn [bind].
  destruct (reduced_rows cond z Tc E) as [P1 L1]. destruct (reduced_rows (sub_arr s cond) z' (table_sub s cond Hs Tc) E') as [P2 L2].
  destruct (C92_cte_discrete s Hs b None source dest (A1 z) (cte_kw l k m 1) ltac:(congruence) ltac:(congruence)) as [G _].
  change (with_step (cte_kw l k m 1) s) with (cte_kw l k m s) in G. change (with_step (cte_kw l k m 1) 1) with (cte_kw l k m 1) in G. rewrite G.
  assert (LE : forall a, arr_len a = n -> arr_len (sub_arr s a) = length (every s (arr_rows source))).
  { intros a La. rewrite sub_len by exact Hs. apply every_len_eq; [exact Hs|]. rewrite !arr_rows_length. congruence. }
  set (N := length (every s (arr_rows source))) in *.
  assert (LN : (Nat.max (Nat.max k l) m * 1 < N)%nat).
  { rewrite Nat.mul_1_r. apply (every_lt s (arr_rows source) _ Hs). rewrite arr_rows_length, Ls. exact Hd. }
  assert (SN : small2 N).
  { unfold small2 in *. assert (N <= n)%nat; [|lia]. apply Nat.nlt_ge. intros Q. assert (Q1 : (N - 1 < N)%nat) by lia.
    apply (every_lt s (arr_rows source) (N - 1) Hs) in Q1. rewrite arr_rows_length, Ls in Q1. nia. }
  symmetry. apply (cte_gen_relabel b None (sub_arr s source) (sub_arr s dest) (sub_arr s (A1 z)) (sub_arr s source) (sub_arr s dest) (A1 z') l k m 1 N);
    auto using table_sub, table_1d; try (apply table_sub; auto using table_1d).
  - exact Logic.I.
  - apply LE. congruence.
  - rewrite L2. apply LE. exact Lc.
  - exists (fun r => r). split; [intros x y _ _ Q; exact Q|rewrite map_id; reflexivity].
  - exists (fun r => r). split; [intros x y _ _ Q; exact Q|rewrite map_id; reflexivity].
  - apply (same_partition_trans (arr_rows (sub_arr s (A1 z))) (arr_rows (sub_arr s cond))); [|exact P2].
    rewrite !(sub_rows s Hs). apply every_partition; [exact Hs|]. apply same_partition_sym, P1.
Qed.
Print Assumptions C92_cte_discrete_2d.

Example C92_2d_example :
  let cond := A2 [[0; 1]; [5; 5]; [0; 0]; [7; 7]; [0; 1]; [8; 8]; [1; 1]]%Z in
  table cond /\ arr_len cond = 7%nat /\ (Nat.max (Nat.max 1 1) 1 * 2 < 7)%nat /\ sub_arr 2 cond = A2 [[0; 1]; [0; 0]; [0; 1]; [1; 1]]%Z.
Proof.
  cbv zeta. split; [|split; [reflexivity|split; [simpl; lia|reflexivity]]]. exists 2%nat. intros r Hr. cbn [arr_rows In] in Hr.
  repeat (destruct Hr as [<-|Hr]; [reflexivity|]). contradiction.
Qed.
