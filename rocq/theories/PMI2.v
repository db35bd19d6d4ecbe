(** Proofs: mutual information in terms of the specification. *)
From Coq Require Import Reals Lra Lia List ZArith Arith Bool Permutation.
From Verif Require Import Res RSum Spec Info Info2 Ord MBase MData MMI SpecBase PBase PEntropy PCoo PMI.
Import ListNotations.
Local Open Scope R_scope.

(** ** entropies of the codes *)
Section Val.
Variable vars : list arr.
Variable N : nat.
Hypothesis Hlen : Forall (fun a => arr_len a = N) vars.
Hypothesis Hne : vars <> [].
Hypothesis HN : (0 < N)%nat.
Notation l := (seq 0 N).

Lemma arr_rows_len a : length (arr_rows a) = arr_len a.
Proof using. destruct a; [apply map_length|reflexivity]. Qed.

Lemma hs_Xi i : (i < length vars)%nat ->
  hs l (Xi vars i) = Ent (arr_rows (nth i vars (A1 []))).
Proof using Hlen HN.
  intros Hi. assert (L : length (arr_rows (nth i vars (A1 []))) = N).
  { rewrite arr_rows_len. apply var_len; assumption. }
  rewrite (list_as_map [] _ N L) at 1. rewrite Ent_map by (apply l_ne; exact HN).
  apply hs_partition. intros s t Hs Ht. apply in_seq in Hs. apply in_seq in Ht.
  apply (Xi_partition vars N Hlen); [exact Hi|lia|lia].
Qed.

Lemma hs_rowc : hs l (rowc vars) = Ent (rows_of [] N (map arr_rows vars)).
Proof using Hlen Hne HN.
  unfold rows_of. rewrite Ent_map by (apply l_ne; exact HN).
  apply hs_partition. intros s t Hs Ht. apply in_seq in Hs. apply in_seq in Ht.
  rewrite !map_map. apply (rowc_partition vars N Hlen); lia.
Qed.

Lemma mi_value_eq :
  mi_value vars N = sumf (fun a => Ent (arr_rows a)) vars - Ent (rows_of [] N (map arr_rows vars)).
Proof using Hlen Hne HN.
  unfold mi_value. rewrite hs_rowc. f_equal.
  rewrite (sumf_ext _ (fun i => Ent (arr_rows (nth i vars (A1 []))))).
  2:{ intros i Hi. apply in_seq in Hi. apply hs_Xi. lia. }
  rewrite <- (sumf_map (fun i => nth i vars (A1 [])) (fun a => Ent (arr_rows a))).
  rewrite <- (list_as_map (A1 []) vars (length vars) eq_refl). reflexivity.
Qed.
End Val.

Lemma Ent_singletons (xs : list Z) : Ent (map (fun x => [x]) xs) = Ent xs.
Proof. apply Ent_map_inj. intros x y _ _ E. injection E as ->. reflexivity. Qed.

Lemma rows_singletons n cols : all_len n cols ->
  Ent (rows_of [] n (map arr_rows (map A1 cols))) = Ent (rows_of 0%Z n cols).
Proof.
  intros HL. apply Ent_partition. split; [rewrite !rows_of_length; reflexivity|].
  intros i j dx dy Hi Hj. rewrite rows_of_length in *.
  unfold rows_of. rewrite !nth_map_seq by assumption. rewrite !map_map.
  unfold all_len in HL. clear dx dy. induction HL as [|c cs Hc HL IH]; [simpl; tauto|].
  cbn [map]. assert (E : forall t, (t < n)%nat -> nth t (arr_rows (A1 c)) [] = [nth t c 0%Z]).
  { intros t Ht. apply (arr_at_A1 c t). lia. }
  rewrite !E by assumption. split; intros Eq; injection Eq as E0 E1; f_equal; try congruence; apply IH; exact E1.
Qed.

Lemma all_len_arr n cols : all_len n cols -> Forall (fun a => arr_len a = n) (map A1 cols).
Proof.
  unfold all_len. rewrite !Forall_forall. intros H a Ha. apply in_map_iff in Ha.
  destruct Ha as [c [<- Hc]]. apply H. exact Hc.
Qed.

Lemma mi_value_1d n cols : cols <> [] -> (0 < n)%nat -> all_len n cols ->
  mi_value (map A1 cols) n = TotalCorr 0%Z n cols.
Proof.
  intros NE Hn HL. rewrite mi_value_eq; auto using all_len_arr.
  2:{ destruct cols; [congruence|discriminate]. }
  rewrite rows_singletons by exact HL. unfold TotalCorr. f_equal. rewrite sumf_map.
  apply sumf_ext. intros c _. apply Ent_singletons.
Qed.

Lemma rows_of_2 (xs ys : list Z) n : length xs = n -> length ys = n ->
  Ent (rows_of 0%Z n [xs; ys]) = Ent (combine xs ys).
Proof.
  intros Hx Hy. apply Ent_partition. split.
  - rewrite rows_of_length, combine_length. lia.
  - intros i j dx [d1 d2] Hi Hj. rewrite rows_of_length in *. unfold rows_of.
    rewrite !nth_map_seq by assumption. rewrite !combine_nth by lia. cbn [map].
    rewrite (nth_indep xs 0%Z d1), (nth_indep ys 0%Z d2), (nth_indep xs 0%Z d1), (nth_indep ys 0%Z d2) by lia.
    split; intros E; injection E; intros; congruence.
Qed.

Lemma TotalCorr_2 (xs ys : list Z) n : length xs = n -> length ys = n ->
  TotalCorr 0%Z n [xs; ys] = MI xs ys.
Proof. intros Hx Hy. unfold TotalCorr, MI. rewrite rows_of_2 by assumption. simpl. ring. Qed.

(** constant arrays *)
Lemma unique_1_const {A} `{Cmp A} `{EqDec A} (xs : list A) :
  length (unique xs) = 1%nat -> forall x y, In x xs -> In y xs -> x = y.
Proof.
  intros L x y Hx Hy. apply (proj2 (unique_In xs x)) in Hx. apply (proj2 (unique_In xs y)) in Hy.
  destruct (unique xs) as [|u [|v r]]; try discriminate.
  destruct Hx as [<-|[]]. destruct Hy as [<-|[]]. reflexivity.
Qed.

Lemma const_unique_1 {A} `{Cmp A} `{EqDec A} (xs : list A) :
  xs <> [] -> (forall x y, In x xs -> In y xs -> x = y) -> length (unique xs) = 1%nat.
Proof.
  intros NE Hc. destruct xs as [|x xs'] eqn:E; [congruence|]. rewrite <- E in *.
  pose proof (unique_NoDup xs) as ND. pose proof (unique_In xs) as UI.
  destruct (unique xs) as [|u [|v r]]; [|reflexivity|].
  - destruct (proj2 (UI x)). rewrite E. left. reflexivity.
  - exfalso. inversion ND as [|? ? N1 _]; subst. apply N1. left.
    apply Hc; apply UI; simpl; auto.
Qed.

Lemma Ent_pair_const {A B} `{EqDec A} `{EqDec B} (xs : list A) (ys : list B) :
  length xs = length ys -> xs <> [] -> (forall x y, In x xs -> In y xs -> x = y) ->
  Ent (combine xs ys) = Ent ys.
Proof.
  intros L NE Hc. apply Ent_partition. split; [rewrite combine_length; lia|].
  intros i j [d1 d2] dy Hi Hj. rewrite combine_length in Hi, Hj. rewrite !combine_nth by exact L.
  rewrite (nth_indep ys dy d2), (nth_indep ys dy d2) by lia.
  rewrite pair_equal_spec. split; [tauto|]. intros E. split; [|exact E].
  apply Hc; apply nth_In; lia.
Qed.

Lemma MI_const_l {A B} `{EqDec A} `{EqDec B} (xs : list A) (ys : list B) :
  length xs = length ys -> xs <> [] -> (forall x y, In x xs -> In y xs -> x = y) -> MI xs ys = 0.
Proof.
  intros L NE Hc. unfold MI. rewrite Ent_pair_const by assumption.
  rewrite (proj2 (Ent_zero_iff xs NE) Hc). lra.
Qed.

(** ** the two-variable path *)
Section Two.
Variables x y : arr.
Variable N : nat.
Hypothesis Lx : arr_len x = N.
Hypothesis Ly : arr_len y = N.
Hypothesis HN : (0 < N)%nat.
Let vars := [x; y].

Lemma two_len : Forall (fun a => arr_len a = N) vars.
Proof using Lx Ly. repeat constructor; assumption. Qed.
Lemma two_ne : vars <> []. Proof using. discriminate. Qed.

Lemma marginal_sum i : (i < 2)%nat -> sumZ (marginal (the_coo vars) i) = Z.of_nat N.
Proof using Lx Ly HN.
  intros Hi. apply eq_IZR. unfold marginal. rewrite IZR_sumZ.
  rewrite (sumf_ext _ (fun a => cnt (seq 0 N) (Xi vars i) a * 1)).
  2:{ intros a _. rewrite (coo_sum_if_eq vars N two_len two_ne). unfold cnt. rewrite Rmult_1_r.
      apply sumf_ext. intros t _. rewrite eqb_nat. reflexivity. }
  rewrite (group (seq 0 N) (Xi vars i) _ (fun _ => 1)).
  - rewrite sumf_const, seq_length, <- INR_IZR_INZ. ring.
  - apply seq_NoDup.
  - intros s Hs. apply in_seq in Hs. apply in_seq.
    pose proof (row_in_shape vars N two_len i s) as Q. simpl length in Q. unfold Xi.
    assert ((nth i (rowc vars s) 0 < nth i (coo_shape (the_coo vars)) 0)%nat) by (apply Q; lia). lia.
Qed.

Lemma two_int_ok b mm : valid_base b -> (Z.of_nat N < 2 ^ 32)%Z ->
  nlevels x <> 1%nat -> nlevels y <> 1%nat ->
  mi_global_2d_int b mm x y =
  add_corr mm (Rmax (mi_value vars N / unit_of b) 0)
     (fun bb => mm_mi_corr (map nlevels vars) (length (unique (coo_rows vars))) N bb None).
Proof using Lx Ly HN.
  intros V Hs Nx Ny. unfold mi_global_2d_int. change [x; y] with vars.
  rewrite (coo_of_ok vars N two_len two_ne). cbn [bind].
  assert (L0 : length (marginal (the_coo vars) 0) = nlevels x).
  { unfold marginal. rewrite map_length, seq_length. reflexivity. }
  assert (L1 : length (marginal (the_coo vars) 1) = nlevels y).
  { unfold marginal. rewrite map_length, seq_length. reflexivity. }
  rewrite L0, L1. rewrite (proj2 (Nat.eqb_neq _ _) Nx), (proj2 (Nat.eqb_neq _ _) Ny). cbn [orb].
  rewrite !marginal_sum by lia. rewrite (coo_sum_eq vars N two_len two_ne).
  pose proof (INR_N N HN) as P. pose proof (unit_neq0 b V) as U.
  assert (NW : no_wrap vars N).
  { apply no_wrap_small; auto using two_len, two_ne. simpl length.
    change (Z.of_nat 2) with 2%Z. rewrite Z.pow_2_r.
    change (2 ^ 64)%Z with (2 ^ 32 * 2 ^ 32)%Z. nia. }
  assert (OU : forall t, (t < N)%nat ->
     u64 (u64 (nth (nth 0 (rowc vars t) 0%nat) (marginal (the_coo vars) 0) 0%Z) *
          u64 (nth (nth 1 (rowc vars t) 0%nat) (marginal (the_coo vars) 1) 0%Z)) = prodZ (outerZ vars t)).
  { intros t Ht. pose proof (outerZ_ge1 vars N two_len two_ne HN t Ht) as HF.
    unfold outerZ in HF. simpl length in HF. cbn [seq map] in HF.
    inversion HF as [|? ? B0 HF0]; subst. inversion HF0 as [|? ? B1 _]; subst.
    unfold outerZ. simpl length. cbn [seq map]. unfold prodZ. cbn [fold_right].
    unfold Xi in *. change (2 ^ 32)%Z with 4294967296%Z in Hs.
    set (p := nth (nth 0 (rowc vars t) 0%nat) (marginal (the_coo vars) 0) 0%Z) in *.
    set (q := nth (nth 1 (rowc vars t) 0%nat) (marginal (the_coo vars) 1) 0%Z) in *.
    assert (E64 : (2 ^ 64 = 18446744073709551616)%Z) by reflexivity.
    rewrite (u64_small p), (u64_small q) by (rewrite E64; lia).
    rewrite Z.mul_1_r. apply u64_small. rewrite E64. nia. }
  match goal with |- bind (mapM ?F _) _ = _ =>
    destruct (cells_mapM vars N two_len two_ne HN F
     (fun t => Gt vars N t / unit_of b / INR N)
     (fun r => (ln (IZR (Z.of_nat (count (coo_rows vars) r))) - ln (INR N) -
        ln (IZR (u64 (u64 (nth (nth 0 r 0%nat) (marginal (the_coo vars) 0) 0%Z) *
          u64 (nth (nth 1 r 0%nat) (marginal (the_coo vars) 1) 0%Z))))
        + 2 * ln (INR N)) / unit_of b / INR N)) as [ts [E1 E2]]
  end.
  - intros t Ht. rewrite OU by exact Ht. rewrite (proj2 (ln_outer vars N two_len two_ne HN t Ht)).
    rewrite (count_rc vars N two_len two_ne HN). unfold Gt. simpl length. reflexivity.
  - intros t Ht. cbn [fst snd]. rewrite OU by exact Ht.
    rewrite (count_rc vars N two_len two_ne HN), <- INR_IZR_INZ, np_div_ok by lra. cbn [bind].
    rewrite !log_base_ok by (try exact V; try exact P; try (apply cnt_rc_pos; auto using two_len, two_ne; fail); 
       apply (ln_outer vars N two_len two_ne HN); exact Ht).
    cbn [bind]. f_equal. field. split; try exact U; lra.
  - rewrite E1. cbn [bind]. rewrite E2, sumf_div, sumf_div. f_equal.
    + f_equal. rewrite <- (Gt_sum vars N two_len two_ne HN). field. split; try exact U; lra.
    + unfold the_coo. cbn [coo_shape coo_vals]. rewrite map_length, Lx. reflexivity.
Qed.
End Two.
