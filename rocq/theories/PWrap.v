(** Proofs: mutual information of integer data including the wrap-around of 64-bit products. *)
From Coq Require Import Reals Lra Lia List ZArith Arith Bool.
From Verif Require Import Res RSum Spec Info Info2 Ord MBase MData MMI SpecBase PBase PCoo PMI PMI2 PMI4 PMI6 SpecWrap.
Import ListNotations.
Local Open Scope R_scope.

Lemma uprod_mod l : uprod (map u64 l) = (prodZ l mod 2 ^ 64)%Z.
Proof.
  induction l as [|z l IH]; [reflexivity|]. cbn [map]. unfold uprod in *. cbn [fold_right]. rewrite IH. unfold prodZ. cbn [fold_right].
  fold (prodZ l). unfold u64. rewrite Zmult_mod_idemp_r, Zmult_mod_idemp_l. reflexivity.
Qed.
Lemma mapM_nonfinite {A B} (f : A -> res B) (l : list A) x : (forall y, In y l -> forall e, f y <> Raise e) -> In x l -> f x = NonFinite -> mapM f l = NonFinite.
Proof.
  intros NR Hx Fx. induction l as [|y l IH]; [destruct Hx|]. cbn [mapM].
  destruct (f y) as [v|e|] eqn:Fy; [|destruct (NR y (or_introl eq_refl) e Fy)|reflexivity]. cbn [bind].
  destruct Hx as [->|Hx]; [congruence|]. rewrite IH; [reflexivity|intros; apply NR; right; assumption|exact Hx].
Qed.

Section W.
Variable vars : list arr.
Variable N : nat.
Hypothesis Hlen : Forall (fun a => arr_len a = N) vars.
Hypothesis Hne : vars <> [].
Hypothesis HN : (0 < N)%nat.
Notation l := (seq 0 N).
Notation c := (the_coo vars).
Notation rc := (rowc vars).
Notation X := (Xi vars).
Notation k := (length vars).
Notation W t := (prodZ (outerZ vars t) mod 2 ^ 64)%Z.

Lemma W_nonneg t : (0 <= W t)%Z. Proof using. apply Z.mod_pos_bound. reflexivity. Qed.
Lemma outer_mod t : (t < N)%nat ->
  uprod (map (fun i => u64 (nth (nth i (rc t) 0%nat)
           (nth i (map (marginal c) (seq 0 (ndim c))) []) 0%Z)) (seq 0 (ndim c))) = W t.
Proof using Hlen Hne HN.
  intros Ht. rewrite (ndim_eq vars N Hlen Hne HN). rewrite <- uprod_mod. unfold outerZ. rewrite map_map. f_equal.
  apply map_ext_in. intros i Hi. apply in_seq in Hi. rewrite nth_map_seq by (clear -Hi; lia). reflexivity.
Qed.
Definition lostW : R := sumf (fun t => ln (IZR (prodZ (outerZ vars t)) / IZR (W t))) l / INR N.

Lemma nd_int_wrap b mm : valid_base b -> (forall t, (t < N)%nat -> W t <> 0%Z) ->
  existsb (fun a => Nat.eqb (nlevels a) 1) vars = false ->
  mi_global_nd_int b mm vars =
  add_corr mm ((mi_value vars N + lostW) / unit_of b)
     (fun bb => mm_mi_corr (map nlevels vars) (length (unique (coo_rows vars))) N bb None).
Proof using Hlen Hne HN.
  intros V NW NE. unfold mi_global_nd_int. rewrite (coo_of_ok vars N Hlen Hne). cbn [bind].
  rewrite (no_early vars N Hlen Hne HN), NE. pose proof (INR_N N HN) as P. pose proof (unit_neq0 b V) as U.
  assert (WP : forall t, (t < N)%nat -> 0 < IZR (W t)).
  { intros t Ht. apply IZR_lt. pose proof (W_nonneg t). specialize (NW t Ht). clear -H NW. lia. }
  rewrite (coo_sum_eq vars N Hlen Hne).
  destruct (cells_mapM vars N Hlen Hne HN (fun rv =>
        mi_term b (Z.of_nat N) (length (map (marginal c) (seq 0 (ndim c)))) (snd rv)
          (uprod (map (fun i => u64 (nth (nth i (fst rv) 0%nat)
             (nth i (map (marginal c) (seq 0 (ndim c))) []) 0%Z)) (seq 0 (ndim c)))))
     (fun t => (Gt vars N t + ln (IZR (prodZ (outerZ vars t)) / IZR (W t))) / unit_of b / INR N)
     (fun r => (ln (IZR (Z.of_nat (count (coo_rows vars) r))) - ln (INR N) -
        ln (IZR (uprod (map (fun i => u64 (nth (nth i r 0%nat)
             (nth i (map (marginal c) (seq 0 (ndim c))) []) 0%Z)) (seq 0 (ndim c)))))
        + INR k * ln (INR N)) / unit_of b / INR N)) as [ts [E1 E2]].
  - intros t Ht. rewrite outer_mod by assumption. rewrite (count_rc vars N Hlen Hne HN).
    destruct (ln_outer vars N Hlen Hne HN t Ht) as [O1 O2]. rewrite ln_div by (auto using WP). rewrite O2. unfold Gt.
    f_equal. f_equal. ring.
  - intros t Ht. cbn [fst snd]. rewrite outer_mod by assumption. unfold mi_term.
    rewrite (count_rc vars N Hlen Hne HN), <- INR_IZR_INZ, np_div_ok by lra. cbn [bind].
    rewrite !log_base_ok; try exact V; try exact P; try (apply cnt_rc_pos; assumption); try (apply WP; exact Ht).
    cbn [bind]. f_equal. rewrite map_length, seq_length, (ndim_eq vars N Hlen Hne HN). field. split; try exact U; lra.
  - rewrite E1. cbn [bind]. rewrite E2. rewrite sumf_div, sumf_div, sumf_plus. f_equal.
    + rewrite <- (Gt_sum vars N Hlen Hne HN). unfold lostW. field. split; try exact U; lra.
    + unfold the_coo. cbn [coo_shape coo_vals]. rewrite map_length, (hd_len vars N Hlen Hne). reflexivity.
Qed.

Lemma log_base_no_raise b x : valid_base b -> forall e, log_base b x <> Raise e.
Proof using.
  intros V e. unfold log_base. destruct b as [|r]; [unfold np_log; destruct (Rlt_dec 0 x); discriminate|].
  destruct (Req_EM_T r 2); [destruct (np_log x) eqn:Q; cbn; unfold np_log in Q; destruct (Rlt_dec 0 x); discriminate|].
  destruct (Req_EM_T r 10); [destruct (np_log x) eqn:Q; cbn; unfold np_log in Q; destruct (Rlt_dec 0 x); discriminate|].
  destruct (Req_EM_T r 0); [simpl in V; lra|]. destruct (Rlt_dec r 0); [simpl in V; lra|].
  destruct (np_log x) as [y| |] eqn:Q; cbn; [|unfold np_log in Q; destruct (Rlt_dec 0 x); discriminate|discriminate].
  destruct (np_log r) as [z| |] eqn:Q2; cbn; [|unfold np_log in Q2; destruct (Rlt_dec 0 r); discriminate|discriminate].
  unfold np_div. destruct (Req_EM_T z 0); discriminate.
Qed.
Lemma np_div_no_raise x y e : np_div x y <> Raise e.
Proof using. unfold np_div. destruct (Req_EM_T y 0); discriminate. Qed.

Lemma nd_int_wrap_zero b mm t : valid_base b -> (t < N)%nat -> W t = 0%Z ->
  existsb (fun a => Nat.eqb (nlevels a) 1) vars = false ->
  mi_global_nd_int b mm vars = NonFinite.
Proof using Hlen Hne HN.
  intros V Ht Z0 NE. unfold mi_global_nd_int. rewrite (coo_of_ok vars N Hlen Hne). cbn [bind].
  rewrite (no_early vars N Hlen Hne HN), NE. pose proof (INR_N N HN) as P.
  rewrite (coo_sum_eq vars N Hlen Hne).
  match goal with |- bind (mapM ?F _) _ = _ => rewrite (mapM_nonfinite F _ (rc t, Z.of_nat (count (coo_rows vars) (rc t)))); [reflexivity| | |] end.
  - intros rv _ e. unfold mi_term.
    destruct (np_div (IZR (snd rv)) _) eqn:Q1; cbn [bind]; [|exact (fun _ => np_div_no_raise _ _ _ Q1)|discriminate].
    destruct (log_base b (IZR (snd rv))) eqn:Q2; cbn [bind]; [|exact (fun _ => log_base_no_raise b _ V _ Q2)|discriminate].
    destruct (log_base b (IZR (Z.of_nat N))) eqn:Q3; cbn [bind]; [|exact (fun _ => log_base_no_raise b _ V _ Q3)|discriminate].
    destruct (log_base b (IZR (uprod _))) eqn:Q4; cbn [bind]; [discriminate|exact (fun _ => log_base_no_raise b _ V _ Q4)|discriminate].
  - rewrite entries_eq. apply in_map_iff. exists (rc t). split; [reflexivity|]. rewrite unique_In, (coo_rows_eq vars N Hlen Hne).
    apply in_map. apply in_seq. clear -Ht. lia.
  - cbn [fst snd]. rewrite outer_mod by assumption. rewrite Z0. unfold mi_term.
    rewrite (count_rc vars N Hlen Hne HN), <- INR_IZR_INZ, np_div_ok by lra. cbn [bind].
    rewrite (log_base_ok b (cnt l rc (rc t))) by (try exact V; apply cnt_rc_pos; assumption). cbn [bind].
    rewrite (log_base_ok b (INR N)) by assumption. cbn [bind].
    assert (Z1 : log_base b (IZR 0) = NonFinite) by exact (log_base_zero b V). rewrite Z1. reflexivity.
Qed.
End W.

(** in terms of the data *)
Lemma outerZ_1d n cols t : all_len n cols -> cols <> [] -> (t < n)%nat ->
  prodZ (outerZ (map A1 cols) t) = cell_product cols t.
Proof.
  intros HL NE Ht. assert (NEm : map A1 cols <> []) by (destruct cols; [congruence|discriminate]).
  pose proof (all_len_arr n cols HL) as HLa.
  unfold outerZ, cell_product, prodZ. rewrite map_length. f_equal.
  assert (LM : map (fun x : list Z => Z.of_nat (count x (nth t x 0%Z))) cols =
    map (fun i => Z.of_nat (count (nth i cols []) (nth t (nth i cols []) 0%Z))) (seq 0 (length cols))).
  { rewrite (list_as_map [] cols (length cols) eq_refl) at 1. rewrite map_map. reflexivity. }
  rewrite LM. apply map_ext_in. intros i Hi. apply in_seq in Hi.
  assert (Hi' : (i < length cols)%nat) by lia.
  apply eq_IZR. rewrite (marginal_eq (map A1 cols) n HLa NEm) by (rewrite ?map_length; auto).
  assert (Li : length (nth i cols []) = n).
  { unfold all_len in HL. rewrite Forall_forall in HL. apply HL, nth_In, Hi'. }
  rewrite <- INR_IZR_INZ. set (x := nth i cols []) in *.
  transitivity (cnt (seq 0 n) (fun s => nth s x 0%Z) (nth t x 0%Z)).
  - unfold cnt. apply sumf_ext. intros s Hs. apply in_seq in Hs.
    assert (E : Xi (map A1 cols) i s = Xi (map A1 cols) i t <-> nth s x 0%Z = nth t x 0%Z).
    { rewrite (Xi_partition (map A1 cols) n HLa i t s) by (rewrite ?map_length; auto; lia). 
      assert (En : nth i (map A1 cols) (A1 []) = A1 x) by (change (A1 []) with (A1 (@nil Z)); rewrite map_nth; reflexivity).
      rewrite En, !arr_at_A1 by lia. split; [intros Q; injection Q; auto|intros ->; reflexivity]. }
    unfold eqb. destruct (eq_dec (Xi _ i s) (Xi _ i t)) as [a|a], (eq_dec (nth s x 0%Z) (nth t x 0%Z)) as [d|d]; tauto || reflexivity.
  - rewrite cnt_count. rewrite <- (list_as_map 0%Z x n Li). reflexivity.
Qed.

(** three or more 1-D variables, none of them constant *)
Theorem mi_nd_wrapped b n cols : valid_base b -> (3 <= length cols)%nat -> all_len n cols -> (0 < n)%nat -> no_constant cols ->
  mi_discrete b (Some 0%Z) (map A1 cols) =
  if forallb (fun t => negb (Z.eqb (low64 (cell_product cols t)) 0)) (seq 0 n)
  then Ok ((TotalCorr 0%Z n cols + lost n cols) / unit_of b) else NonFinite.
Proof.
  intros V Hk HL Hn NC. unfold mi_discrete.
  rewrite (mi_init_0 (map A1 cols) n) by (rewrite ?map_length; auto using all_len_arr; lia). cbn [bind].
  rewrite mi_global_1d_nd by exact Hk.
  assert (NE : cols <> []) by (intros ->; simpl in Hk; lia).
  assert (NEm : map A1 cols <> []) by (destruct cols; [congruence|discriminate]).
  pose proof (all_len_arr n cols HL) as HLa. pose proof (no_constant_levels cols NC) as NL.
  destruct (forallb _ _) eqn:FA.
  - rewrite forallb_forall in FA. rewrite (nd_int_wrap (map A1 cols) n HLa NEm Hn b None V).
    + cbn [add_corr]. rewrite mi_value_1d by assumption. f_equal. f_equal. f_equal. unfold lostW, lost. f_equal.
      apply sumf_ext. intros t Ht. apply in_seq in Ht. rewrite (outerZ_1d n cols t) by (auto; lia). reflexivity.
    + intros t Ht. rewrite (outerZ_1d n cols t) by auto. specialize (FA t ltac:(apply in_seq; lia)).
      apply negb_true_iff, Z.eqb_neq in FA. exact FA.
    + exact NL.
  - assert (EX : exists t, In t (seq 0 n) /\ low64 (cell_product cols t) = 0%Z).
    { clear - FA. induction (seq 0 n) as [|t l IH]; [discriminate|]. cbn [forallb] in FA. apply andb_false_iff in FA.
      destruct FA as [FA|FA]; [exists t; split; [left; reflexivity|apply negb_false_iff, Z.eqb_eq in FA; exact FA]|].
      destruct (IH FA) as (u & Hu & E). exists u. split; [right; exact Hu|exact E]. }
    destruct EX as (t & Ht & E). apply in_seq in Ht.
    apply (nd_int_wrap_zero (map A1 cols) n HLa NEm Hn b None t V); [lia|rewrite (outerZ_1d n cols t) by (auto; lia); exact E|exact NL].
Qed.

(** two 1-D variables *)
Section W2.
Variables xs ys : list Z.
Variable N : nat.
Hypothesis Lx : length xs = N.
Hypothesis Ly : length ys = N.
Hypothesis HN : (0 < N)%nat.
Notation x := (A1 xs).
Notation y := (A1 ys).
Notation vars := [x; y].
Notation cols := [xs; ys].
Notation W t := (prodZ (outerZ vars t) mod 2 ^ 64)%Z.
Let Hlen : Forall (fun a => arr_len a = N) vars := two_len x y N Lx Ly.
Let Hne : vars <> [] := two_ne x y.

Lemma outer2_mod t :
  u64 (u64 (nth (nth 0 (rowc vars t) 0%nat) (marginal (the_coo vars) 0) 0%Z) *
       u64 (nth (nth 1 (rowc vars t) 0%nat) (marginal (the_coo vars) 1) 0%Z)) = W t.
Proof using.
  unfold outerZ. simpl length. cbn [seq map]. unfold prodZ. cbn [fold_right]. unfold Xi, u64.
  rewrite Z.mul_1_r, <- Zmult_mod. reflexivity.
Qed.

Lemma mi2_wrapped b : valid_base b -> nlevels x <> 1%nat -> nlevels y <> 1%nat ->
  mi_discrete b (Some 0%Z) (map A1 cols) =
  if forallb (fun t => negb (Z.eqb (low64 (cell_product cols t)) 0)) (seq 0 N)
  then Ok (Rmax ((MI xs ys + lost N cols) / unit_of b) 0) else NonFinite.
Proof using Lx Ly HN.
  intros V Nx Ny. unfold mi_discrete. assert (E0 : mi_init (Some 0%Z) (map A1 cols) = Ok vars).
  { apply (mi_init_0 (map A1 cols) N); [simpl; lia|exact Hlen]. }
  rewrite E0. cbn [bind mi_global forallb is_1d andb]. unfold mi_global_2d_int.
  rewrite (coo_of_ok vars N Hlen Hne). cbn [bind].
  assert (L0 : length (marginal (the_coo vars) 0) = nlevels x).
  { unfold marginal. rewrite map_length, seq_length. reflexivity. }
  assert (L1 : length (marginal (the_coo vars) 1) = nlevels y).
  { unfold marginal. rewrite map_length, seq_length. reflexivity. }
  rewrite L0, L1. rewrite (proj2 (Nat.eqb_neq _ _) Nx), (proj2 (Nat.eqb_neq _ _) Ny). cbn [orb].
  rewrite !(marginal_sum x y N Lx Ly HN) by lia. rewrite (coo_sum_eq vars N Hlen Hne).
  pose proof (INR_N N HN) as P. pose proof (unit_neq0 b V) as U.
  assert (HL2 : all_len N cols) by (repeat constructor; auto).
  assert (OC : forall t, (t < N)%nat -> prodZ (outerZ vars t) = cell_product cols t).
  { intros t Ht. apply (outerZ_1d N cols t HL2 ltac:(discriminate) Ht). }
  destruct (forallb _ (seq 0 N)) eqn:FA.
  - rewrite forallb_forall in FA.
    assert (WP : forall t, (t < N)%nat -> 0 < IZR (W t)).
    { intros t Ht. apply IZR_lt. pose proof (W_nonneg vars t). rewrite OC by exact Ht. rewrite OC in H by exact Ht.
      specialize (FA t ltac:(apply in_seq; lia)). apply negb_true_iff, Z.eqb_neq in FA. unfold low64 in FA. clear - H FA. lia. }
    match goal with |- bind (mapM ?F _) _ = _ =>
      destruct (cells_mapM vars N Hlen Hne HN F
       (fun t => (Gt vars N t + ln (IZR (prodZ (outerZ vars t)) / IZR (W t))) / unit_of b / INR N)
       (fun r => (ln (IZR (Z.of_nat (count (coo_rows vars) r))) - ln (INR N) -
          ln (IZR (u64 (u64 (nth (nth 0 r 0%nat) (marginal (the_coo vars) 0) 0%Z) *
            u64 (nth (nth 1 r 0%nat) (marginal (the_coo vars) 1) 0%Z))))
          + 2 * ln (INR N)) / unit_of b / INR N)) as [ts [E1 E2]]
    end.
    + intros t Ht. rewrite outer2_mod. rewrite (count_rc vars N Hlen Hne HN).
      destruct (ln_outer vars N Hlen Hne HN t Ht) as [O1 O2]. rewrite ln_div by (auto using WP). rewrite O2. unfold Gt.
      f_equal. f_equal. simpl length. replace (INR 2) with 2 by (simpl; ring). ring.
    + intros t Ht. cbn [fst snd]. rewrite outer2_mod.
      rewrite (count_rc vars N Hlen Hne HN), <- INR_IZR_INZ, np_div_ok by lra. cbn [bind].
      rewrite (log_base_ok b (cnt (seq 0 N) (rowc vars) (rowc vars t))) by (try exact V; apply (cnt_rc_pos vars N Hlen Hne HN); assumption).
      rewrite (log_base_ok b (IZR (W t))) by (auto using WP). rewrite (log_base_ok b (INR N)) by assumption.
      cbn [bind]. f_equal. field. split; try exact U; lra.
    + rewrite E1. cbn [bind add_corr]. rewrite E2, sumf_div, sumf_div, sumf_plus. f_equal. f_equal.
      pose proof (mi_value_1d N cols ltac:(discriminate) HN HL2) as EV. cbn [map] in EV.
      pose proof (Gt_sum vars N Hlen Hne HN) as GS. rewrite EV, TotalCorr_2 in GS by (auto; lia). rewrite <- GS.
      assert (LO : lost N cols = sumf (fun t => ln (IZR (prodZ (outerZ vars t)) / IZR (W t))) (seq 0 N) / INR N).
      { unfold lost. f_equal. apply sumf_ext. intros t Ht. apply in_seq in Ht. rewrite OC by lia. reflexivity. }
      rewrite LO.
      field. split; try exact U; lra.
  - assert (EX : exists t, In t (seq 0 N) /\ low64 (cell_product cols t) = 0%Z).
    { clear - FA. induction (seq 0 N) as [|t l IH]; [discriminate|]. cbn [forallb] in FA. apply andb_false_iff in FA.
      destruct FA as [FA|FA]; [exists t; split; [left; reflexivity|apply negb_false_iff, Z.eqb_eq in FA; exact FA]|].
      destruct (IH FA) as (u & Hu & E). exists u. split; [right; exact Hu|exact E]. }
    destruct EX as (t & Ht & E). apply in_seq in Ht. assert (Ht' : (t < N)%nat) by lia.
    match goal with |- bind (mapM ?F _) _ = _ =>
      rewrite (mapM_nonfinite F _ (rowc vars t, Z.of_nat (count (coo_rows vars) (rowc vars t)))); [reflexivity| | |] end.
    + intros rv _ e.
      destruct (np_div (IZR (snd rv)) _) eqn:Q1; cbn [bind]; [|exact (fun _ => np_div_no_raise _ _ _ Q1)|discriminate].
      destruct (log_base b (IZR (snd rv))) eqn:Q2; cbn [bind]; [|exact (fun _ => log_base_no_raise b _ V _ Q2)|discriminate].
      destruct (log_base b (IZR (u64 _))) eqn:Q3; cbn [bind]; [|exact (fun _ => log_base_no_raise b _ V _ Q3)|discriminate].
      destruct (log_base b (IZR (Z.of_nat N))) eqn:Q4; cbn [bind]; [discriminate|exact (fun _ => log_base_no_raise b _ V _ Q4)|discriminate].
    + rewrite entries_eq. apply in_map_iff. exists (rowc vars t). split; [reflexivity|]. rewrite unique_In, (coo_rows_eq vars N Hlen Hne).
      apply in_map. apply in_seq. lia.
    + cbn [fst snd]. rewrite outer2_mod, OC by exact Ht'. unfold low64 in E. rewrite E.
      rewrite (count_rc vars N Hlen Hne HN), <- INR_IZR_INZ, np_div_ok by lra. cbn [bind].
      rewrite (log_base_ok b (cnt (seq 0 N) (rowc vars) (rowc vars t))) by (try exact V; apply (cnt_rc_pos vars N Hlen Hne HN); assumption).
      cbn [bind]. assert (Z1 : log_base b (IZR 0) = NonFinite) by exact (log_base_zero b V). rewrite Z1. reflexivity.
Qed.
End W2.
