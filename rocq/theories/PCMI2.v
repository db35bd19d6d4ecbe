(** Proofs: conditional mutual information in terms of the specification. *)
From Coq Require Import Reals Lra Lia List ZArith Arith Bool Permutation.
From Verif Require Import Res RSum Spec Info Info2 Ord MBase MData MEntropy MMI SpecBase PBase PEntropy PCoo PMI PMI2 PMI3 PCMI PMI4.
Import ListNotations.
Local Open Scope R_scope.

(** sum of the pair entropies minus joint entropy minus condition entropy *)
Definition CMIn (n : nat) (cols : list (list Z)) (zs : list Z) : R :=
  sumf (fun c => Ent (combine c zs)) cols - Ent (rows_of 0%Z n (cols ++ [zs])) - Ent zs.

Section Conv.
Variables (cols : list (list Z)) (zs : list Z) (n : nat).
Hypothesis HL : all_len n cols.
Hypothesis Hz : length zs = n.
Hypothesis HN : (0 < n)%nat.
Notation vars := (map A1 cols).
Notation al := (vars ++ [A1 zs]).
Notation k := (length vars).
Notation l := (seq 0 n).

Lemma al_map : al = map A1 (cols ++ [zs]).
Proof using HL Hz HN. rewrite map_app. reflexivity. Qed.
Lemma HL' : all_len n (cols ++ [zs]).
Proof using HL Hz HN. unfold all_len in *. apply Forall_app. split; [exact HL|]. repeat constructor. exact Hz. Qed.
Lemma HLv : Forall (fun a => arr_len a = n) vars.
Proof using HL Hz HN. apply all_len_arr. exact HL. Qed.

Lemma al_nth_k : nth k al (A1 []) = A1 zs.
Proof using HL Hz HN. rewrite app_nth2, Nat.sub_diag by lia. reflexivity. Qed.
Lemma al_nth_i i : (i < k)%nat -> nth i al (A1 []) = A1 (nth i cols []).
Proof using HL Hz HN. intros Hi. rewrite app_nth1 by exact Hi. apply map_nth. Qed.

Lemma Xk_part s t : (s < n)%nat -> (t < n)%nat ->
  (Xi al k t = Xi al k s <-> nth t zs 0%Z = nth s zs 0%Z).
Proof using HL Hz HN.
  intros Hs Ht. rewrite (Xi_partition al n (al_len vars zs n HLv Hz) k s t) by (try assumption; rewrite al_k; clear; lia).
  rewrite al_nth_k. rewrite !arr_at_A1 by lia. split; [congruence|intros ->; reflexivity].
Qed.
Lemma Xi_part i s t : (i < k)%nat -> (s < n)%nat -> (t < n)%nat ->
  (Xi al i t = Xi al i s <-> nth t (nth i cols []) 0%Z = nth s (nth i cols []) 0%Z).
Proof using HL Hz HN.
  intros Hi Hs Ht. rewrite (Xi_partition al n (al_len vars zs n HLv Hz) i s t) by (try assumption; rewrite al_k; clear -Hi; lia).
  rewrite al_nth_i by exact Hi.
  assert (length (nth i cols []) = n).
  { unfold all_len in HL. rewrite Forall_forall in HL. apply HL. apply nth_In. rewrite map_length in Hi. exact Hi. }
  rewrite !arr_at_A1 by lia. split; [congruence|intros ->; reflexivity].
Qed.

Lemma pair_part i s t : (i < k)%nat -> (s < n)%nat -> (t < n)%nat ->
  (pair (Xi al i) (Xi al k) t = pair (Xi al i) (Xi al k) s <->
   (nth t (nth i cols []) 0%Z, nth t zs 0%Z) = (nth s (nth i cols []) 0%Z, nth s zs 0%Z)).
Proof using HL Hz HN.
  intros Hi Hs Ht. unfold pair. rewrite !pair_equal_spec, Xi_part, Xk_part by assumption. tauto.
Qed.

Lemma col_len i : (i < k)%nat -> length (nth i cols []) = n.
Proof using HL Hz HN.
  intros Hi. unfold all_len in HL. rewrite Forall_forall in HL. apply HL. apply nth_In.
  rewrite map_length in Hi. exact Hi.
Qed.

Lemma combine_as_map i : (i < k)%nat ->
  combine (nth i cols []) zs = map (fun t => (nth t (nth i cols []) 0%Z, nth t zs 0%Z)) l.
Proof using HL Hz HN.
  intros Hi. rewrite (list_as_map 0%Z (nth i cols []) n (col_len i Hi)) at 1.
  rewrite (list_as_map 0%Z zs n Hz) at 1. apply combine_map.
Qed.

Lemma cmi_value_1d : cmi_value vars zs n = CMIn n cols zs.
Proof using HL Hz HN.
  unfold cmi_value, CMIn.
  assert (lne : l <> []) by (apply l_ne; exact HN).
  rewrite (hs_rowc al n (al_len vars zs n HLv Hz) (al_ne vars zs) HN).
  set (H1 := Ent (rows_of [] n _)).
  assert (EJ : H1 = Ent (rows_of 0%Z n (cols ++ [zs]))).
  { unfold H1. rewrite al_map. apply (rows_singletons n _ HL'). }
  rewrite EJ.
  assert (EZ : hs l (Xi al k) = Ent zs).
  { transitivity (Ent (map (fun t => nth t zs 0%Z) l)); [|f_equal; symmetry; apply list_as_map; exact Hz].
    rewrite Ent_map by exact lne. apply hs_partition.
    intros s t Hs Ht. apply in_seq in Hs. apply in_seq in Ht. apply Xk_part; lia. }
  rewrite EZ. do 2 f_equal.
  rewrite (sumf_ext _ (fun i => Ent (combine (nth i cols []) zs))).
  - rewrite <- (sumf_map (fun i => nth i cols []) (fun c => Ent (combine c zs))).
    rewrite map_length, <- (list_as_map [] cols (length cols) eq_refl). reflexivity.
  - intros i Hi. apply in_seq in Hi. rewrite combine_as_map by lia. rewrite Ent_map by exact lne.
    apply hs_partition. intros s t Hs Ht. apply in_seq in Hs. apply in_seq in Ht. apply pair_part; lia.
Qed.

(** [count_nonzero] of the pairwise table is the number of distinct pairs *)
Lemma nonzero_flat (m : list (list Z)) :
  count_nonzero2 m = length (filter (fun v => negb (Z.eqb v 0)) (concat m)).
Proof using HL Hz HN.
  induction m as [|r m IH]; [reflexivity|]. cbn [count_nonzero2 fold_right concat] in *.
  rewrite filter_app, app_length. f_equal. exact IH.
Qed.

Lemma filter_map_length {A B} (f : A -> B) (p : B -> bool) (m : list A) :
  length (filter p (map f m)) = length (filter (fun x => p (f x)) m).
Proof using HL Hz HN. induction m as [|x m IH]; [reflexivity|]. simpl. destruct (p (f x)); simpl; rewrite IH; reflexivity. Qed.

Lemma concat_grid (f : nat -> nat -> Z) (as_ zs_ : list nat) :
  concat (map (fun a => map (fun z => f a z) zs_) as_) =
  map (fun az => f (fst az) (snd az)) (list_prod as_ zs_).
Proof using HL Hz HN.
  induction as_ as [|a r IH]; [reflexivity|]. cbn [map concat list_prod].
  rewrite map_app, map_map, IH. reflexivity.
Qed.

Lemma list_prod_NoDup {A B} (l1 : list A) (l2 : list B) : NoDup l1 -> NoDup l2 -> NoDup (list_prod l1 l2).
Proof using HL Hz HN.
  intros N1 N2. induction N1 as [|a r Ha Hr IH]; [constructor|]. cbn [list_prod].
  assert (G : forall m1 m2 : list (A * B), NoDup m1 -> NoDup m2 -> (forall x, In x m1 -> ~ In x m2) -> NoDup (m1 ++ m2)).
  { clear. induction m1 as [|x m1 IH]; intros m2 H1 H2 D; [exact H2|]. inversion H1; subst.
    simpl. constructor.
    - rewrite in_app_iff. intros [C|C]; [contradiction|]. exact (D x (or_introl eq_refl) C).
    - apply IH; auto. intros y Hy. apply D. right. exact Hy. }
  apply G; [|exact IH|].
  - clear -N2. induction N2 as [|b r Hb Hr IH]; [constructor|]. cbn [map]. constructor; [|exact IH].
    intros C. apply in_map_iff in C. destruct C as [b' [E C]]. injection E as ->. contradiction.
  - intros [x y] H1 H2. apply in_map_iff in H1. destruct H1 as [b [E _]]. injection E as <- <-.
    apply in_prod_iff in H2. tauto.
Qed.

Lemma nonzero_pairs i : (i < k)%nat ->
  count_nonzero2 (marginal2 (the_coo al) i k) = length (distinct (combine (nth i cols []) zs)).
Proof using HL Hz HN.
  intros Hi. rewrite nonzero_flat. unfold marginal2. rewrite concat_grid, filter_map_length.
  set (grid := list_prod _ _).
  rewrite combine_as_map by exact Hi.
  rewrite <- (distinct_length_map l (pair (Xi al i) (Xi al k)) (fun t => (nth t (nth i cols []) 0%Z, nth t zs 0%Z))).
  2:{ intros s t Hs Ht. apply in_seq in Hs. apply in_seq in Ht. apply pair_part; lia. }
  apply Permutation_length. apply NoDup_Permutation.
  - apply NoDup_filter. apply list_prod_NoDup; apply seq_NoDup.
  - apply NoDup_nodup.
  - intros [a z]. rewrite filter_In. unfold distinct. rewrite nodup_In. cbn [fst snd].
    set (v := coo_sum_if _ _).
    assert (EV : IZR v = cnt l (pair (Xi al i) (Xi al k)) (a, z)).
    { unfold v. rewrite (coo_sum_if_eq al n (al_len vars zs n HLv Hz) (al_ne vars zs)).
      unfold cnt. apply sumf_ext. intros s _. rewrite !eqb_nat. unfold pair, Xi, eqb. f_equal.
      destruct (eq_dec (nth i (rowc al s) 0%nat) a), (eq_dec (nth k (rowc al s) 0%nat) z),
        (eq_dec (nth i (rowc al s) 0%nat, nth k (rowc al s) 0%nat) (a, z)); simpl; congruence. }
    split.
    + intros [_ NZ]. apply negb_true_iff, Z.eqb_neq in NZ.
      destruct (in_dec eq_dec (a, z) (map (pair (Xi al i) (Xi al k)) l)) as [I|NI]; [exact I|].
      exfalso. apply NZ. apply eq_IZR. rewrite EV, cnt_count.
      unfold count. rewrite (proj1 (count_occ_not_In eq_dec _ _) NI). reflexivity.
    + intros I. apply in_map_iff in I. destruct I as [t [E Ht]]. unfold pair in E. injection E as <- <-.
      assert (Ht' := Ht). apply in_seq in Ht. split.
      * unfold grid. apply in_prod; apply in_seq; (split; [lia|]); unfold Xi; simpl plus;
        apply (row_in_shape al n (al_len vars zs n HLv Hz)); try lia; rewrite al_k; clear -Hi; lia.
      * apply negb_true_iff, Z.eqb_neq. intros E0. rewrite E0 in EV.
        pose proof (cnt_self_pos l (pair (Xi al i) (Xi al k)) t Ht') as P. unfold pair in P at 2.
        rewrite <- EV in P. lra.
Qed.

Lemma cmi_corr_1d bb : valid_base bb ->
  cmi_corr vars zs n bb =
  Ok ((sumf (fun c => mmc (combine c zs)) cols - mmc (rows_of 0%Z n (cols ++ [zs])) - mmc zs) / unit_of bb).
Proof using HL Hz HN.
  intros VB. assert (PN : 0 < INR n) by (apply INR_pos; exact HN).
  unfold cmi_corr, mm_mi_corr. rewrite np_div_ok by lra. cbn [bind]. rewrite to_base_ok by exact VB.
  f_equal. f_equal.
  rewrite (joint_levels al n (al_len vars zs n HLv Hz) (al_ne vars zs) HN).
  set (D1 := length (distinct (rows_of [] n _))).
  assert (EJ : D1 = length (distinct (rows_of 0%Z n (cols ++ [zs])))).
  { unfold D1. rewrite al_map. apply (distinct_rows_singletons n _ HL'). }
  rewrite EJ.
  rewrite !map_length, seq_length. rewrite map_map, sumf_map.
  rewrite (sumf_ext (fun i => INR (count_nonzero2 (marginal2 (the_coo al) i (length cols))))
    (fun i => INR (length (distinct (combine (nth i cols []) zs))))).
  2:{ intros i Hi. apply in_seq in Hi. rewrite <- nonzero_pairs by (rewrite map_length; lia).
      rewrite map_length. reflexivity. }
  rewrite <- (sumf_map (fun i => nth i cols []) (fun c => INR (length (distinct (combine c zs))))).
  rewrite <- (list_as_map [] cols (length cols) eq_refl).
  unfold mmc at 2 3. rewrite rows_of_length, Hz.
  rewrite (sumf_ext (fun c => mmc (combine c zs)) (fun c => (INR (length (distinct (combine c zs))) - 1) / (2 * INR n))).
  2:{ intros c Hc. unfold mmc. rewrite combine_length. unfold all_len in HL. rewrite Forall_forall in HL.
      rewrite (HL c Hc), Hz, Nat.min_id. reflexivity. }
  rewrite sumf_div, sumf_minus, sumf_const, unique_length. field. lra.
Qed.

(** not both the condition and some variable constant *)
Definition cmi_nontrivial : Prop :=
  (exists x y, In x zs /\ In y zs /\ x <> y) \/ no_constant cols.

Lemma early_false : cmi_nontrivial -> early vars zs = false.
Proof using HL Hz HN.
  intros NT. apply not_true_iff_false. intros E. apply existsb_exists in E.
  destruct E as [a [Ha L1]]. apply in_map_iff in Ha. destruct Ha as [c [<- Hc]].
  apply Nat.eqb_eq in L1. apply Nat.eq_mul_1 in L1. destruct L1 as [L1 L2].
  destruct NT as [[x [y [Hx [Hy N]]]]|NC].
  - apply N. apply (unique_1_const zs L2); assumption.
  - destruct (NC c Hc) as [x [y [Hx [Hy N]]]]. apply N. apply (unique_1_const c L1); assumption.
Qed.

Lemma early_true c : In c cols -> (forall x y, In x c -> In y c -> x = y) ->
  (forall x y, In x zs -> In y zs -> x = y) -> early vars zs = true.
Proof using HL Hz HN.
  intros Hc Cc Cz. apply existsb_exists. exists (A1 c). split; [apply in_map; exact Hc|].
  apply Nat.eqb_eq. cbn [nlevels]. rewrite (const_unique_1 c), (const_unique_1 zs); auto.
  - intros E. rewrite E in Hz. simpl in Hz. clear -Hz HN. lia.
  - intros ->. unfold all_len in HL. rewrite Forall_forall in HL. specialize (HL [] Hc). simpl in HL. clear -HL HN. lia.
Qed.

Lemma cmi_nd_general b mm : valid_base b -> cols <> [] ->
  (Z.of_nat n ^ Z.of_nat (Nat.max 2 (length cols)) < 2 ^ 64)%Z -> cmi_nontrivial ->
  (match mm with Some bb => valid_base bb | None => True end) ->
  cmi_global b mm vars (A1 zs) =
  Ok (CMIn n cols zs / unit_of b +
      match mm with
      | Some bb => (sumf (fun c => mmc (combine c zs)) cols - mmc (rows_of 0%Z n (cols ++ [zs])) - mmc zs) / unit_of bb
      | None => 0 end).
Proof using HL Hz HN.
  intros V NE SM NT VB.
  assert (Hk : (1 <= k)%nat) by (rewrite map_length; destruct cols; [congruence|simpl; lia]).
  rewrite (cmi_global_ok vars zs n HLv Hz HN b mm V Hk).
  - rewrite cmi_value_1d. unfold add_corr. destruct mm as [bb|]; [|f_equal; ring].
    rewrite cmi_corr_1d by exact VB. reflexivity.
  - unfold cmi_small. rewrite map_length. exact SM.
  - apply early_false. exact NT.
Qed.

Lemma cmi_local_general b mm : valid_base b -> cols <> [] -> cmi_nontrivial ->
  (match mm with Some bb => valid_base bb | None => True end) ->
  exists ls, cmi_local b mm vars (A1 zs) = Ok ls /\ length ls = n /\
  mean ls = CMIn n cols zs / unit_of b +
      match mm with
      | Some bb => (sumf (fun c => mmc (combine c zs)) cols - mmc (rows_of 0%Z n (cols ++ [zs])) - mmc zs) / unit_of bb
      | None => 0 end.
Proof using HL Hz HN.
  intros V NE NT VB.
  assert (Hk : (1 <= k)%nat) by (rewrite map_length; destruct cols; [congruence|simpl; lia]).
  rewrite (cmi_local_ok vars zs n HLv Hz HN b mm V Hk) by (apply early_false; exact NT).
  pose proof (mean_Ct vars zs n HN (unit_of b)) as MC. rewrite cmi_value_1d in MC.
  destruct mm as [bb|].
  2:{ eexists. split; [reflexivity|]. split; [rewrite map_length, seq_length; reflexivity|]. rewrite MC. ring. }
  rewrite cmi_corr_1d by exact VB. cbn [bind].
  eexists. split; [reflexivity|]. split; [rewrite !map_length, seq_length; reflexivity|].
  assert (PN : 0 < INR n) by (apply INR_pos; exact HN).
  set (K := _ / unit_of bb).
  match goal with |- mean (map ?f ?m) = _ => assert (EM : mean (map f m) = mean m + K) end.
  { unfold mean. rewrite map_length. unfold sumR. rewrite sumf_map, sumf_plus, sumf_const, map_length, seq_length.
    field. lra. }
  rewrite EM, MC. reflexivity.
Qed.

Lemma cmi_early b mm c : In c cols -> (forall x y, In x c -> In y c -> x = y) ->
  (forall x y, In x zs -> In y zs -> x = y) ->
  cmi_global b mm vars (A1 zs) = Ok 0 /\ cmi_local b mm vars (A1 zs) = Ok (repeat 0 n).
Proof using HL Hz HN.
  intros Hc Cc Cz. pose proof (early_true c Hc Cc Cz) as E. split.
  - unfold cmi_global. rewrite (coo_of_ok al n (al_len vars zs n HLv Hz) (al_ne vars zs)). cbn [bind].
    rewrite ndim_k1. rewrite (early_eq vars zs), E. reflexivity.
  - unfold cmi_local. rewrite (coo_of_ok al n (al_len vars zs n HLv Hz) (al_ne vars zs)). cbn [bind].
    rewrite ndim_k1. rewrite (early_eq vars zs), E.
    assert (EH : arr_len (hd (A1 []) vars) = n).
    { pose proof HLv as Q. destruct cols as [|a r]; [destruct Hc|]. inversion Q. assumption. }
    rewrite EH. reflexivity.
Qed.
End Conv.

(** two variables *)
Lemma rows_of_3 (xs ys zs : list Z) n : length xs = n -> length ys = n -> length zs = n ->
  same_partition (rows_of 0%Z n [xs; ys; zs]) (combine (combine xs ys) zs).
Proof.
  intros Hx Hy Hz. split.
  - rewrite rows_of_length, !combine_length. lia.
  - intros i j dx [[d1 d2] d3] Hi Hj. rewrite rows_of_length in *. unfold rows_of.
    rewrite !nth_map_seq by assumption. rewrite !combine_nth by (rewrite ?combine_length; lia). cbn [map].
    rewrite (nth_indep xs 0%Z d1), (nth_indep ys 0%Z d2), (nth_indep zs 0%Z d3),
      (nth_indep xs 0%Z d1), (nth_indep ys 0%Z d2), (nth_indep zs 0%Z d3) by lia.
    split; intros E; injection E; intros; congruence.
Qed.

Lemma CMIn_2 (xs ys zs : list Z) n : length xs = n -> length ys = n -> length zs = n ->
  CMIn n [xs; ys] zs = CMI xs ys zs.
Proof.
  intros Hx Hy Hz. unfold CMIn, CMI. cbn [app]. rewrite (Ent_partition _ _ (rows_of_3 xs ys zs n Hx Hy Hz)).
  simpl. ring.
Qed.

Lemma CMI_const_cond (xs ys zs : list Z) :
  length xs = length ys -> length xs = length zs -> xs <> [] ->
  (forall x y, In x zs -> In y zs -> x = y) -> CMI xs ys zs = MI xs ys.
Proof.
  intros L1 L2 NE Cz. unfold CMI, MI.
  assert (NEz : zs <> []) by (intros ->; destruct xs; [congruence|discriminate]).
  assert (G : forall A (E : EqDec A) (ws : list A), length ws = length zs -> Ent (combine ws zs) = Ent ws).
  { intros A E ws Lw. apply Ent_partition. split; [rewrite combine_length; lia|].
    intros i j [d1 d2] dw Hi Hj. rewrite combine_length in *. rewrite !combine_nth by exact Lw.
    rewrite (nth_indep ws dw d1), (nth_indep ws dw d1) by lia.
    rewrite pair_equal_spec. split; [tauto|]. intros E1. split; [exact E1|].
    apply Cz; apply nth_In; lia. }
  rewrite !G by (rewrite ?combine_length; lia). rewrite (proj2 (Ent_zero_iff zs NEz) Cz). ring.
Qed.

Lemma mmc_const {A} `{EqDec A} `{Cmp A} (xs : list A) : xs <> [] -> (forall x y, In x xs -> In y xs -> x = y) -> mmc xs = 0.
Proof.
  intros NE Hc. unfold mmc. rewrite <- unique_length, const_unique_1 by assumption. simpl. unfold Rdiv. ring.
Qed.

Lemma mmc_partition {A B} `{EqDec A} `{EqDec B} (xs : list A) (ys : list B) :
  same_partition xs ys -> mmc xs = mmc ys.
Proof.
  intros P. unfold mmc. rewrite (distinct_length_partition xs ys P). destruct P as [L _]. rewrite L. reflexivity.
Qed.

Lemma const_pair_partition {A B} (ws : list A) (zs : list B) :
  length ws = length zs -> (forall x y, In x zs -> In y zs -> x = y) -> same_partition (combine ws zs) ws.
Proof.
  intros Lw Cz. split; [rewrite combine_length; lia|].
  intros i j [d1 d2] dw Hi Hj. rewrite combine_length in *. rewrite !combine_nth by exact Lw.
  rewrite (nth_indep ws dw d1), (nth_indep ws dw d1) by lia.
  rewrite pair_equal_spec. split; [tauto|]. intros E1. split; [exact E1|].
  apply Cz; apply nth_In; lia.
Qed.
Lemma const_pair_partition_l {A B} (ws : list A) (zs : list B) :
  length ws = length zs -> (forall x y, In x ws -> In y ws -> x = y) -> same_partition (combine ws zs) zs.
Proof.
  intros Lw Cz. split; [rewrite combine_length; lia|].
  intros i j [d1 d2] dw Hi Hj. rewrite combine_length in *. rewrite !combine_nth by exact Lw.
  rewrite (nth_indep zs dw d2), (nth_indep zs dw d2) by lia.
  rewrite pair_equal_spec. split; [tauto|]. intros E1. split; [|exact E1].
  apply Cz; apply nth_In; lia.
Qed.

Lemma same_partition_trans {A B C} (xs : list A) (ys : list B) (zs : list C) :
  same_partition xs ys -> same_partition ys zs -> same_partition xs zs.
Proof.
  intros [L1 P1] [L2 P2]. split; [congruence|]. intros i j dx dz Hi Hj.
  destruct ys as [|y ys'] eqn:E; [simpl in L1; lia|]. rewrite <- E in *.
  rewrite (P1 i j dx y Hi Hj). apply P2; lia.
Qed.

Lemma const_dec (xs : list Z) : {forall x y, In x xs -> In y xs -> x = y} + {exists x y, In x xs /\ In y xs /\ x <> y}.
Proof.
  destruct xs as [|a r]; [left; intros x y []|].
  destruct (Forall_Exists_dec (fun x => x = a) (fun x => Z.eq_dec x a) r) as [F|E].
  - left. rewrite Forall_forall in F.
    assert (G : forall x, In x (a :: r) -> x = a) by (intros x [<-|Hx]; auto).
    intros x y Hx Hy. rewrite (G x Hx), (G y Hy). reflexivity.
  - right. apply Exists_exists in E. destruct E as [x [Hx N]]. exists x, a. simpl. auto.
Qed.

Lemma length_pos_ne {A} (l : list A) : (0 < length l)%nat -> l <> [].
Proof. intros H E. rewrite E in H. simpl in H. lia. Qed.

(** the two-variable CMI, all cases *)
Lemma cmi2_general b mm xs ys zs : valid_base b ->
  length xs = length ys -> length xs = length zs -> (0 < length xs)%nat ->
  (Z.of_nat (length xs) < 2 ^ 32)%Z ->
  (match mm with Some bb => valid_base bb | None => True end) ->
  let v := CMI xs ys zs / unit_of b +
      match mm with
      | Some bb => (mmc (combine xs zs) + mmc (combine ys zs) - mmc (combine (combine xs ys) zs) - mmc zs) / unit_of bb
      | None => 0 end in
  cmi_global b mm [A1 xs; A1 ys] (A1 zs) = Ok v /\
  exists ls, cmi_local b mm [A1 xs; A1 ys] (A1 zs) = Ok ls /\ length ls = length xs /\ mean ls = v.
Proof.
  intros V L1 L2 HN HS VB v. set (n := length xs) in *.
  assert (HL : all_len n [xs; ys]) by (repeat constructor; auto).
  assert (Lz : length zs = n) by auto.
  assert (SM : (Z.of_nat n ^ Z.of_nat (Nat.max 2 (length [xs; ys])) < 2 ^ 64)%Z).
  { cbn [length]. change (Z.of_nat (Nat.max 2 2)) with 2%Z. rewrite Z.pow_2_r.
    change (2 ^ 64)%Z with (2 ^ 32 * 2 ^ 32)%Z. nia. }
  assert (NEx : xs <> []) by (apply length_pos_ne; exact HN).
  assert (NEy : ys <> []) by (apply length_pos_ne; rewrite <- L1; exact HN).
  assert (NEz : zs <> []) by (apply length_pos_ne; rewrite Lz; exact HN).
  assert (NTc : cmi_nontrivial [xs; ys] zs -> cmi_global b mm [A1 xs; A1 ys] (A1 zs) = Ok v /\
    exists ls, cmi_local b mm [A1 xs; A1 ys] (A1 zs) = Ok ls /\ length ls = n /\ mean ls = v).
  { intros NT. pose proof (cmi_nd_general [xs; ys] zs n HL Lz HN b mm V ltac:(discriminate) SM NT VB) as G1.
    pose proof (cmi_local_general [xs; ys] zs n HL Lz HN b mm V ltac:(discriminate) NT VB) as G2.
    cbn [map] in G1, G2. rewrite (CMIn_2 xs ys zs n eq_refl (eq_sym L1) Lz) in G1, G2.
    cbn [sumf app] in G1, G2. rewrite (mmc_partition _ _ (rows_of_3 xs ys zs n eq_refl (eq_sym L1) Lz)) in G1, G2.
    assert (EV : v = CMI xs ys zs / unit_of b + match mm with
       | Some bb => (mmc (combine xs zs) + (mmc (combine ys zs) + 0) - mmc (combine (combine xs ys) zs) - mmc zs) / unit_of bb
       | None => 0 end) by (unfold v; destruct mm; [rewrite Rplus_0_r|]; reflexivity).
    rewrite EV. split; assumption. }
  destruct (const_dec zs) as [Cz|NCz]; [|apply NTc; left; exact NCz].
  assert (Trivial : forall c, In c [xs; ys] -> (forall x y, In x c -> In y c -> x = y) -> v = 0 ->
     cmi_global b mm [A1 xs; A1 ys] (A1 zs) = Ok v /\
     exists ls, cmi_local b mm [A1 xs; A1 ys] (A1 zs) = Ok ls /\ length ls = n /\ mean ls = v).
  { intros c Hc Cc E0. destruct (cmi_early [xs; ys] zs n HL Lz HN b mm c Hc Cc Cz) as [G1 G2].
    cbn [map] in G1, G2. rewrite E0. split; [exact G1|]. exists (repeat 0 n). split; [exact G2|].
    split; [apply repeat_length|apply mean_repeat0]. }
  assert (P1 : same_partition (combine xs zs) xs) by (apply const_pair_partition; auto).
  assert (P2 : same_partition (combine ys zs) ys) by (apply const_pair_partition; auto; lia).
  assert (P3 : same_partition (combine (combine xs ys) zs) (combine xs ys))
    by (apply const_pair_partition; auto; rewrite combine_length; lia).
  assert (Vz : v = MI xs ys / unit_of b + match mm with
      | Some bb => (mmc xs + mmc ys - mmc (combine xs ys)) / unit_of bb | None => 0 end).
  { unfold v. rewrite CMI_const_cond by auto.
    rewrite (mmc_partition _ _ P1), (mmc_partition _ _ P2), (mmc_partition _ _ P3), (mmc_const zs NEz Cz).
    destruct mm; [|reflexivity]. do 2 f_equal. ring. }
  destruct (const_dec xs) as [Cx|NCx].
  - apply (Trivial xs); [left; reflexivity|exact Cx|]. rewrite Vz, MI_const_l by auto.
    rewrite (mmc_partition (combine xs ys) ys) by (apply const_pair_partition_l; auto).
    rewrite (mmc_const xs NEx Cx). unfold Rdiv. destruct mm; ring.
  - destruct (const_dec ys) as [Cy|NCy].
    + apply (Trivial ys); [right; left; reflexivity|exact Cy|]. rewrite Vz, MI_sym, MI_const_l by auto.
      rewrite (mmc_partition (combine xs ys) xs) by (apply const_pair_partition; auto).
      rewrite (mmc_const ys NEy Cy). unfold Rdiv. destruct mm; ring.
    + apply NTc. right. intros c [<-|[<-|[]]]; assumption.
Qed.
