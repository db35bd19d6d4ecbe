(** Proofs: API-level MI/CMI results in terms of the specification. *)
From Coq Require Import Reals Lra Lia List ZArith Arith Bool Permutation.
From Verif Require Import Res RSum Spec Info Info2 Ord MBase MData MEntropy MMI SpecBase PBase PEntropy PCoo PMI PMI2 PMI3 PCMI.
Import ListNotations.
Local Open Scope R_scope.

(** ** number of distinct values depends only on the partition *)
Lemma distinct_length_partition {A B} `{EqDec A} `{EqDec B} (xs : list A) (ys : list B) :
  same_partition xs ys -> length (distinct xs) = length (distinct ys).
Proof.
  intros [L P]. destruct xs as [|x xs'] eqn:Ex; [destruct ys; [reflexivity|discriminate]|].
  destruct ys as [|y ys'] eqn:Ey; [discriminate|]. rewrite <- Ex, <- Ey in *.
  apply INR_eq.
  rewrite (list_as_map x xs (length xs) eq_refl), (list_as_map y ys (length xs) (eq_sym L)).
  rewrite <- !sum_inv_cnt. apply sumf_ext. intros s Hs. apply in_seq in Hs. f_equal.
  apply (cnt_partition (seq 0 (length xs)) (fun i => nth i xs x) (fun i => nth i ys y) s).
  intros t Ht. apply in_seq in Ht. apply P; lia.
Qed.

Lemma distinct_length_map {S A B} `{EqDec A} `{EqDec B} (l : list S) (f : S -> A) (g : S -> B) :
  (forall s t, In s l -> In t l -> (f t = f s <-> g t = g s)) ->
  length (distinct (map f l)) = length (distinct (map g l)).
Proof.
  intros P. apply INR_eq. rewrite <- !sum_inv_cnt. apply sumf_ext. intros s Hs. f_equal.
  apply cnt_partition. intros t Ht. apply P; assumption.
Qed.

(** ** independence *)
Section Indep.
Context {A B : Type} `{EqDec A} `{EqDec B}.
Variables (xs : list A) (ys : list B).
Hypothesis L : length xs = length ys.
Hypothesis NE : xs <> [].

Lemma MI_zero_iff :
  MI xs ys = 0 <->
  (forall a b, (count (combine xs ys) (a, b) * length xs = count xs a * count ys b)%nat).
Proof using L NE.
  destruct xs as [|x0 xs'] eqn:Ex; [congruence|]. destruct ys as [|y0 ys'] eqn:Ey; [discriminate|].
  rewrite <- Ex, <- Ey in *. set (n := length xs) in *.
  assert (Hn : (0 < n)%nat) by (unfold n; rewrite Ex; simpl; lia).
  assert (PNn : 0 < INR n) by (apply INR_pos; exact Hn).
  set (l := seq 0 n). set (Xf := fun t => nth t xs x0). set (Yf := fun t => nth t ys y0).
  assert (MX : map Xf l = xs) by (symmetry; apply list_as_map; reflexivity).
  assert (MY : map Yf l = ys) by (symmetry; apply list_as_map; unfold n; auto).
  assert (MXY : map (pair Xf Yf) l = combine xs ys).
  { rewrite <- MX, <- MY. symmetry. apply combine_map. }
  assert (Cx : forall a, cnt l Xf a = INR (count xs a)) by (intros; rewrite cnt_count, MX; reflexivity).
  assert (Cy : forall b, cnt l Yf b = INR (count ys b)) by (intros; rewrite cnt_count, MY; reflexivity).
  assert (Cxy : forall a b, cnt l (pair Xf Yf) (a, b) = INR (count (combine xs ys) (a, b))).
  { intros; rewrite cnt_count, MXY; reflexivity. }
  set (U := fun _ : nat => tt).
  assert (C1 : forall a, cnt l (pair Xf U) (a, tt) = cnt l Xf a).
  { intros a. unfold cnt. apply sumf_ext. intros s _. unfold pair, eqb. f_equal.
    destruct (eq_dec (Xf s, U s) (a, tt)), (eq_dec (Xf s) a); try reflexivity; unfold U in *; congruence. }
  assert (C2 : forall b, cnt l (pair Yf U) (b, tt) = cnt l Yf b).
  { intros a. unfold cnt. apply sumf_ext. intros s _. unfold pair, eqb. f_equal.
    destruct (eq_dec (Yf s, U s) (a, tt)), (eq_dec (Yf s) a); try reflexivity; unfold U in *; congruence. }
  assert (C3 : forall a b, cnt l (pair (pair Xf Yf) U) (a, b, tt) = cnt l (pair Xf Yf) (a, b)).
  { intros a b. unfold cnt. apply sumf_ext. intros s _. unfold pair, eqb. f_equal.
    destruct (eq_dec ((Xf s, Yf s), U s) ((a, b), tt)), (eq_dec (Xf s, Yf s) (a, b)); try reflexivity; unfold U in *; congruence. }
  assert (C4 : cnt l U tt = INR n).
  { unfold cnt, U. rewrite (sumf_ext _ (fun _ => 1)) by reflexivity. rewrite sumf_const.
    unfold l. rewrite seq_length. ring. }
  assert (EM : MI xs ys = cmi l Xf Yf U).
  { rewrite <- MX at 1. rewrite <- MY at 1. rewrite cmi_entropies. unfold MI. rewrite combine_map.
    assert (lne : l <> []) by (unfold l; destruct n; [lia|discriminate]).
    rewrite !Ent_map by exact lne. rewrite !(hs_pair_const l) by (intros; reflexivity).
    rewrite (hs_const l U tt lne) by reflexivity. unfold pair. ring. }
  rewrite EM. split.
  - intros E a b.
    destruct (in_dec eq_dec a xs) as [Ha|Na].
    2:{ assert (count xs a = 0%nat) by (apply count_occ_not_In; exact Na).
        assert (count (combine xs ys) (a, b) = 0%nat).
        { apply count_occ_not_In. intros C. apply Na. eapply in_combine_l. exact C. } nia. }
    destruct (in_dec eq_dec b ys) as [Hb|Nb].
    2:{ assert (count ys b = 0%nat) by (apply count_occ_not_In; exact Nb).
        assert (count (combine xs ys) (a, b) = 0%nat).
        { apply count_occ_not_In. intros C. apply Nb. eapply in_combine_r. exact C. } nia. }
    destruct (In_nth xs a x0 Ha) as [t [Ht Et]]. destruct (In_nth ys b y0 Hb) as [u [Hu Eu]].
    assert (It : In t l) by (apply in_seq; unfold n; lia).
    assert (Iu : In u l) by (apply in_seq; unfold n; lia).
    pose proof (cmi_zero_full l Xf Yf U E t u It Iu eq_refl) as NZ.
    change (U t) with tt in NZ. unfold Xf in NZ at 2. unfold Yf in NZ at 2. rewrite Et, Eu, C3 in NZ.
    assert (exists s, In s l /\ Xf s = a /\ Yf s = b) as [s [Is [Es1 Es2]]].
    { rewrite Cxy in NZ. assert (In (a, b) (combine xs ys)).
      { apply (count_occ_In eq_dec). unfold count in NZ. destruct (count_occ eq_dec (combine xs ys) (a, b)); [simpl in NZ; lra|lia]. }
      rewrite <- MXY in H1. apply in_map_iff in H1. destruct H1 as [s [Es Is]]. exists s. split; [exact Is|].
      unfold pair in Es. injection Es. auto. }
    pose proof (cmi_zero_pt l Xf Yf U E s Is) as PT. unfold cmi_pt in PT.
    change (U s) with tt in PT. rewrite Es1, Es2, C1, C2, C3, C4 in PT.
    assert (0 < cnt l Xf a) by (rewrite <- Es1; apply cnt_self_pos; exact Is).
    assert (0 < cnt l Yf b) by (rewrite <- Es2; apply cnt_self_pos; exact Is).
    apply INR_eq. rewrite !mult_INR, <- Cx, <- Cy, <- Cxy.
    apply (Rmult_eq_reg_r (/ (cnt l Xf a * cnt l Yf b))).
    + unfold Rdiv in PT. rewrite PT. symmetry. apply Rinv_r. nra.
    + apply Rinv_neq_0_compat. nra.
  - intros Hi. unfold cmi. rewrite (sumf_ext _ (fun _ => 0)); [rewrite sumf_zero; unfold Rdiv; ring|].
    intros s Hs. unfold cmi_pt. change (U s) with tt. rewrite C1, C2, C3, C4, Cxy.
    pose proof (Hi (Xf s) (Yf s)) as E. apply (f_equal INR) in E. rewrite !mult_INR in E.
    fold n in E. rewrite <- Cx, <- Cy in E. rewrite E.
    pose proof (cnt_self_pos l Xf s Hs). pose proof (cnt_self_pos l Yf s Hs).
    unfold Rdiv. rewrite Rinv_r by nra. apply ln_1.
Qed.
End Indep.

(** ** API level: mutual information *)
Lemma mi_init_0 vars n : (2 <= length vars)%nat -> Forall (fun a => arr_len a = n) vars ->
  mi_init (Some 0%Z) vars = Ok vars.
Proof.
  intros Hk HL. unfold mi_init. destruct (Nat.ltb_spec (length vars) 2); [lia|].
  rewrite Z.eqb_refl, andb_false_r.
  assert (F : forallb (fun a => Nat.eqb (arr_len a) (arr_len (hd (A1 []) vars))) vars = true).
  { apply forallb_forall. intros a Ha. apply Nat.eqb_eq. rewrite Forall_forall in HL.
    rewrite (HL a Ha). symmetry. apply HL. destruct vars; [simpl in Hk; lia|left; reflexivity]. }
  rewrite F. reflexivity.
Qed.

Lemma nlevels_A1 xs : nlevels (A1 xs) = length (distinct xs).
Proof. cbn [nlevels]. apply unique_length. Qed.

(** joint levels *)
Lemma joint_levels vars N : Forall (fun a => arr_len a = N) vars -> vars <> [] -> (0 < N)%nat ->
  length (unique (coo_rows vars)) = length (distinct (rows_of [] N (map arr_rows vars))).
Proof.
  intros HL NE HN. rewrite unique_length, (coo_rows_eq vars N HL NE). unfold rows_of.
  apply distinct_length_map. intros s t Hs Ht. apply in_seq in Hs. apply in_seq in Ht.
  rewrite !map_map. apply (rowc_partition vars N HL); lia.
Qed.

Lemma distinct_rows_singletons n cols : all_len n cols ->
  length (distinct (rows_of [] n (map arr_rows (map A1 cols)))) = length (distinct (rows_of 0%Z n cols)).
Proof.
  intros HL. unfold rows_of. apply distinct_length_map. intros s t Hs Ht. apply in_seq in Hs. apply in_seq in Ht.
  rewrite !map_map. unfold all_len in HL. induction HL as [|c cs Hc HL IH]; [simpl; tauto|].
  cbn [map]. assert (E : forall t, (t < n)%nat -> nth t (arr_rows (A1 c)) [] = [nth t c 0%Z]).
  { intros u Hu. apply (arr_at_A1 c u). lia. }
  rewrite !E by lia. split; intros Eq; injection Eq as E0 E1; f_equal; try congruence; apply IH; exact E1.
Qed.

Lemma rows_of_2_distinct (xs ys : list Z) n : length xs = n -> length ys = n ->
  length (distinct (rows_of 0%Z n [xs; ys])) = length (distinct (combine xs ys)).
Proof.
  intros Hx Hy. apply distinct_length_partition. split.
  - rewrite rows_of_length, combine_length. lia.
  - intros i j dx [d1 d2] Hi Hj. rewrite rows_of_length in *. unfold rows_of.
    rewrite !nth_map_seq by assumption. rewrite !combine_nth by lia. cbn [map].
    rewrite (nth_indep xs 0%Z d1), (nth_indep ys 0%Z d2), (nth_indep xs 0%Z d1), (nth_indep ys 0%Z d2) by lia.
    split; intros E; injection E; intros; congruence.
Qed.

(** the Miller-Madow correction term of a sample: (K - 1) / (2 N) *)
Definition mmc {A} `{EqDec A} (xs : list A) : R := (INR (length (distinct xs)) - 1) / (2 * INR (length xs)).

Lemma mi2_general b xs ys mm :
  valid_base b -> length xs = length ys -> (0 < length xs)%nat -> (Z.of_nat (length xs) < 2 ^ 32)%Z ->
  (match mm with Some bb => valid_base bb | None => True end) ->
  mi_global b mm [A1 xs; A1 ys] =
  Ok (Rmax (MI xs ys / unit_of b) 0 +
      match mm with
      | Some bb => (mmc xs + mmc ys - mmc (combine xs ys)) / unit_of bb
      | None => 0 end).
Proof.
  intros V L HN HS VB. cbn [mi_global forallb is_1d andb].
  set (N := length xs) in *. assert (PN : 0 < INR N) by (apply INR_pos; exact HN).
  assert (LC : length (combine xs ys) = N) by (rewrite combine_length; lia).
  assert (NEx : xs <> []) by (intros ->; simpl in N; unfold N in HN; lia).
  assert (NEy : ys <> []) by (intros ->; simpl in L; lia).
  assert (Corr : forall bb, valid_base bb ->
     (INR (length (distinct xs)) + INR (length (distinct ys)) - 2 - INR (length (distinct (combine xs ys))) + 1) / (2 * INR N) / unit_of bb
     = (mmc xs + mmc ys - mmc (combine xs ys)) / unit_of bb).
  { intros bb Vb. unfold mmc. rewrite LC. fold N. rewrite <- L. f_equal. field. lra. }
  destruct (Nat.eq_dec (length (unique xs)) 1) as [Ex|Nx];
  [|destruct (Nat.eq_dec (length (unique ys)) 1) as [Ey|Ny]].
  - (* xs constant *)
    assert (Cx := unique_1_const xs Ex).
    assert (E0 : MI xs ys = 0) by (apply MI_const_l; assumption).
    rewrite E0. unfold Rdiv at 1. rewrite Rmult_0_l, Rmax_left by lra.
    assert (E1 : mi_global_2d_int b mm (A1 xs) (A1 ys) = Ok 0).
    { unfold mi_global_2d_int.
      rewrite (coo_of_ok [A1 xs; A1 ys] N) by (try discriminate; repeat constructor; simpl; auto; lia).
      cbn [bind]. unfold marginal at 1. rewrite map_length, seq_length.
      unfold the_coo at 1. cbn [coo_shape nth map nlevels]. rewrite Ex. reflexivity. }
    rewrite E1. f_equal. destruct mm as [bb|]; [|ring].
    rewrite <- Corr by exact VB.
    assert (D : length (distinct (combine xs ys)) = length (distinct ys)).
    { apply distinct_length_partition. split; [lia|]. intros i j [d1 d2] dy Hi Hj.
      rewrite LC in *. rewrite !combine_nth by exact L.
      rewrite (nth_indep ys dy d2), (nth_indep ys dy d2) by lia.
      rewrite pair_equal_spec. split; [tauto|]. intros E. split; [|exact E].
      apply Cx; apply nth_In; fold N; lia. }
    assert (K1 : INR (length (distinct xs)) = 1) by (rewrite <- unique_length, Ex; reflexivity).
    rewrite D, K1. unfold Rdiv. ring.
  - assert (Cy := unique_1_const ys Ey).
    assert (E0 : MI xs ys = 0).
    { rewrite MI_sym by exact L. apply MI_const_l; auto. }
    rewrite E0. unfold Rdiv at 1. rewrite Rmult_0_l, Rmax_left by lra.
    assert (E1 : mi_global_2d_int b mm (A1 xs) (A1 ys) = Ok 0).
    { unfold mi_global_2d_int.
      rewrite (coo_of_ok [A1 xs; A1 ys] N) by (try discriminate; repeat constructor; simpl; auto; lia).
      cbn [bind].
      assert (L1 : length (marginal (the_coo [A1 xs; A1 ys]) 1) = 1%nat).
      { unfold marginal. rewrite map_length, seq_length.
        unfold the_coo at 1. cbn [coo_shape nth map nlevels]. exact Ey. }
      rewrite L1. rewrite Nat.eqb_refl, orb_true_r. reflexivity. }
    rewrite E1. f_equal. destruct mm as [bb|]; [|ring].
    rewrite <- Corr by exact VB.
    assert (D : length (distinct (combine xs ys)) = length (distinct xs)).
    { apply distinct_length_partition. split; [exact LC|]. intros i j [d1 d2] dx Hi Hj.
      rewrite LC in *. rewrite !combine_nth by exact L.
      rewrite (nth_indep xs dx d1), (nth_indep xs dx d1) by (fold N; lia).
      rewrite pair_equal_spec. split; [tauto|]. intros E. split; [exact E|].
      apply Cy; apply nth_In; lia. }
    assert (K1 : INR (length (distinct ys)) = 1) by (rewrite <- unique_length, Ey; reflexivity).
    rewrite D, K1. unfold Rdiv. ring.
  - rewrite (two_int_ok (A1 xs) (A1 ys) N) by (auto; simpl; fold N; auto; lia).
    assert (HL2 : all_len N [xs; ys]) by (repeat constructor; auto).
    pose proof (mi_value_1d N [xs; ys] ltac:(discriminate) HN HL2) as EV. cbn [map] in EV.
    rewrite EV, TotalCorr_2 by (auto; lia).
    unfold add_corr. destruct mm as [bb|]; [|f_equal; ring].
    unfold mm_mi_corr. rewrite np_div_ok by lra. cbn [bind]. rewrite to_base_ok by exact VB. cbn [bind].
    f_equal. f_equal. rewrite <- Corr by exact VB. f_equal. f_equal.
    rewrite (joint_levels [A1 xs; A1 ys] N) by (auto; try discriminate; repeat constructor; simpl; auto; lia).
    change [A1 xs; A1 ys] with (map A1 [xs; ys]). rewrite (distinct_rows_singletons N [xs; ys] HL2).
    rewrite rows_of_2_distinct by (auto; lia).
    cbn [map nlevels sumf length]. rewrite !unique_length. simpl (INR 2). ring.
Qed.

Lemma mi_global_1d_nd b mm cols : (3 <= length cols)%nat ->
  mi_global b mm (map A1 cols) = mi_global_nd_int b mm (map A1 cols).
Proof.
  intros Hk. unfold mi_global.
  assert (F : forallb is_1d (map A1 cols) = true).
  { clear. induction cols; [reflexivity|exact IHcols]. }
  rewrite F. destruct cols as [|x [|y [|z r]]]; simpl in Hk; try lia. reflexivity.
Qed.

(** no column is constant *)
Definition no_constant (cols : list (list Z)) : Prop :=
  forall c, In c cols -> exists x y, In x c /\ In y c /\ x <> y.

Lemma no_constant_levels cols : no_constant cols ->
  existsb (fun a => Nat.eqb (nlevels a) 1) (map A1 cols) = false.
Proof.
  intros NC. apply not_true_iff_false. intros E. apply existsb_exists in E.
  destruct E as [a [Ha L1]]. apply in_map_iff in Ha. destruct Ha as [c [<- Hc]].
  apply Nat.eqb_eq in L1. destruct (NC c Hc) as [x [y [Hx [Hy N]]]]. apply N.
  apply (unique_1_const c L1); assumption.
Qed.

Lemma mi_nd_general b mm n cols :
  valid_base b -> (3 <= length cols)%nat -> all_len n cols -> (0 < n)%nat -> no_constant cols ->
  (Z.of_nat n ^ Z.of_nat (length cols) < 2 ^ 64)%Z ->
  (match mm with Some bb => valid_base bb | None => True end) ->
  mi_global b mm (map A1 cols) =
  Ok (TotalCorr 0%Z n cols / unit_of b +
      match mm with
      | Some bb => (sumf mmc cols - mmc (rows_of 0%Z n cols)) / unit_of bb
      | None => 0 end).
Proof.
  intros V Hk HL HN NC HB VB. rewrite mi_global_1d_nd by exact Hk.
  assert (NE : cols <> []) by (intros ->; simpl in Hk; lia).
  assert (NEm : map A1 cols <> []) by (destruct cols; [congruence|discriminate]).
  pose proof (all_len_arr n cols HL) as HLa.
  rewrite (nd_int_ok (map A1 cols) n HLa NEm HN b mm V).
  2:{ apply no_wrap_small; auto. rewrite map_length. exact HB. }
  2:{ apply no_constant_levels. exact NC. }
  rewrite mi_value_1d by assumption. unfold add_corr. destruct mm as [bb|]; [|f_equal; ring].
  assert (PN : 0 < INR n) by (apply INR_pos; exact HN).
  unfold mm_mi_corr. rewrite np_div_ok by lra. cbn [bind]. rewrite to_base_ok by exact VB. cbn [bind].
  f_equal. f_equal. f_equal. rewrite (joint_levels _ n HLa NEm HN), distinct_rows_singletons by exact HL.
  rewrite map_length, map_length. unfold mmc at 2. rewrite rows_of_length. rewrite map_map.
  rewrite (sumf_ext mmc (fun c => (INR (length (distinct c)) - 1) / (2 * INR n))).
  2:{ intros c Hc. unfold mmc. unfold all_len in HL. rewrite Forall_forall in HL. rewrite (HL c Hc). reflexivity. }
  rewrite sumf_div, sumf_minus, sumf_const. rewrite sumf_map.
  rewrite (sumf_ext (fun x => INR (nlevels (A1 x))) (fun x => INR (length (distinct x)))).
  2:{ intros c _. rewrite nlevels_A1. reflexivity. }
  field. lra.
Qed.

(** early return *)
Lemma mi_nd_early b mm n cols c :
  (3 <= length cols)%nat -> all_len n cols -> (0 < n)%nat ->
  In c cols -> (forall x y, In x c -> In y c -> x = y) ->
  mi_global b mm (map A1 cols) = Ok 0.
Proof.
  intros Hk HL HN Hc Cc. rewrite mi_global_1d_nd by exact Hk.
  assert (NEm : map A1 cols <> []) by (destruct cols; [simpl in Hk; lia|discriminate]).
  pose proof (all_len_arr n cols HL) as HLa.
  unfold mi_global_nd_int. rewrite (coo_of_ok _ n HLa NEm). cbn [bind].
  rewrite (no_early _ n HLa NEm HN).
  assert (E : existsb (fun a => Nat.eqb (nlevels a) 1) (map A1 cols) = true).
  { apply existsb_exists. exists (A1 c). split; [apply in_map; exact Hc|]. apply Nat.eqb_eq.
    apply const_unique_1; [|exact Cc]. intros ->. unfold all_len in HL. rewrite Forall_forall in HL.
    specialize (HL [] Hc). simpl in HL. lia. }
  rewrite E. reflexivity.
Qed.

(** local values, any number >= 2 of 1-D variables *)
Lemma mi_local_general b mm n cols :
  valid_base b -> cols <> [] -> all_len n cols -> (0 < n)%nat -> no_constant cols ->
  (match mm with Some bb => valid_base bb | None => True end) ->
  exists ls, mi_local b mm (map A1 cols) = Ok ls /\ length ls = n /\
    mean ls = TotalCorr 0%Z n cols / unit_of b +
      match mm with
      | Some bb => (sumf mmc cols - mmc (rows_of 0%Z n cols)) / unit_of bb
      | None => 0 end.
Proof.
  intros V NE HL HN NC VB.
  assert (NEm : map A1 cols <> []) by (destruct cols; [congruence|discriminate]).
  pose proof (all_len_arr n cols HL) as HLa.
  rewrite (mi_local_ok (map A1 cols) n HLa NEm HN b mm V) by (apply no_constant_levels; exact NC).
  pose proof (mean_Gt (map A1 cols) n HLa NEm HN (unit_of b)) as MG.
  rewrite mi_value_1d in MG by assumption.
  destruct mm as [bb|].
  2:{ eexists. split; [reflexivity|]. split; [rewrite map_length, seq_length; reflexivity|].
      rewrite MG. ring. }
  assert (PN : 0 < INR n) by (apply INR_pos; exact HN).
  unfold mm_mi_corr. rewrite np_div_ok by lra. cbn [bind]. rewrite to_base_ok by exact VB. cbn [bind].
  eexists. split; [reflexivity|]. split; [rewrite !map_length, seq_length; reflexivity|].
  set (K := _ / unit_of bb).
  match goal with |- mean (map ?f ?m) = _ =>
    assert (EM : mean (map f m) = mean m + K) end.
  { unfold mean. rewrite map_length. unfold sumR. rewrite sumf_map, sumf_plus, sumf_const, map_length, seq_length.
    field. lra. }
  rewrite EM, MG. f_equal. unfold K. f_equal.
  rewrite (joint_levels _ n HLa NEm HN), distinct_rows_singletons by exact HL.
  rewrite map_length, map_length. unfold mmc at 2. rewrite rows_of_length. rewrite map_map.
  rewrite (sumf_ext mmc (fun c => (INR (length (distinct c)) - 1) / (2 * INR n))).
  2:{ intros c Hc. unfold mmc. unfold all_len in HL. rewrite Forall_forall in HL. rewrite (HL c Hc). reflexivity. }
  rewrite sumf_div, sumf_minus, sumf_const. rewrite sumf_map.
  rewrite (sumf_ext (fun x => INR (nlevels (A1 x))) (fun x => INR (length (distinct x)))).
  2:{ intros c _. rewrite nlevels_A1. reflexivity. }
  field. lra.
Qed.

Lemma mi_local_early b mm n cols c :
  cols <> [] -> all_len n cols -> (0 < n)%nat ->
  In c cols -> (forall x y, In x c -> In y c -> x = y) ->
  mi_local b mm (map A1 cols) = Ok (repeat 0 n).
Proof.
  intros NE HL HN Hc Cc.
  assert (NEm : map A1 cols <> []) by (destruct cols; [congruence|discriminate]).
  pose proof (all_len_arr n cols HL) as HLa.
  unfold mi_local. rewrite (coo_of_ok _ n HLa NEm). cbn [bind].
  rewrite (no_early _ n HLa NEm HN).
  assert (E : existsb (fun a => Nat.eqb (nlevels a) 1) (map A1 cols) = true).
  { apply existsb_exists. exists (A1 c). split; [apply in_map; exact Hc|]. apply Nat.eqb_eq.
    apply const_unique_1; [|exact Cc]. intros ->. unfold all_len in HL. rewrite Forall_forall in HL.
    specialize (HL [] Hc). simpl in HL. lia. }
  rewrite E. rewrite (hd_len _ n HLa NEm). reflexivity.
Qed.

Lemma mean_repeat0 n : mean (repeat 0 n) = 0.
Proof.
  unfold mean, sumR. assert (E : forall k, sumf (fun x => x) (repeat 0 k) = 0).
  { induction k; simpl; [reflexivity|rewrite IHk; ring]. }
  rewrite E. unfold Rdiv. ring.
Qed.
