(** C13, C14, C08 in full: mutual information of integer arrays for every sample size and number of variables, including
    the 64-bit wrap-around of the products of marginal counts. *)
From Coq Require Import Reals Lra Lia List ZArith Arith Bool.
From Verif Require Import Res RSum Spec Info Info2 Ord MBase MData MMI SpecBase PBase PCoo PMI PMI2 PMI4 PMI5 PMI6 PCMI2 SpecWrap PWrap PropsKern2.
Import ListNotations.
Local Open Scope R_scope.

Lemma cell_product_pos n cols t : all_len n cols -> (t < n)%nat -> (1 <= cell_product cols t)%Z.
Proof.
  intros HL Ht. unfold cell_product. induction HL as [|c cs Hc HL IH]; [simpl; lia|]. cbn [map fold_right].
  assert (1 <= Z.of_nat (count c (nth t c 0%Z)))%Z; [|nia].
  assert (count c (nth t c 0%Z) > 0)%nat; [|lia]. unfold count. apply count_occ_In. apply nth_In. lia.
Qed.
Lemma low64_le z : (0 <= z)%Z -> (0 <= low64 z <= z)%Z.
Proof. intros H. unfold low64. pose proof (Z.mod_pos_bound z (2 ^ 64) ltac:(reflexivity)). pose proof (Z.mod_le z (2 ^ 64) H ltac:(reflexivity)). lia. Qed.
Lemma low64_eq z : (0 <= z)%Z -> (low64 z = z <-> (z < 2 ^ 64)%Z).
Proof.
  intros H. unfold low64. split; intros E; [|apply Z.mod_small; lia].
  pose proof (Z.mod_pos_bound z (2 ^ 64) ltac:(reflexivity)). lia.
Qed.
Lemma lost_term n cols t : all_len n cols -> (t < n)%nat -> low64 (cell_product cols t) <> 0%Z ->
  0 <= ln (IZR (cell_product cols t) / IZR (low64 (cell_product cols t))) /\
  (ln (IZR (cell_product cols t) / IZR (low64 (cell_product cols t))) = 0 <-> (cell_product cols t < 2 ^ 64)%Z).
Proof.
  intros HL Ht NZ. pose proof (cell_product_pos n cols t HL Ht) as P. set (z := cell_product cols t) in *.
  pose proof (low64_le z ltac:(lia)) as [A B]. assert (L0 : 0 < IZR (low64 z)) by (apply IZR_lt; lia).
  assert (Lz : 0 < IZR z) by (apply IZR_lt; lia). assert (LE : IZR (low64 z) <= IZR z) by (apply IZR_le; exact B).
  rewrite <- (low64_eq z) by lia. rewrite ln_div by assumption. split.
  - pose proof (ln_monotone (IZR (low64 z)) (IZR z) L0 LE). lra.
  - split; intros E.
    + apply eq_IZR. apply ln_inv; [exact L0|exact Lz|lra].
    + rewrite E. lra.
Qed.
Lemma lost_nonneg n cols : all_len n cols -> (0 < n)%nat -> (forall t, (t < n)%nat -> low64 (cell_product cols t) <> 0%Z) ->
  0 <= lost n cols /\ (lost n cols = 0 <-> forall t, (t < n)%nat -> (cell_product cols t < 2 ^ 64)%Z).
Proof.
  intros HL Hn NZ. assert (PN : 0 < INR n) by (apply INR_pos; exact Hn). unfold lost.
  set (f := fun t => ln (IZR (cell_product cols t) / IZR (low64 (cell_product cols t)))).
  assert (F0 : forall t, In t (seq 0 n) -> 0 <= f t).
  { intros t Ht. apply in_seq in Ht. apply (lost_term n cols t HL); [lia|apply NZ; lia]. }
  pose proof (sumf_nonneg f (seq 0 n) F0) as S0. split; [apply Rle_mult_inv_pos; assumption|]. split; intros E.
  - assert (Z0 : sumf f (seq 0 n) = 0) by (apply (Rmult_eq_reg_r (/ INR n)); [unfold Rdiv in E; lra|apply Rinv_neq_0_compat; lra]).
    intros t Ht. apply (lost_term n cols t HL Ht (NZ t Ht)). apply (sumf_zero_all f (seq 0 n) F0 Z0). apply in_seq. lia.
  - rewrite (sumf_ext f (fun _ => 0)); [rewrite sumf_zero; unfold Rdiv; ring|].
    intros t Ht. apply in_seq in Ht. apply (lost_term n cols t HL ltac:(lia) (NZ t ltac:(lia))). apply E. lia.
Qed.
Lemma forallb_low n cols : forallb (fun t => negb (Z.eqb (low64 (cell_product cols t)) 0)) (seq 0 n) = true <->
  (forall t, (t < n)%nat -> low64 (cell_product cols t) <> 0%Z).
Proof.
  rewrite forallb_forall. split; intros G t Ht.
  - specialize (G t ltac:(apply in_seq; lia)). apply negb_true_iff, Z.eqb_neq in G. exact G.
  - apply in_seq in Ht. apply negb_true_iff, Z.eqb_neq, G. lia.
Qed.

(** the value for three or more variables, none of them constant, for any number of samples: total correlation plus the
    mean logarithm of what the 64-bit products lost *)
Theorem C13_mi_value : forall b n cols, valid_base b -> (3 <= length cols)%nat -> all_len n cols -> (0 < n)%nat -> no_constant cols ->
  (forall t, (t < n)%nat -> low64 (cell_product cols t) <> 0%Z) ->
  mi_discrete b (Some 0%Z) (map A1 cols) = Ok ((TotalCorr 0%Z n cols + lost n cols) / unit_of b).
Proof.
  intros b n cols V Hk HL Hn NC NZ. rewrite (mi_nd_wrapped b n cols V Hk HL Hn NC), (proj2 (forallb_low n cols) NZ). reflexivity.
Qed.
(** it is the total correlation exactly when no product reaches 2^64 ... *)
Theorem C13_exact_iff : forall b n cols, valid_base b -> (3 <= length cols)%nat -> all_len n cols -> (0 < n)%nat -> no_constant cols ->
  (mi_discrete b (Some 0%Z) (map A1 cols) = Ok (TotalCorr 0%Z n cols / unit_of b) <->
   forall t, (t < n)%nat -> (cell_product cols t < 2 ^ 64)%Z).
Proof.
  intros b n cols V Hk HL Hn NC. pose proof (unit_neq0 b V) as U.
  assert (NZ' : (forall t, (t < n)%nat -> (cell_product cols t < 2 ^ 64)%Z) -> forall t, (t < n)%nat -> low64 (cell_product cols t) <> 0%Z).
  { intros G t Ht. pose proof (cell_product_pos n cols t HL Ht) as P. rewrite (proj2 (low64_eq (cell_product cols t) ltac:(lia)) (G t Ht)). lia. }
  rewrite (mi_nd_wrapped b n cols V Hk HL Hn NC).
  destruct (forallb _ (seq 0 n)) eqn:FA; [pose proof (proj1 (forallb_low n cols) FA) as FA'; clear FA; rename FA' into FA|].
  - destruct (lost_nonneg n cols HL Hn FA) as [_ L0]. rewrite <- L0. split; intros E.
    + assert (E' : (TotalCorr 0%Z n cols + lost n cols) / unit_of b = TotalCorr 0%Z n cols / unit_of b) by (inversion E; reflexivity).
      unfold Rdiv in E'. apply Rmult_eq_reg_r in E'; [lra|apply Rinv_neq_0_compat; exact U].
    + rewrite E, Rplus_0_r. reflexivity.
  - split; [discriminate|]. intros G. pose proof (proj2 (forallb_low n cols) (NZ' G)). congruence.
Qed.
(** ... and otherwise too large, or not a number *)
Theorem C13_never_below : forall b n cols v, big_base b -> (3 <= length cols)%nat -> all_len n cols -> (0 < n)%nat -> no_constant cols ->
  mi_discrete b (Some 0%Z) (map A1 cols) = Ok v -> TotalCorr 0%Z n cols / unit_of b <= v.
Proof.
  intros b n cols v B Hk HL Hn NC E. pose proof (big_valid b B) as V. rewrite (mi_nd_wrapped b n cols V Hk HL Hn NC) in E.
  destruct (forallb _ (seq 0 n)) eqn:FA; [pose proof (proj1 (forallb_low n cols) FA) as FA'; clear FA; rename FA' into FA|discriminate]. injection E as <-.
  destruct (lost_nonneg n cols HL Hn FA) as [L0 _]. pose proof (unit_pos b V B) as U.
  apply Rmult_le_compat_r; [apply Rlt_le, Rinv_0_lt_compat; exact U|lra].
Qed.

(** C14: when the mutual information of two or more variables is a number, for every input *)
Theorem C14_mi_finite_iff : forall b n cols, valid_base b -> (2 <= length cols)%nat -> all_len n cols -> (0 < n)%nat ->
  ((exists v, mi_discrete b (Some 0%Z) (map A1 cols) = Ok v) <->
   (exists c, In c cols /\ forall x y, In x c -> In y c -> x = y) \/
   (forall t, (t < n)%nat -> low64 (cell_product cols t) <> 0%Z)).
Proof.
  intros b n cols V Hk HL Hn.
  assert (D : no_constant cols \/ exists c, In c cols /\ forall x y, In x c -> In y c -> x = y).
  { clear -HL. induction cols as [|c cs IH]; [left; intros c []|].
    unfold all_len in HL. inversion HL; subst.
    destruct (const_dec c) as [C|NC]; [right; exists c; simpl; auto|].
    destruct IH as [IH|[d [Hd Cd]]]; [assumption| |right; exists d; simpl; auto].
    left. intros d [<-|Hd]; [exact NC|apply IH; exact Hd]. }
  assert (NCC : no_constant cols -> ~ exists c, In c cols /\ forall x y, In x c -> In y c -> x = y).
  { intros NC (c & Hc & C). destruct (NC c Hc) as (x & y & Hx & Hy & Q). apply Q, C; assumption. }
  destruct D as [NC|[c [Hc Cc]]].
  - assert (G : (exists v, mi_discrete b (Some 0%Z) (map A1 cols) = Ok v) <-> (forall t, (t < n)%nat -> low64 (cell_product cols t) <> 0%Z)).
    { destruct cols as [|xs [|ys [|zs r]]]; try (simpl in Hk; lia).
      - inversion HL as [|? ? Lx HL']; subst. inversion HL' as [|? ? Ly _]; subst.
        assert (Nx : nlevels (A1 xs) <> 1%nat).
        { intros E. cbn [nlevels] in E. destruct (NC xs ltac:(simpl; auto)) as (x & y & Hx & Hy & Q). apply Q. apply (unique_1_const xs E); assumption. }
        assert (Ny : nlevels (A1 ys) <> 1%nat).
        { intros E. cbn [nlevels] in E. destruct (NC ys ltac:(simpl; auto)) as (x & y & Hx & Hy & Q). apply Q. apply (unique_1_const ys E); assumption. }
        rewrite (mi2_wrapped xs ys (length xs) eq_refl Ly Hn b V Nx Ny). rewrite <- forallb_low. destruct (forallb _ _).
        + split; [reflexivity|intros _; eexists; reflexivity].
        + split; [intros [v E]; discriminate|discriminate].
      - rewrite (mi_nd_wrapped b n (xs :: ys :: zs :: r) V ltac:(simpl; lia) HL Hn NC). rewrite <- forallb_low. destruct (forallb _ _).
        + split; [reflexivity|intros _; eexists; reflexivity].
        + split; [intros [v E]; discriminate|discriminate]. }
    rewrite G. split; [intros Q; right; exact Q|intros [Q|Q]; [destruct (NCC NC Q)|exact Q]].
  - split; [intros _; left; exists c; split; assumption|intros _]. exists 0.
    destruct cols as [|xs [|ys [|zs r]]]; try (simpl in Hk; lia).
    + inversion HL as [|? ? Lx HL']; subst. inversion HL' as [|? ? Ly _]; subst.
      unfold mi_discrete. rewrite (mi_init_0 (map A1 [xs; ys]) (length xs)) by (simpl; auto using all_len_arr; repeat constructor; simpl; auto; lia).
      cbn [bind map mi_global forallb is_1d andb]. unfold mi_global_2d_int.
      rewrite (coo_of_ok [A1 xs; A1 ys] (length xs)) by (try discriminate; repeat constructor; simpl; auto). cbn [bind].
      assert (L0 : length (marginal (the_coo [A1 xs; A1 ys]) 0) = nlevels (A1 xs)) by (unfold marginal; rewrite map_length, seq_length; reflexivity).
      assert (L1 : length (marginal (the_coo [A1 xs; A1 ys]) 1) = nlevels (A1 ys)) by (unfold marginal; rewrite map_length, seq_length; reflexivity).
      rewrite L0, L1. assert (Q : (Nat.eqb (nlevels (A1 xs)) 1 || Nat.eqb (nlevels (A1 ys)) 1)%bool = true).
      { apply orb_true_iff. destruct Hc as [<-|[<-|[]]]; [left|right]; apply Nat.eqb_eq, const_unique_1; try exact Cc;
          intros ->; simpl in *; lia. }
      rewrite Q. reflexivity.
    + unfold mi_discrete. rewrite (mi_init_0 (map A1 (xs :: ys :: zs :: r)) n) by (rewrite ?map_length; auto using all_len_arr; simpl; lia).
      cbn [bind]. apply (mi_nd_early b None n _ c); auto. simpl; lia.
Qed.
(** in particular as long as the products fit into 64 bits *)
Theorem C14_mi_finite : forall b n cols, valid_base b -> (2 <= length cols)%nat -> all_len n cols -> (0 < n)%nat ->
  (forall t, (t < n)%nat -> (cell_product cols t < 2 ^ 64)%Z) -> exists v, mi_discrete b (Some 0%Z) (map A1 cols) = Ok v.
Proof.
  intros b n cols V Hk HL Hn G. apply (C14_mi_finite_iff b n cols V Hk HL Hn). right. intros t Ht.
  pose proof (cell_product_pos n cols t HL Ht) as P. rewrite (proj2 (low64_eq (cell_product cols t) ltac:(lia)) (G t Ht)). lia.
Qed.

(** C08: in bases below 1, where all information is negative, the two-variable mutual information is always clipped to 0 *)
Theorem C08_mi_base_below_one : forall b xs ys, valid_base b -> ~ big_base b -> length xs = length ys -> xs <> [] -> small2 (length xs) ->
  mi_discrete b (Some 0%Z) [A1 xs; A1 ys] = Ok 0.
Proof.
  intros b xs ys V NB L NE HS. assert (HN : (0 < length xs)%nat) by (destruct xs; [congruence|simpl; lia]).
  unfold mi_discrete. rewrite (mi_init_0 [A1 xs; A1 ys] (length xs)) by (simpl; auto; repeat constructor; simpl; auto; lia).
  cbn [bind]. rewrite (mi2_general b xs ys None) by auto. rewrite Rplus_0_r. f_equal. apply Rmax_right.
  assert (U : unit_of b < 0).
  { destruct b as [|r]; [destruct NB; exact Logic.I|]. simpl in V, NB |- *. rewrite <- ln_1. apply ln_increasing; lra. }
  pose proof (MI_nonneg xs ys L). pose proof (Rinv_lt_0_compat _ U). unfold Rdiv. nra.
Qed.

(** examples: three two-valued variables; and the wrap-around case (64 variables with counts of 2) *)
Example C13_exact_example : no_constant [[0; 1; 0]; [0; 0; 1]; [2; 2; 3]]%Z /\
  map (cell_product [[0; 1; 0]; [0; 0; 1]; [2; 2; 3]]%Z) (seq 0 3) = [8; 4; 2]%Z.
Proof.
  split; [|reflexivity]. intros c Hc. simpl in Hc. destruct Hc as [<-|[<-|[<-|[]]]]; [exists 0%Z, 1%Z|exists 0%Z, 1%Z|exists 2%Z, 3%Z]; simpl; intuition lia.
Qed.
Example C14_wrap_example : low64 (cell_product (repeat [0; 0; 1; 1]%Z 64) 0) = 0%Z /\ low64 (cell_product (repeat [0; 0; 1; 1]%Z 63) 0) = (2 ^ 63)%Z.
Proof. split; reflexivity. Qed.
