(** Proofs: the documented forms of multi-variable conditional MI; the uint64 wrap-around witness. *)
From Coq Require Import Reals Lra Lia List ZArith Arith Bool Permutation.
From Verif Require Import Res RSum Spec Info Info2 Ord MBase MData MEntropy MMI SpecBase PBase PEntropy PCoo PMI PMI2 PMI3 PCMI PMI4 PCMI2 PMI5.
Import ListNotations.
Local Open Scope R_scope.

Lemma Ent_index {A} `{EqDec A} (d : A) (xs : list A) n : length xs = n -> (0 < n)%nat ->
  Ent xs = - (sumf (fun t => ln (prob xs (nth t xs d))) (seq 0 n) / INR n).
Proof.
  intros L Hn. rewrite Ent_sample by (apply length_pos_ne; lia). rewrite L.
  do 2 f_equal. rewrite <- (sumf_map (fun t => nth t xs d) (fun x => ln (prob xs x))).
  f_equal. apply list_as_map. exact L.
Qed.

Lemma CondTotalCorr_eq n cols zs : all_len n cols -> length zs = n -> (0 < n)%nat ->
  CondTotalCorr n cols zs =
  sumf (fun c => Ent (combine c zs) - Ent zs) cols - (Ent (rows_of 0%Z n (cols ++ [zs])) - Ent zs).
Proof.
  intros HL Hz Hn. pose proof (INR_pos n Hn) as PN. unfold CondTotalCorr.
  set (J := rows_of 0%Z n (cols ++ [zs])).
  assert (Pz : forall t, In t (seq 0 n) -> 0 < prob zs (nth t zs 0%Z)).
  { intros t Ht. apply in_seq in Ht. apply prob_pos, nth_In. lia. }
  assert (Pj : forall t, In t (seq 0 n) -> 0 < prob J (map (fun c => nth t c 0%Z) cols ++ [nth t zs 0%Z])).
  { intros t Ht. apply prob_pos. unfold J, rows_of. apply in_map_iff. exists t. split; [|exact Ht].
    rewrite map_app. reflexivity. }
  assert (Pc : forall t c, In t (seq 0 n) -> In c cols -> 0 < prob (combine c zs) (nth t c 0%Z, nth t zs 0%Z)).
  { intros t c Ht Hc. apply in_seq in Ht. unfold all_len in HL. rewrite Forall_forall in HL.
    specialize (HL c Hc). apply prob_pos. rewrite <- (combine_nth c zs t 0%Z 0%Z) by lia.
    apply nth_In. rewrite combine_length. lia. }
  rewrite (sumf_ext _ (fun t =>
     ln (prob J (map (fun c => nth t c 0%Z) cols ++ [nth t zs 0%Z])) - ln (prob zs (nth t zs 0%Z))
     - sumf (fun c => ln (prob (combine c zs) (nth t c 0%Z, nth t zs 0%Z)) - ln (prob zs (nth t zs 0%Z))) cols)).
  2:{ intros t Ht.
      assert (Q : forall cs, (forall c, In c cs -> In c cols) ->
        0 < fold_right Rmult 1 (map (fun c => prob (combine c zs) (nth t c 0%Z, nth t zs 0%Z) / prob zs (nth t zs 0%Z)) cs) /\
        ln (fold_right Rmult 1 (map (fun c => prob (combine c zs) (nth t c 0%Z, nth t zs 0%Z) / prob zs (nth t zs 0%Z)) cs)) =
        sumf (fun c => ln (prob (combine c zs) (nth t c 0%Z, nth t zs 0%Z)) - ln (prob zs (nth t zs 0%Z))) cs).
      { induction cs as [|c cs IH]; intros Hin; [simpl; rewrite ln_1; split; lra|].
        destruct IH as [I1 I2]; [intros; apply Hin; right; assumption|].
        cbn [map fold_right sumf].
        assert (P1 := Pc t c Ht (Hin c (or_introl eq_refl))). assert (P2 := Pz t Ht).
        assert (P3 : 0 < prob (combine c zs) (nth t c 0%Z, nth t zs 0%Z) / prob zs (nth t zs 0%Z))
          by (apply Rdiv_lt_0_compat; assumption).
        split; [apply Rmult_lt_0_compat; assumption|]. rewrite ln_mult, I2, ln_div by assumption. ring. }
      destruct (Q cols (fun _ h => h)) as [Q1 Q2]. cbv zeta.
      assert (P1 := Pj t Ht). assert (P2 := Pz t Ht).
      rewrite ln_div, Q2, ln_div by (try assumption; apply Rdiv_lt_0_compat; assumption). reflexivity. }
  set (SC := sumf (fun c => Ent (combine c zs) - Ent zs) cols).
  rewrite !sumf_minus.
  rewrite (sumf_swap (fun t c => ln (prob (combine c zs) (nth t c 0%Z, nth t zs 0%Z)) - ln (prob zs (nth t zs 0%Z)))).
  assert (EJ : Ent J = - (sumf (fun t => ln (prob J (map (fun c => nth t c 0%Z) cols ++ [nth t zs 0%Z]))) (seq 0 n) / INR n)).
  { rewrite (Ent_index [] J n) by (auto; apply rows_of_length). do 2 f_equal. apply sumf_ext. intros t Ht.
    apply in_seq in Ht. unfold J at 2. unfold rows_of. rewrite nth_map_seq by lia. rewrite map_app. reflexivity. }
  assert (EZ : Ent zs = - (sumf (fun t => ln (prob zs (nth t zs 0%Z))) (seq 0 n) / INR n))
    by (apply Ent_index; assumption).
  assert (EC : sumf (fun c => sumf (fun t => ln (prob (combine c zs) (nth t c 0%Z, nth t zs 0%Z)) - ln (prob zs (nth t zs 0%Z))) (seq 0 n)) cols
     = - INR n * SC).
  { unfold SC. rewrite <- sumf_scal. apply sumf_ext. intros c Hc. unfold all_len in HL. rewrite Forall_forall in HL.
    specialize (HL c Hc).
    assert (Lc : length (combine c zs) = n) by (rewrite combine_length; lia).
    rewrite (Ent_index (0%Z, 0%Z) (combine c zs) n Lc Hn). rewrite EZ, sumf_minus.
    rewrite (sumf_ext (fun t => ln (prob (combine c zs) (nth t (combine c zs) (0%Z, 0%Z))))
       (fun t => ln (prob (combine c zs) (nth t c 0%Z, nth t zs 0%Z)))).
    - field. lra.
    - intros t _. rewrite combine_nth by lia. reflexivity. }
  rewrite EC, EJ. set (SZ := sumf (fun t => ln (prob zs (nth t zs 0%Z))) (seq 0 n)) in *.
  rewrite EZ. field. lra.
Qed.

(** the computed value of the n-variable CMI against the first documented form *)
Lemma CMIn_CondTotalCorr n cols zs : all_len n cols -> length zs = n -> (0 < n)%nat ->
  CMIn n cols zs = CondTotalCorr n cols zs + (INR (length cols) - 2) * Ent zs.
Proof.
  intros HL Hz Hn. rewrite CondTotalCorr_eq by assumption. unfold CMIn.
  rewrite sumf_minus, sumf_const. ring.
Qed.

Lemma cmi_nd_api b n cols zs : valid_base b -> (2 <= length cols)%nat -> all_len n cols -> length zs = n ->
  (0 < n)%nat -> (Z.of_nat n ^ Z.of_nat (length cols) < 2 ^ 64)%Z -> cmi_nontrivial cols zs ->
  cmi_discrete b (map A1 cols) (RArr (A1 zs)) = Ok (CMIn n cols zs / unit_of b) /\
  exists ls, cmi_discrete_local b (map A1 cols) (RArr (A1 zs)) = Ok ls /\ length ls = n /\
     mean ls = CMIn n cols zs / unit_of b.
Proof.
  intros V Hk HL Hz Hn SM NT. unfold cmi_discrete, cmi_discrete_local. cbn [reduce_joint_space bind].
  assert (EI : cmi_init (map A1 cols) (length zs) = Ok tt).
  { destruct cols as [|x [|y r]]; simpl in Hk; try lia. cbn [map].
    unfold all_len in HL. inversion HL as [|? ? Hx HL2]; subst. inversion HL2; subst. apply cmi_init_ok; congruence. }
  rewrite EI. cbn [bind].
  assert (NE : cols <> []) by (apply length_pos_ne; lia).
  assert (SM' : (Z.of_nat n ^ Z.of_nat (Nat.max 2 (length cols)) < 2 ^ 64)%Z)
    by (rewrite Nat.max_r by exact Hk; exact SM).
  split.
  - rewrite (cmi_nd_general cols zs n HL Hz Hn b None) by auto. f_equal. ring.
  - destruct (cmi_local_general cols zs n HL Hz Hn b None V NE NT I) as [ls [E1 [E2 E3]]].
    exists ls. split; [exact E1|]. split; [exact E2|]. rewrite E3. ring.
Qed.

(** ** wrap-around of the product of marginal counts *)
Definition wrap_col : list Z := [0; 0; 1; 1]%Z.
Definition wrap_vars : list arr := repeat (A1 wrap_col) 64.

Lemma log_base_zero b : valid_base b -> log_base b 0 = NonFinite.
Proof.
  intros V. unfold log_base. rewrite np_log_bad by lra.
  destruct b as [|r]; [reflexivity|].
  destruct (Req_EM_T r 2); [reflexivity|]. destruct (Req_EM_T r 10); [reflexivity|].
  destruct (Req_EM_T r 0); [simpl in V; lra|]. destruct (Rlt_dec r 0); [simpl in V; lra|]. reflexivity.
Qed.

Lemma wrap_nonfinite b : valid_base b -> mi_discrete b (Some 0%Z) wrap_vars = NonFinite.
Proof.
  intros V. unfold mi_discrete.
  rewrite (mi_init_0 wrap_vars 4); [|unfold wrap_vars; rewrite repeat_length; lia|
    apply Forall_forall; intros a Ha; apply repeat_spec in Ha; subst; reflexivity].
  cbn [bind]. assert (E : wrap_vars = map A1 (repeat wrap_col 64)) by reflexivity. rewrite E.
  rewrite mi_global_1d_nd by (rewrite repeat_length; lia). rewrite <- E. unfold mi_global_nd_int.
  assert (EC : exists c, coo_of wrap_vars = Ok c /\
    coo_coords c = [repeat 0%nat 64; repeat 1%nat 64] /\ coo_vals c = [2; 2]%Z /\ ndim c = 64%nat /\
    map (marginal c) (seq 0 64) = repeat [2; 2]%Z 64 /\ coo_sum c = 4%Z).
  { eexists. split; [vm_compute; reflexivity|]. vm_compute. repeat split. }
  destruct EC as [c [-> [E1 [E2 [E3 [E4 E5]]]]]]. cbn [bind]. rewrite E3, E4, E1, E2, E5.
  replace (existsb (fun m : list Z => Nat.eqb (length m) 1) (repeat [2; 2]%Z 64)) with false by reflexivity.
  cbn [combine mapM]. unfold mi_term at 1. cbn [fst snd].
  match goal with |- context [IZR (uprod ?l)] => replace (uprod l) with 0%Z by (vm_compute; reflexivity) end.
  rewrite np_div_ok by lra. cbn [bind]. rewrite !log_base_ok by (auto; lra). cbn [bind].
  rewrite log_base_zero by exact V. reflexivity.
Qed.
