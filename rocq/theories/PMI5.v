(** Proofs: MI and CMI at the level of the public functions. *)
From Coq Require Import Reals Lra Lia List ZArith Arith Bool Permutation.
From Verif Require Import Res RSum Spec Info Info2 Ord MBase MData MEntropy MMI SpecBase PBase PEntropy PCoo PMI PMI2 PMI3 PCMI PMI4 PCMI2.
Import ListNotations.
Local Open Scope R_scope.

Lemma same_partition_refl {A} (xs : list A) : same_partition xs xs.
Proof.
  split; [reflexivity|]. intros i j dx dy Hi Hj.
  rewrite (nth_indep xs dx dy Hi), (nth_indep xs dx dy Hj). tauto.
Qed.
Lemma same_partition_sym {A B} (xs : list A) (ys : list B) : same_partition xs ys -> same_partition ys xs.
Proof. intros [L P]. split; [auto|]. intros i j dx dy Hi Hj. symmetry. apply P; lia. Qed.

Lemma same_partition_combine {A A' B B'} (xs : list A) (xs' : list A') (ys : list B) (ys' : list B') :
  length xs = length ys -> same_partition xs xs' -> same_partition ys ys' ->
  same_partition (combine xs ys) (combine xs' ys').
Proof.
  intros L [L1 P1] [L2 P2]. split; [rewrite !combine_length; lia|].
  intros i j [d1 d2] [e1 e2] Hi Hj. rewrite combine_length in *.
  rewrite !combine_nth by lia. rewrite !pair_equal_spec.
  rewrite (P1 i j d1 e1), (P2 i j d2 e2) by lia. tauto.
Qed.

Lemma CMI_partition {A B C A' B' C'} `{EqDec A} `{EqDec B} `{EqDec C} `{EqDec A'} `{EqDec B'} `{EqDec C'}
  (xs : list A) (ys : list B) (zs : list C) (xs' : list A') (ys' : list B') (zs' : list C') :
  length xs = length ys -> length xs = length zs ->
  same_partition xs xs' -> same_partition ys ys' -> same_partition zs zs' ->
  CMI xs ys zs = CMI xs' ys' zs'.
Proof.
  intros L1 L2 P1 P2 P3. unfold CMI.
  rewrite (Ent_partition zs zs' P3).
  rewrite (Ent_partition (combine xs zs) (combine xs' zs')) by (apply same_partition_combine; auto).
  rewrite (Ent_partition (combine ys zs) (combine ys' zs')) by (apply same_partition_combine; auto; congruence).
  rewrite (Ent_partition (combine (combine xs ys) zs) (combine (combine xs' ys') zs')); [reflexivity|].
  apply same_partition_combine; auto.
  - rewrite combine_length. lia.
  - apply same_partition_combine; auto.
Qed.

Lemma MI_partition {A B A' B'} `{EqDec A} `{EqDec B} `{EqDec A'} `{EqDec B'}
  (xs : list A) (ys : list B) (xs' : list A') (ys' : list B') :
  length xs = length ys -> same_partition xs xs' -> same_partition ys ys' -> MI xs ys = MI xs' ys'.
Proof.
  intros L1 P1 P2. unfold MI.
  rewrite (Ent_partition xs xs' P1), (Ent_partition ys ys' P2).
  rewrite (Ent_partition (combine xs ys) (combine xs' ys')) by (apply same_partition_combine; auto). reflexivity.
Qed.

Lemma big_div_nonneg b x : big_base b -> 0 <= x -> 0 <= x / unit_of b.
Proof.
  intros B X. unfold Rdiv. apply Rmult_le_pos; [exact X|]. apply Rlt_le, Rinv_0_lt_compat, big_unit, B.
Qed.
Lemma big_div_le b x y : big_base b -> x <= y -> x / unit_of b <= y / unit_of b.
Proof.
  intros B X. unfold Rdiv. apply Rmult_le_compat_r; [|exact X]. apply Rlt_le, Rinv_0_lt_compat, big_unit, B.
Qed.
Lemma div_zero_iff b x : valid_base b -> (x / unit_of b = 0 <-> x = 0).
Proof.
  intros V. pose proof (unit_neq0 b V). split; [|intros ->; unfold Rdiv; ring].
  intros E. apply (Rmult_eq_reg_r (/ unit_of b)); [|apply Rinv_neq_0_compat; assumption].
  unfold Rdiv in E. rewrite E. ring.
Qed.

Lemma len_pos {A} (xs : list A) : xs <> [] -> (0 < length xs)%nat.
Proof. destruct xs; [congruence|simpl; lia]. Qed.

Lemma mi_init_2 x y : arr_len x = arr_len y -> mi_init (Some 0%Z) [x; y] = Ok [x; y].
Proof. intros L. apply (mi_init_0 [x; y] (arr_len x)); [simpl; lia|]. repeat constructor. auto. Qed.

(** sample sizes for which no intermediate product of two counts reaches 2^64 *)
Definition small2 (n : nat) : Prop := (Z.of_nat n < 2 ^ 32)%Z.

Lemma mi2_api b xs ys : big_base b -> length xs = length ys -> xs <> [] -> small2 (length xs) ->
  mi_discrete b (Some 0%Z) [A1 xs; A1 ys] = Ok (MI xs ys / unit_of b).
Proof.
  intros B L NE HS. unfold mi_discrete. rewrite mi_init_2 by exact L. cbn [bind].
  rewrite (mi2_general b xs ys None); auto using big_valid, len_pos.
  rewrite Rmax_left by (apply big_div_nonneg; [exact B|apply MI_nonneg; exact L]). f_equal. ring.
Qed.

Lemma mi2_local_any b mm xs ys : valid_base b -> length xs = length ys -> xs <> [] ->
  (match mm with Some bb => valid_base bb | None => True end) ->
  exists ls, mi_local b mm [A1 xs; A1 ys] = Ok ls /\ length ls = length xs /\
    mean ls = MI xs ys / unit_of b +
     match mm with Some bb => (mmc xs + mmc ys - mmc (combine xs ys)) / unit_of bb | None => 0 end.
Proof.
  intros V L NE VB. set (n := length xs).
  assert (HL : all_len n [xs; ys]) by (repeat constructor; auto).
  assert (Hn : (0 < n)%nat) by (apply len_pos; exact NE).
  assert (NEy : ys <> []) by (apply length_pos_ne; rewrite <- L; exact Hn).
  assert (EM : mmc (rows_of 0%Z n [xs; ys]) = mmc (combine xs ys)).
  { unfold mmc. rewrite rows_of_2_distinct by auto. rewrite rows_of_length, combine_length, <- L, Nat.min_id. reflexivity. }
  assert (Triv : forall c, In c [xs; ys] -> (forall x y, In x c -> In y c -> x = y) ->
     MI xs ys = 0 -> mmc xs + mmc ys - mmc (combine xs ys) = 0 ->
     exists ls, mi_local b mm [A1 xs; A1 ys] = Ok ls /\ length ls = n /\
     mean ls = MI xs ys / unit_of b +
     match mm with Some bb => (mmc xs + mmc ys - mmc (combine xs ys)) / unit_of bb | None => 0 end).
  { intros c Hc Cc E1 E2. exists (repeat 0 n).
    split; [apply (mi_local_early b mm n [xs; ys] c); auto; discriminate|].
    split; [apply repeat_length|]. rewrite mean_repeat0, E1, E2. unfold Rdiv. destruct mm; ring. }
  destruct (const_dec xs) as [Cx|NCx]; [|destruct (const_dec ys) as [Cy|NCy]].
  - apply (Triv xs); [left; reflexivity|exact Cx|apply MI_const_l; auto|].
    rewrite (mmc_partition (combine xs ys) ys) by (apply const_pair_partition_l; auto).
    rewrite (mmc_const xs NE Cx). ring.
  - apply (Triv ys); [right; left; reflexivity|exact Cy|rewrite MI_sym by exact L; apply MI_const_l; auto|].
    rewrite (mmc_partition (combine xs ys) xs) by (apply const_pair_partition; auto).
    rewrite (mmc_const ys NEy Cy). ring.
  - destruct (mi_local_general b mm n [xs; ys] V ltac:(discriminate) HL Hn) as [ls [E1 [E2 E3]]]; auto.
    { intros c [<-|[<-|[]]]; assumption. }
    exists ls. split; [exact E1|]. split; [exact E2|]. rewrite E3. f_equal.
    + rewrite TotalCorr_2 by auto. reflexivity.
    + destruct mm; [|reflexivity]. cbn [sumf]. rewrite EM. do 2 f_equal. ring.
Qed.

Lemma cmi_init_ok xs ys n : length xs = length ys -> length xs = n -> forall r,
  cmi_init (A1 xs :: A1 ys :: r) n = Ok tt.
Proof.
  intros L1 L2 r. unfold cmi_init. cbn [arr_len]. rewrite L1, L2 in *. rewrite <- L1.
  rewrite !Nat.eqb_refl. reflexivity.
Qed.

Lemma cmi2_api b xs ys zs : valid_base b -> length xs = length ys -> length xs = length zs -> xs <> [] ->
  small2 (length xs) ->
  cmi_discrete b [A1 xs; A1 ys] (RArr (A1 zs)) = Ok (CMI xs ys zs / unit_of b) /\
  exists ls, cmi_discrete_local b [A1 xs; A1 ys] (RArr (A1 zs)) = Ok ls /\ length ls = length xs /\
     mean ls = CMI xs ys zs / unit_of b.
Proof.
  intros V L1 L2 NE HS. unfold cmi_discrete, cmi_discrete_local. cbn [reduce_joint_space bind].
  rewrite cmi_init_ok by assumption. cbn [bind].
  destruct (cmi2_general b None xs ys zs V L1 L2 (len_pos xs NE) HS I) as [G1 [ls [G2 [G3 G4]]]].
  rewrite G1. split; [f_equal; ring|]. exists ls. split; [exact G2|]. split; [exact G3|]. rewrite G4. ring.
Qed.

(** a joint condition (2-D array or tuple of arrays) *)
Lemma cmi2_joint b xs ys r zs : valid_base b ->
  (exists codes, reduce_joint_space r = Ok codes /\ same_partition zs codes) ->
  length xs = length ys -> length xs = length zs -> xs <> [] -> small2 (length xs) ->
  cmi_discrete b [A1 xs; A1 ys] r = Ok (CMI (C := list Z) xs ys zs / unit_of b) /\
  exists ls, cmi_discrete_local b [A1 xs; A1 ys] r = Ok ls /\ length ls = length xs /\
     mean ls = CMI (C := list Z) xs ys zs / unit_of b.
Proof.
  intros V [codes [E P]] L1 L2 NE HS.
  assert (EC : CMI xs ys zs = CMI xs ys codes)
    by (apply CMI_partition; auto using same_partition_refl).
  destruct (cmi2_api b xs ys codes V L1 (eq_trans L2 (proj1 P)) NE HS) as [G1 G2].
  unfold cmi_discrete, cmi_discrete_local in *. cbn [reduce_joint_space bind] in G1, G2.
  rewrite E, EC. cbn [bind]. split; assumption.
Qed.

(** ** chain rule and data processing on lists *)
Lemma combine_assoc_partition {A B C} (xs : list A) (ys : list B) (zs : list C) :
  length xs = length ys -> length xs = length zs ->
  same_partition (combine xs (combine ys zs)) (combine (combine xs ys) zs).
Proof.
  intros L1 L2. split; [rewrite !combine_length; lia|].
  intros i j [d1 [d2 d3]] [[e1 e2] e3] Hi Hj. rewrite !combine_length in *.
  rewrite !combine_nth by (rewrite ?combine_length; lia).
  rewrite (nth_indep xs d1 e1), (nth_indep ys d2 e2), (nth_indep zs d3 e3),
    (nth_indep xs d1 e1), (nth_indep ys d2 e2), (nth_indep zs d3 e3) by lia.
  split; intros E; injection E; intros; congruence.
Qed.

Lemma MI_chain {A B C} `{EqDec A} `{EqDec B} `{EqDec C} (xs : list A) (ys : list B) (zs : list C) :
  length xs = length ys -> length xs = length zs ->
  MI xs (combine ys zs) = MI xs zs + CMI xs ys zs.
Proof.
  intros L1 L2. unfold MI, CMI. rewrite (Ent_partition _ _ (combine_assoc_partition xs ys zs L1 L2)). ring.
Qed.

Lemma Ent_map_le {A B} `{EqDec A} `{EqDec B} (f : A -> B) (xs : list A) : Ent (map f xs) <= Ent xs.
Proof.
  destruct xs as [|x xs'] eqn:E; [rewrite !Ent_nil; lra|]. rewrite <- E.
  assert (NE : xs <> []) by (rewrite E; discriminate).
  rewrite (Ent_map xs f NE). rewrite <- (map_id xs) at 2. rewrite (Ent_map xs (fun x => x) NE).
  apply hs_refine. intros s t _ _ ->. reflexivity.
Qed.

Lemma CMI_map_le {A A' B C} `{EqDec A} `{EqDec A'} `{EqDec B} `{EqDec C} (f : A -> A')
  (xs : list A) (ys : list B) (zs : list C) :
  length xs = length ys -> length xs = length zs ->
  CMI (map f xs) ys zs <= CMI xs ys zs.
Proof.
  intros E1 E2. destruct xs as [|x xs'] eqn:Ex.
  { destruct ys; [|discriminate]. destruct zs; [|discriminate]. simpl. unfold CMI. cbn [combine]. rewrite !Ent_nil. lra. }
  destruct ys as [|y ys'] eqn:Ey; [discriminate|].
  destruct zs as [|z zs'] eqn:Ez; [discriminate|]. rewrite <- Ex, <- Ey, <- Ez in *.
  assert (0 < length xs)%nat by (rewrite Ex; simpl; lia).
  rewrite (CMI_as_cmi xs ys zs (length xs)) with (dx := x) (dy := y) (dz := z); auto.
  rewrite (CMI_as_cmi (map f xs) ys zs (length xs)) with (dx := f x) (dy := y) (dz := z); auto.
  2:{ apply map_length. }
  match goal with |- cmi ?l ?X ?Y ?Z <= cmi ?l ?X' _ _ =>
    rewrite (cmi_partition l X Y Z (fun s => f (X' s)) Y Z) end; try reflexivity.
  - apply cmi_data_processing.
  - intros s t _ _. unfold Info2.Xf. rewrite !map_nth. tauto.
Qed.

Lemma MI_map_le {A A' B} `{EqDec A} `{EqDec A'} `{EqDec B} (f : A -> A') (xs : list A) (ys : list B) :
  length xs = length ys -> MI (map f xs) ys <= MI xs ys.
Proof.
  intros L.
  assert (D : xs = [] \/ xs <> []) by (destruct xs; [left; reflexivity|right; discriminate]).
  destruct D as [->|NE].
  { simpl. destruct ys; [|discriminate]. unfold MI. simpl. rewrite !Ent_nil. lra. }
  pose (us := map (fun _ => tt) xs).
  assert (Lu : length us = length xs) by apply map_length.
  assert (Cu : forall x y : unit, In x us -> In y us -> x = y) by (intros [] []; reflexivity).
  assert (NEu : us <> []) by (apply length_pos_ne; rewrite Lu; apply len_pos; exact NE).
  assert (G : forall A (E : EqDec A) (ws : list A), length ws = length us -> CMI ws ys us = MI ws ys).
  { intros A0 E ws Lw. unfold CMI, MI.
    rewrite (Ent_partition (combine ws us) ws) by (apply const_pair_partition; [exact Lw|exact Cu]).
    rewrite (Ent_partition (combine ys us) ys) by (apply const_pair_partition; [congruence|exact Cu]).
    rewrite (Ent_partition (combine (combine ws ys) us) (combine ws ys))
      by (apply const_pair_partition; [rewrite combine_length, Lw, Lu, L; apply Nat.min_id|exact Cu]).
    rewrite (proj2 (Ent_zero_iff us NEu) Cu). ring. }
  rewrite <- !G by (rewrite ?map_length; congruence). apply CMI_map_le; [exact L|congruence].
Qed.

Lemma Ent_pos {A} `{EqDec A} (xs : list A) x y : In x xs -> In y xs -> x <> y -> 0 < Ent xs.
Proof.
  intros Hx Hy N. pose proof (Ent_nonneg xs) as P.
  destruct (Req_dec (Ent xs) 0) as [E0|N0]; [|lra].
  assert (NE : xs <> []) by (intros ->; destruct Hx).
  exfalso. apply N. exact (proj1 (Ent_zero_iff xs NE) E0 x y Hx Hy).
Qed.
