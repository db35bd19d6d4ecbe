(** Property theorems C124: interaction information of three records. *)
From Coq Require Import Reals Lra Lia List ZArith Arith Bool Permutation.
From Verif Require Import SpecPool Gibbs PEst4 PDiv PDiv2 PPool Res RSum Spec Info Info2 Ord MBase MData MEntropy MMI SpecBase PBase PEntropy PCoo PMI PMI2 PMI3 PCMI PMI4 PCMI2 PMI5 PMI6 PropsMI PropsPool PropsCoarse.
Import ListNotations.
Local Open Scope R_scope.
Local Notation length := List.length.

Lemma triple_swap (xs ys zs : list Z) : Ent (combine (combine xs zs) ys) = Ent (combine (combine xs ys) zs).
Proof.
  replace (combine (combine xs zs) ys) with (map (fun p : Z * Z * Z => (fst (fst p), snd p, snd (fst p))) (combine (combine xs ys) zs)).
  - apply Ent_map_inj. intros [[a b] c] [[a' b'] c'] _ _. cbn. congruence.
  - revert ys zs. induction xs as [|x xs IH]; intros ys zs; [reflexivity|]. destruct ys as [|y ys], zs as [|z zs]; try reflexivity; cbn [combine map fst snd]; try rewrite IH; try reflexivity.
Qed.
Lemma triple_rot (xs ys zs : list Z) : Ent (combine (combine ys zs) xs) = Ent (combine (combine xs ys) zs).
Proof.
  rewrite triple_swap. replace (combine (combine ys xs) zs) with (map (fun p : Z * Z * Z => (snd (fst p), fst (fst p), snd p)) (combine (combine xs ys) zs)).
  - apply Ent_map_inj. intros [[a b] c] [[a' b'] c'] _ _. cbn. congruence.
  - revert ys zs. induction xs as [|x xs IH]; intros ys zs; [destruct ys; reflexivity|]. destruct ys as [|y ys]; [reflexivity|]. destruct zs as [|z zs]; [reflexivity|]. cbn [combine map fst snd]. rewrite IH. reflexivity.
Qed.

(** what conditioning takes from (or adds to) the mutual information of two records does not depend on which of the three is
    the condition *)
Theorem C124_interaction_symmetric : forall b xs ys zs, big_base b -> length xs = length ys -> length xs = length zs -> xs <> [] -> small2 (length xs) ->
  exists mxy mxz myz cxy cxz cyz,
    mi_discrete b (Some 0%Z) [A1 xs; A1 ys] = Ok mxy /\ mi_discrete b (Some 0%Z) [A1 xs; A1 zs] = Ok mxz /\ mi_discrete b (Some 0%Z) [A1 ys; A1 zs] = Ok myz /\
    cmi_discrete b [A1 xs; A1 ys] (RArr (A1 zs)) = Ok cxy /\ cmi_discrete b [A1 xs; A1 zs] (RArr (A1 ys)) = Ok cxz /\ cmi_discrete b [A1 ys; A1 zs] (RArr (A1 xs)) = Ok cyz /\
    mxy - cxy = mxz - cxz /\ mxy - cxy = myz - cyz /\
    - Rmin cxy (Rmin cxz cyz) <= mxy - cxy <= Rmin mxy (Rmin mxz myz).
Proof.
  intros b xs ys zs B L1 L2 NE SM. pose proof (big_valid b B) as V.
  assert (NY : ys <> []) by (intros ->; destruct xs; [congruence|discriminate]).
  assert (L3 : length ys = length zs) by congruence. assert (SY : small2 (length ys)) by (rewrite <- L1; exact SM).
  exists (MI xs ys / unit_of b), (MI xs zs / unit_of b), (MI ys zs / unit_of b), (CMI xs ys zs / unit_of b), (CMI xs zs ys / unit_of b), (CMI ys zs xs / unit_of b).
  split; [apply mi2_api; assumption|]. split; [apply mi2_api; assumption|]. split; [apply mi2_api; assumption|].
  split; [apply cmi2_api; assumption|]. split; [apply cmi2_api; assumption|]. split; [apply cmi2_api; auto|].
  assert (E1 : MI xs ys - CMI xs ys zs = MI xs zs - CMI xs zs ys).
  { unfold MI, CMI. rewrite (triple_swap xs ys zs), (swap_Ent zs ys). ring. }
  assert (E2 : MI xs ys - CMI xs ys zs = MI ys zs - CMI ys zs xs).
  { unfold MI, CMI. rewrite (triple_rot xs ys zs), (swap_Ent ys xs), (swap_Ent zs xs). ring. }
  assert (D1 : MI xs ys / unit_of b - CMI xs ys zs / unit_of b = MI xs zs / unit_of b - CMI xs zs ys / unit_of b) by (unfold Rdiv; rewrite <- !Rmult_minus_distr_r, E1; reflexivity).
  assert (D2 : MI xs ys / unit_of b - CMI xs ys zs / unit_of b = MI ys zs / unit_of b - CMI ys zs xs / unit_of b) by (unfold Rdiv; rewrite <- !Rmult_minus_distr_r, E2; reflexivity).
  split; [exact D1|]. split; [exact D2|].
  pose proof (big_div_nonneg b _ B (MI_nonneg xs ys L1)). pose proof (big_div_nonneg b _ B (MI_nonneg xs zs L2)). pose proof (big_div_nonneg b _ B (MI_nonneg ys zs L3)).
  pose proof (big_div_nonneg b _ B (CMI_nonneg xs ys zs L1 L2)). pose proof (big_div_nonneg b _ B (CMI_nonneg xs zs ys L2 L1)).
  pose proof (big_div_nonneg b _ B (CMI_nonneg ys zs xs L3 (eq_sym L1))).
  split; unfold Rmin; repeat destruct (Rle_dec _ _); lra.
Qed.
Print Assumptions C124_interaction_symmetric.

(** the mutual information of three records is the sum of the pairwise ones minus the interaction information; it is built up
    by adding one record after the other *)
Theorem C124_three_records : forall b xs ys zs, big_base b -> length xs = length ys -> length xs = length zs -> xs <> [] ->
  no_constant [xs; ys; zs] -> (Z.of_nat (length xs) ^ 3 < 2 ^ 64)%Z ->
  exists t mxy mxz myz cxy cyz,
    mi_discrete b (Some 0%Z) [A1 xs; A1 ys; A1 zs] = Ok t /\
    mi_discrete b (Some 0%Z) [A1 xs; A1 ys] = Ok mxy /\ mi_discrete b (Some 0%Z) [A1 xs; A1 zs] = Ok mxz /\ mi_discrete b (Some 0%Z) [A1 ys; A1 zs] = Ok myz /\
    cmi_discrete b [A1 xs; A1 ys] (RArr (A1 zs)) = Ok cxy /\ cmi_discrete b [A1 ys; A1 zs] (RArr (A1 xs)) = Ok cyz /\
    t = mxy + mxz + myz - (mxy - cxy) /\ t = mxy + mxz + cyz /\ mxy <= t /\ mxz <= t /\ myz <= t.
Proof.
  intros b xs ys zs B L1 L2 NE NC SM. pose proof (big_valid b B) as V.
  assert (S2 : small2 (length xs)). { unfold small2. destruct (Z.lt_ge_cases (Z.of_nat (length xs)) (2 ^ 32)) as [?|G]; [assumption|]. exfalso.
    change (2 ^ 64)%Z with (2 ^ 32 * 2 ^ 32)%Z in SM. change 3%Z with (2 + 1)%Z in SM. rewrite Z.pow_add_r, Z.pow_2_r, Z.pow_1_r in SM by lia. nia. }
  destruct (C124_interaction_symmetric b xs ys zs B L1 L2 NE S2) as (mxy & mxz & myz & cxy & cxz & cyz & A & C & D & E & F & G & I1 & I2 & BD).
  assert (HL : all_len (length xs) [xs; ys; zs]) by (repeat constructor; auto).
  destruct (C13_mi_is_total_correlation_partial b (length xs) [xs; ys; zs] V ltac:(simpl; lia) HL (len_pos xs NE) NC SM) as (T & _).
  exists (TotalCorr 0%Z (length xs) [xs; ys; zs] / unit_of b), mxy, mxz, myz, cxy, cyz.
  do 6 (split; [assumption|]).
  assert (X1 : mxy = MI xs ys / unit_of b) by (rewrite mi2_api in A by assumption; congruence).
  assert (X2 : mxz = MI xs zs / unit_of b) by (rewrite mi2_api in C by assumption; congruence).
  assert (NY : ys <> []) by (intros ->; destruct xs; [congruence|discriminate]).
  assert (L3 : length ys = length zs) by congruence. assert (SY : small2 (length ys)) by (rewrite <- L1; exact S2).
  assert (X3 : cyz = CMI ys zs xs / unit_of b) by (rewrite (proj1 (cmi2_api b ys zs xs V L3 (eq_sym L1) NY SY)) in G; congruence).
  assert (TE : TotalCorr 0%Z (length xs) [xs; ys; zs] = MI xs ys + MI xs zs + CMI ys zs xs).
  { unfold TotalCorr, MI, CMI. cbn [sumf]. rewrite (Ent_partition _ _ (rows_of_3 xs ys zs (length xs) eq_refl (eq_sym L1) (eq_sym L2))), (triple_rot xs ys zs), (swap_Ent ys xs), (swap_Ent zs xs). ring. }
  assert (Q : TotalCorr 0%Z (length xs) [xs; ys; zs] / unit_of b = mxy + mxz + cyz) by (rewrite TE, X1, X2, X3; unfold Rdiv; ring).
  rewrite Q. revert BD. unfold Rmin. repeat destruct (Rle_dec _ _); intros BD.
  all: pose proof (big_div_nonneg b _ B (MI_nonneg xs ys L1)); pose proof (big_div_nonneg b _ B (MI_nonneg xs zs L2)); pose proof (big_div_nonneg b _ B (CMI_nonneg ys zs xs L3 (eq_sym L1))); repeat split; lra.
Qed.
Print Assumptions C124_three_records.

(** exclusive or: the records are pairwise independent, yet two of them determine the third *)
Example C124_example : let xs := [0; 0; 1; 1]%Z in let ys := [0; 1; 0; 1]%Z in let zs := [0; 1; 1; 0]%Z in
  big_base (BNum 2) /\ xs <> [] /\ no_constant [xs; ys; zs] /\ (Z.of_nat (length xs) ^ 3 < 2 ^ 64)%Z /\
  mi_discrete (BNum 2) (Some 0%Z) [A1 xs; A1 ys] = Ok 0 /\ mi_discrete (BNum 2) (Some 0%Z) [A1 xs; A1 zs] = Ok 0.
Proof.
  cbv zeta. split; [simpl; lra|]. split; [discriminate|]. split.
  { intros c [<-|[<-|[<-|[]]]]; exists 0%Z, 1%Z; simpl; repeat split; try tauto; lia. }
  split; [reflexivity|].
  assert (U : forall (l : list Z) v, ~ In v l -> count l v = 0%nat) by (intros l v; apply count_occ_not_In).
  assert (U2 : forall (l : list (Z * Z)) v, ~ In v l -> count l v = 0%nat) by (intros l v; apply count_occ_not_In).
  assert (G : forall ys : list Z, ys = [0; 1; 0; 1]%Z \/ ys = [0; 1; 1; 0]%Z -> mi_discrete (BNum 2) (Some 0%Z) [A1 [0; 0; 1; 1]%Z; A1 ys] = Ok 0).
  { intros ws Hw. apply C12_mi_zero_iff_independent; [simpl; lra|destruct Hw as [-> | ->]; reflexivity|discriminate|unfold small2; simpl; lia|].
    intros x y. destruct (in_dec Z.eq_dec x [0; 1]%Z) as [Ix|Nx]; [destruct (in_dec Z.eq_dec y [0; 1]%Z) as [Iy|Ny]|].
    - destruct Ix as [<-|[<-|[]]], Iy as [<-|[<-|[]]], Hw as [-> | ->]; reflexivity.
    - rewrite (U ws y), (U2 (combine [0; 0; 1; 1]%Z ws) (x, y)); [lia| |]; destruct Hw as [-> | ->]; simpl in *; intuition congruence.
    - rewrite (U [0; 0; 1; 1]%Z x), (U2 (combine [0; 0; 1; 1]%Z ws) (x, y)); [lia| |]; destruct Hw as [-> | ->]; simpl in *; intuition congruence. }
  split; apply G; auto.
Qed.
