(** Proofs: shrinkage MI, and helper facts for the property statements. *)
From Coq Require Import Reals Lra Lia List ZArith Arith Bool Permutation Sorted.
From Verif Require Import Res RSum Spec SpecGamma SpecEst SpecInput Info Info2 Gibbs Ord MBase MData MEntropy MMI MTE MGeneric MEst SpecBase PBase PEntropy PCoo PMI PMI2 PMI3 PCMI PMI4 PCMI2 PMI5 PMI6 PTE PTE2 PGeneric PLog PEst PEst2 PEst3 PEst4 PEst5.
Import ListNotations.
Local Open Scope R_scope.

(** an estimator with the same local values and their mean as global value *)
Definition est_shrink_loc : est := mkEst (fun b d => rmap VArr (shrink_local b d)) shrink_local.

Lemma shrink_loc_lawful b xs : valid_base b -> xs <> [] ->
  lawful_on est_shrink_loc b xs (shrink_local_mean xs / unit_of b).
Proof.
  intros V NE. unfold lawful_on, e_global, e_local. cbn [e_calc e_extract est_shrink_loc].
  rewrite shrink_local_ok by assumption. unfold rmap. cbn [bind value_global].
  rewrite shrink_local_mean_ok. split; [reflexivity|]. left.
  eexists. split; [reflexivity|]. split; [apply map_length|apply shrink_local_mean_ok].
Qed.

Lemma shrink_loc_same b xs : valid_base b -> xs <> [] ->
  e_local est_shrink b (dd_of xs) = Ok (map (fun x => - (ln (shrunk xs x) / unit_of b)) xs) /\
  e_local est_shrink_loc b (dd_of xs) = Ok (map (fun x => - (ln (shrunk xs x) / unit_of b)) xs).
Proof.
  intros V NE. unfold e_local. cbn [e_calc e_extract est_shrink est_shrink_loc].
  rewrite shrink_ok, shrink_local_ok by assumption. unfold rmap. cbn [bind]. split; reflexivity.
Qed.

Lemma shrink_from_entropies b plus minus n : valid_base b -> (0 < n)%nat ->
  (forall i, In i (plus ++ minus) -> exists xs, make_data i = Ok (dd_of xs) /\ length xs = n) ->
  from_entropies est_shrink b plus minus = from_entropies est_shrink_loc b plus minus.
Proof.
  intros V Hn HM. unfold from_entropies.
  assert (D : forall l, (forall i, In i l -> In i (plus ++ minus)) -> exists ds, mapM make_data l = Ok ds /\
     exists ls, mapM (e_local est_shrink b) ds = Ok ls /\ mapM (e_local est_shrink_loc b) ds = Ok ls).
  { induction l as [|i l IH]; intros Hl; [exists []; split; [reflexivity|exists []; split; reflexivity]|].
    destruct IH as (ds & E & ls & E1 & E2); [intros; apply Hl; right; assumption|].
    destruct (HM i (Hl i (or_introl eq_refl))) as (xs & Ei & L).
    assert (NE : xs <> []) by (destruct xs; [simpl in L; lia|discriminate]).
    destruct (shrink_loc_same b xs V NE) as [S1 S2].
    exists (dd_of xs :: ds). split; [simpl; rewrite Ei; simpl; rewrite E; reflexivity|].
    eexists. split; cbn [mapM]; [rewrite S1|rewrite S2]; cbn [bind]; [rewrite E1|rewrite E2]; reflexivity. }
  destruct (D plus) as (dp & -> & lp & P1 & P2); [intros; apply in_or_app; tauto|].
  destruct (D minus) as (dm & -> & lm & M1 & M2); [intros; apply in_or_app; tauto|].
  cbn [bind]. rewrite P1, P2. cbn [bind]. rewrite M1, M2. cbn [bind].
  unfold vcomb. destruct (forallb _ _); reflexivity.
Qed.

Lemma map_inj_partition {A B} (f : A -> B) (xs : list A) :
  (forall x y, In x xs -> In y xs -> f x = f y -> x = y) -> same_partition xs (map f xs).
Proof.
  intros Hf. split; [symmetry; apply map_length|]. intros i j dx dy Hi Hj.
  rewrite (nth_indep (map f xs) dy (f dx)), (nth_indep (map f xs) dy (f dx)) by (rewrite map_length; assumption).
  rewrite !map_nth. split; [congruence|]. apply Hf; apply nth_In; assumption.
Qed.

Lemma joint_self_partition (xs : list Z) :
  same_partition (sample (ETuple [A1 xs; A1 xs])) xs.
Proof.
  cbn [sample input_size arr_len]. split; [rewrite map_length, seq_length; reflexivity|].
  rewrite map_length, seq_length. intros i j dx dy Hi Hj.
  rewrite !(nth_seq_map (fun t => concat (map (fun c => nth t (arr_rows c) []) [A1 xs; A1 xs]))) by assumption.
  cbn [map concat arr_rows].
  assert (N : forall t, (t < length xs)%nat -> nth t (map (fun x => [x]) xs) [] = [nth t xs dy]).
  { intros t Ht. rewrite (nth_indep _ [] ((fun x => [x]) dy)) by (rewrite map_length; exact Ht).
    rewrite (map_nth (fun x => [x])). reflexivity. }
  rewrite !N by assumption. simpl. split; [intros Q; injection Q; auto|congruence].
Qed.

(** nine zeros and a one *)
Definition nine_one : list Z := [0;0;0;0;0;0;0;0;0;1]%Z.

Lemma nine_one_intensity : shrink_intensity nine_one <> 1.
Proof.
  unfold shrink_intensity, nvals, prob, count, nine_one.
  change (distinct [0;0;0;0;0;0;0;0;0;1]%Z) with [0;1]%Z.
  cbn [length Nat.eqb sumf].
  change (count_occ eq_dec [0;0;0;0;0;0;0;0;0;1]%Z 0%Z) with 9%nat.
  change (count_occ eq_dec [0;0;0;0;0;0;0;0;0;1]%Z 1%Z) with 1%nat.
  replace (INR 9) with 9 by (simpl; ring). replace (INR 10) with 10 by (simpl; ring).
  replace (INR 2) with 2 by (simpl; ring). replace (INR 1) with 1 by reflexivity.
  destruct (Req_EM_T _ _) as [E|N]; [exfalso; lra|].
  match goal with |- Rmin 1 (?a / ?b) <> 1 => replace (a / b) with (1 / 16) by (field; lra) end.
  unfold Rmin. destruct (Rle_dec 1 (1 / 16)); lra.
Qed.

(** ANSB as an estimator on data *)
Lemma ansb_global b xs : valid_base b -> xs <> [] ->
  e_global (est_ansb None) b (dd_of xs) = if Nat.ltb (nvals xs) (length xs) then Ok (AnsbH xs / unit_of b) else NonFinite.
Proof.
  intros V NE. unfold e_global. cbn [e_calc est_ansb].
  destruct (Nat.ltb_spec (nvals xs) (length xs)) as [L|L].
  - rewrite ansb_ok by assumption. reflexivity.
  - rewrite ansb_undefined by (pose proof (nvals_le xs); lia). reflexivity.
Qed.
