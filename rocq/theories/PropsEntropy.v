(** Property theorems C01-C05 and the discrete/Miller-Madow part of C06. *)
From Coq Require Import Reals Lra Lia List ZArith Arith Bool Permutation Sorted.
From Verif Require Import Res RSum Spec Info Info2 Gibbs Ord MBase MData MEntropy SpecBase PBase PEntropy.
Import ListNotations.
Local Open Scope R_scope.

(** C01.  [entropy(x, approach="discrete", base=b)] is the plug-in Shannon entropy.
    [Ent] (Spec.v) is minus the sum over the distinct values v of p(v) ln p(v),
    p(v) = count/N; dividing by [ln b] changes the unit. *)
Theorem C01_discrete_entropy_is_plugin : forall b xs,
  valid_base b -> xs <> [] ->
  entropy_discrete b (EArr (A1 xs)) = Ok (Ent xs / unit_of b).
Proof. exact entropy_1d. Qed.
Print Assumptions C01_discrete_entropy_is_plugin.

Theorem C01_empty_rejected : forall b, entropy_discrete b (EArr (A1 [])) = Raise ValueError.
Proof. reflexivity. Qed.

(** C02 *)
Theorem C02_discrete_entropy_bounds : forall b xs,
  big_base b -> xs <> [] ->
  let K := INR (length (distinct xs)) in
  let N := INR (length xs) in
  exists h, entropy_discrete b (EArr (A1 xs)) = Ok h /\
    0 <= h <= ln K / unit_of b /\ ln K / unit_of b <= ln N / unit_of b /\
    (h = 0 <-> (forall x y, In x xs -> In y xs -> x = y)) /\
    (h = ln K / unit_of b <-> (forall x y, In x xs -> In y xs -> count xs x = count xs y)).
Proof.
  intros b xs B NE K N. exists (Ent xs / unit_of b).
  pose proof (big_unit b B) as U. pose proof (Rinv_0_lt_compat _ U) as IU.
  pose proof (Ent_nonneg xs). pose proof (Ent_le_lnK xs NE).
  pose proof (distinct_length_pos xs NE). pose proof (distinct_length_le xs).
  split; [apply entropy_1d; auto using big_valid|].
  split; [split; unfold Rdiv|].
  { apply Rmult_le_pos; lra. }
  { apply Rmult_le_compat_r; [lra|exact H0]. }
  split.
  { unfold Rdiv. apply Rmult_le_compat_r; [lra|]. apply ln_monotone; [apply INR_pos; exact H1|].
    apply le_INR. exact H2. }
  assert (C : forall y, Ent xs / unit_of b = y / unit_of b <-> Ent xs = y).
  { intros y. split; [|intros ->; reflexivity]. intros E.
    apply (Rmult_eq_reg_r (/ unit_of b)); [exact E|lra]. }
  split.
  - rewrite <- (Ent_zero_iff xs NE). rewrite <- C. unfold Rdiv. rewrite Rmult_0_l. reflexivity.
  - rewrite C. apply Ent_max_iff. exact NE.
Qed.
Print Assumptions C02_discrete_entropy_bounds.

(** C03 *)
Theorem C03_entropy_ignores_order : forall b xs ys,
  valid_base b -> Permutation xs ys ->
  entropy_discrete b (EArr (A1 xs)) = entropy_discrete b (EArr (A1 ys)).
Proof.
  intros b xs ys V P. destruct xs as [|x xs'] eqn:E.
  - apply Permutation_nil in P. subst. reflexivity.
  - rewrite <- E in *. assert (xs <> []) by (subst; discriminate).
    assert (ys <> []) by (intros ->; apply Permutation_sym, Permutation_nil in P; congruence).
    rewrite !entropy_1d by assumption. rewrite (Ent_perm xs ys P). reflexivity.
Qed.
Print Assumptions C03_entropy_ignores_order.

Theorem C03_entropy_ignores_names : forall b (f : Z -> Z) xs,
  valid_base b -> (forall x y, In x xs -> In y xs -> f x = f y -> x = y) ->
  entropy_discrete b (EArr (A1 (map f xs))) = entropy_discrete b (EArr (A1 xs)).
Proof.
  intros b f xs V Inj. destruct xs as [|x xs'] eqn:E; [reflexivity|]. rewrite <- E in *.
  rewrite !entropy_1d; auto; try (subst; discriminate). rewrite Ent_map_inj by exact Inj. reflexivity.
Qed.
Print Assumptions C03_entropy_ignores_names.

(** C04.  A tuple of 1-D arrays (columns) of common length [n > 0] *)
Theorem C04_joint_entropy_of_rows : forall b n cols,
  valid_base b -> cols <> [] -> all_len n cols -> (0 < n)%nat ->
  entropy_discrete b (ETuple (map A1 cols)) = Ok (Ent (rows_of 0%Z n cols) / unit_of b).
Proof. exact entropy_tuple. Qed.
Print Assumptions C04_joint_entropy_of_rows.

(** a 2-D array is the joint variable of its columns: entropy of its rows *)
Theorem C04_2d_entropy_of_rows : forall b rs,
  valid_base b -> rs <> [] ->
  entropy_discrete b (EArr (A2 rs)) = Ok (Ent rs / unit_of b).
Proof. exact entropy_2d. Qed.

Theorem C04_unequal_lengths_rejected : forall b cols c d,
  In c cols -> In d cols -> arr_len c <> arr_len d ->
  entropy_discrete b (ETuple cols) = Raise ValueError.
Proof. exact entropy_tuple_bad. Qed.

Theorem C04_joint_entropy_bounds : forall b n cols,
  big_base b -> cols <> [] -> all_len n cols -> (0 < n)%nat ->
  exists h, entropy_discrete b (ETuple (map A1 cols)) = Ok h /\
    (forall c, In c cols -> exists hc, entropy_discrete b (EArr (A1 c)) = Ok hc /\ hc <= h) /\
    h <= sumf Ent cols / unit_of b.
Proof.
  intros b n cols B NE HL Hn. exists (Ent (rows_of 0%Z n cols) / unit_of b).
  pose proof (big_unit b B) as U. pose proof (Rinv_0_lt_compat _ U) as IU.
  split; [apply entropy_tuple; auto using big_valid|]. split.
  - intros c Hc. assert (Lc : length c = n).
    { unfold all_len in HL. rewrite Forall_forall in HL. auto. }
    exists (Ent c / unit_of b). split.
    + apply entropy_1d; [auto using big_valid|]. intros ->. simpl in Lc. lia.
    + unfold Rdiv. apply Rmult_le_compat_r; [lra|]. apply Ent_rows_ge_col; assumption.
  - unfold Rdiv. apply Rmult_le_compat_r; [lra|].
    pose proof (TotalCorr_nonneg 0%Z n Hn cols HL). unfold TotalCorr in H. lra.
Qed.
Print Assumptions C04_joint_entropy_bounds.

Theorem C04_joint_entropy_symmetric : forall b n cols cols',
  valid_base b -> cols <> [] -> all_len n cols -> (0 < n)%nat -> Permutation cols cols' ->
  entropy_discrete b (ETuple (map A1 cols)) = entropy_discrete b (ETuple (map A1 cols')).
Proof.
  intros b n cols cols' V NE HL Hn P.
  assert (HL' : all_len n cols') by (unfold all_len; rewrite <- P; exact HL).
  assert (NE' : cols' <> []) by (intros ->; apply Permutation_sym, Permutation_nil in P; congruence).
  rewrite !(entropy_tuple b n) by assumption. do 2 f_equal. apply Ent_partition.
  split; [rewrite !rows_of_length; reflexivity|].
  intros i j dx dy Hi Hj. rewrite rows_of_length in *.
  assert (Nth : forall cs k d, (k < n)%nat ->
     nth k (rows_of 0%Z n cs) d = map (fun c => nth k c 0%Z) cs).
  { intros cs k d Hk. unfold rows_of.
    rewrite (nth_indep _ d ((fun t => map (fun c => nth t c 0%Z) cs) 0%nat))
      by (rewrite map_length, seq_length; exact Hk).
    rewrite (map_nth (fun t => map (fun c => nth t c 0%Z) cs)). rewrite seq_nth by exact Hk. reflexivity. }
  rewrite !Nth by assumption.
  assert (G : forall cs : list (list Z), map (fun c => nth i c 0%Z) cs = map (fun c => nth j c 0%Z) cs <->
     (forall c, In c cs -> nth i c 0%Z = nth j c 0%Z)).
  { clear. induction cs as [|c cs IH]; simpl; split; try tauto.
    - intros E c' [<-|Hc]; [congruence|]. apply IH; [congruence|exact Hc].
    - intros Hc. f_equal; [apply Hc; auto|]. apply IH. auto. }
  rewrite !G. split; intros Hc c Hin; apply Hc; [rewrite P|rewrite <- P]; exact Hin.
Qed.
Print Assumptions C04_joint_entropy_symmetric.

(** C05 *)
Definition codes_identify (rs : list (list Z)) (codes : list Z) : Prop :=
  length codes = length rs /\
  (forall i j, (i < length rs)%nat -> (j < length rs)%nat ->
     (nth i codes 0 = nth j codes 0 <-> nth i rs [] = nth j rs []))%Z /\
  (forall i j, (i < length rs)%nat -> (j < length rs)%nat ->
     ((nth i codes 0 < nth j codes 0)%Z <-> lexcmp (nth i rs []) (nth j rs []) = Lt)) /\
  (forall c, In c codes <-> (0 <= c < Z.of_nat (length (distinct rs)))%Z).

Lemma reduce_rows_identify rs : codes_identify rs (reduce_rows rs).
Proof.
  split; [apply reduce_rows_length|].
  split; [intros i j Hi Hj; apply reduce_rows_eq; assumption|]. split.
  - intros i j Hi Hj. rewrite !reduce_rows_nth by assumption.
    pose proof (index_of_lt_iff (nth i rs []) (nth j rs []) (unique rs) (unique_sorted rs)
      (proj2 (unique_In rs _) (nth_In rs [] Hi)) (proj2 (unique_In rs _) (nth_In rs [] Hj))) as E.
    unfold lt in E. cbn [cmp Cmp_list] in E. rewrite <- E. lia.
  - intros c. rewrite <- unique_length. unfold reduce_rows, inverse. rewrite map_map.
    rewrite in_map_iff. split.
    + intros [r [<- Hr]]. assert (index_of r (unique rs) < length (unique rs))%nat; [|lia].
      apply index_of_lt. apply unique_In. exact Hr.
    + intros Hc. exists (nth (Z.to_nat c) (unique rs) []).
      assert (Hlt : (Z.to_nat c < length (unique rs))%nat) by lia. split.
      * rewrite index_of_nth; [lia|apply unique_NoDup|exact Hlt].
      * apply unique_In. apply nth_In. exact Hlt.
Qed.

Theorem C05_reduce_codes : forall rs,
  exists codes : list Z, reduce_joint_space (RArr (A2 rs)) = Ok codes /\ codes_identify rs codes.
Proof. intros rs. eexists. split; [reflexivity|apply reduce_rows_identify]. Qed.
Print Assumptions C05_reduce_codes.

Theorem C05_tuple_reduces_rows : forall n cols,
  cols <> [] -> all_len n cols ->
  exists codes : list Z, reduce_joint_space (RTuple (map A1 cols)) = Ok codes /\
    codes_identify (rows_of 0%Z n cols) codes.
Proof.
  intros n cols NE HL. cbn. rewrite (column_stack_ok n) by assumption.
  eexists. split; [reflexivity|apply reduce_rows_identify].
Qed.

Theorem C05_1d_unchanged : forall xs, reduce_joint_space (RArr (A1 xs)) = Ok xs.
Proof. reflexivity. Qed.

Theorem C05_list_rejected : reduce_joint_space RList = Raise ValueError.
Proof. reflexivity. Qed.

(** C06, discrete and Miller-Madow entropy *)
Definition input_len (i : einput) : nat :=
  match i with EArr a => arr_len a | ETuple cols => arr_len (hd (A1 []) cols) end.

Theorem C06_discrete_local_mean : forall b i ls,
  valid_base b -> local_discrete b i = Ok ls ->
  entropy_discrete b i = Ok (mean ls) /\ length ls = input_len i.
Proof. exact local_discrete_mean. Qed.
Print Assumptions C06_discrete_local_mean.

Theorem C06_millermadow_local_mean : forall b i ls,
  valid_base b -> local_mm b i = Ok ls ->
  entropy_mm b i = Ok (mean ls) /\ length ls = input_len i.
Proof. exact local_mm_mean. Qed.
Print Assumptions C06_millermadow_local_mean.

(** every non-empty 1-D array does yield local values *)
Theorem C06_discrete_local_defined : forall b xs,
  valid_base b -> xs <> [] -> exists ls, local_discrete b (EArr (A1 xs)) = Ok ls.
Proof. intros b xs V NE. eexists. apply local_1d; assumption. Qed.

(** ** Hypotheses are met by concrete data *)
Example C01_example : valid_base (BNum 2) /\ [1; 2; 1; 3]%Z <> [] /\
  distinct [1; 2; 1; 3]%Z = [2; 1; 3]%Z /\ map (count [1; 2; 1; 3]%Z) [2; 1; 3]%Z = [1; 2; 1]%nat.
Proof. simpl. repeat split; try lra; try discriminate. Qed.
Example C02_example : big_base (BNum 2) /\ [0; 0; 1; 1]%Z <> [] /\
  length (distinct [0; 0; 1; 1]%Z) = 2%nat /\
  (forall x y, In x [0; 0; 1; 1]%Z -> In y [0; 0; 1; 1]%Z ->
     count [0; 0; 1; 1]%Z x = count [0; 0; 1; 1]%Z y).
Proof.
  repeat split; simpl; try lra; try discriminate.
  intros x y Hx Hy. repeat (destruct Hx as [<-|Hx] || destruct Hx);
  repeat (destruct Hy as [<-|Hy] || destruct Hy); reflexivity.
Qed.
Example C03_example : Permutation [1; 2; 3]%Z [3; 1; 2]%Z /\
  (forall x y, In x [1; 2; 3]%Z -> In y [1; 2; 3]%Z -> (x * 7 - 3)%Z = (y * 7 - 3)%Z -> x = y).
Proof.
  split; [|intros; lia].
  apply Permutation_sym. apply (Permutation_cons_append [1; 2]%Z 3%Z).
Qed.
Example C04_example : [[0; 1; 0]; [5; 5; 7]]%Z <> [] /\ all_len 3 [[0; 1; 0]; [5; 5; 7]]%Z /\
  rows_of 0%Z 3 [[0; 1; 0]; [5; 5; 7]]%Z = [[0; 5]; [1; 5]; [0; 7]]%Z.
Proof. repeat split; try discriminate. repeat constructor. Qed.
Example C05_example : reduce_rows [[1; 0]; [0; 9]; [1; 0]; [0; 3]]%Z = [2; 1; 2; 0]%Z.
Proof. reflexivity. Qed.
Example C06_example : exists ls, local_discrete (BNum 2) (EArr (A1 [4; 4; 2]%Z)) = Ok ls.
Proof. apply C06_discrete_local_defined; [simpl; lra|discriminate]. Qed.
