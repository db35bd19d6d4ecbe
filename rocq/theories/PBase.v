(** Proofs about bases, [reduce_joint_space] and [DiscreteData]. *)
From Coq Require Import Reals Lra Lia List ZArith Arith Bool Permutation.
From Verif Require Import Res RSum Spec Info Info2 Ord MBase MData MEntropy SpecBase.
Import ListNotations.
Local Open Scope R_scope.

Lemma unit_neq0 b : valid_base b -> unit_of b <> 0.
Proof. destruct b as [|r]; simpl; [lra|]. intros [H N]. apply ln_neq0; assumption. Qed.

Lemma big_valid b : big_base b -> valid_base b.
Proof. destruct b; simpl; [auto|lra]. Qed.

Lemma big_unit b : big_base b -> 0 < unit_of b.
Proof. destruct b; simpl; [lra|apply ln_pos]. Qed.

Lemma np_log_ok x : 0 < x -> np_log x = Ok (ln x).
Proof. intros H. unfold np_log. destruct (Rlt_dec 0 x); [reflexivity|contradiction]. Qed.

Lemma np_log_bad x : x <= 0 -> np_log x = NonFinite.
Proof. intros H. unfold np_log. destruct (Rlt_dec 0 x); [lra|reflexivity]. Qed.

Lemma np_div_ok x y : y <> 0 -> np_div x y = Ok (x / y).
Proof. intros H. unfold np_div. destruct (Req_EM_T y 0); [contradiction|reflexivity]. Qed.

Lemma np_div_bad x : np_div x 0 = NonFinite.
Proof. unfold np_div. destruct (Req_EM_T 0 0); [reflexivity|congruence]. Qed.

Lemma log_base_ok b x : valid_base b -> 0 < x -> log_base b x = Ok (ln x / unit_of b).
Proof.
  intros V Hx. destruct b as [|r]; simpl.
  - rewrite np_log_ok by exact Hx. f_equal. field.
  - destruct V as [Hr Nr]. rewrite !(np_log_ok x) by exact Hx.
    destruct (Req_EM_T r 2) as [->|N2]; [reflexivity|].
    destruct (Req_EM_T r 10) as [->|N10]; [reflexivity|].
    destruct (Req_EM_T r 0) as [->|N0]; [lra|].
    destruct (Rlt_dec r 0); [lra|].
    cbn [bind]. rewrite np_log_ok by exact Hr. cbn [bind].
    apply np_div_ok. apply ln_neq0; assumption.
Qed.

Lemma to_base_ok b x : valid_base b -> to_base b x = Ok (x / unit_of b).
Proof.
  intros V. destruct b as [|r]; simpl.
  - f_equal. field.
  - destruct V as [Hr Nr].
    destruct (Req_EM_T r 0) as [->|N0]; [lra|].
    rewrite np_log_ok by exact Hr. cbn [bind]. apply np_div_ok. apply ln_neq0; assumption.
Qed.

Lemma dot_map {A} (f g : A -> R) (l : list A) : dot (map f l) (map g l) = sumf (fun x => f x * g x) l.
Proof.
  unfold dot. rewrite combine_map, map_map. unfold sumR. rewrite sumf_map. reflexivity.
Qed.

Lemma plogp_ok b p : valid_base b -> Forall (fun x => 0 < x) p ->
  plogp b p = Ok (EntVec p / unit_of b).
Proof.
  intros V HF. unfold plogp.
  rewrite (mapM_ok _ (fun x => ln x / unit_of b)).
  2:{ intros x Hx. apply log_base_ok; [exact V|]. rewrite Forall_forall in HF. auto. }
  cbn [bind]. f_equal. unfold EntVec.
  rewrite <- (map_id p) at 1. rewrite dot_map.
  rewrite (sumf_ext _ (fun x => x * ln x / unit_of b)) by (intros; unfold Rdiv; ring).
  rewrite sumf_div. pose proof (unit_neq0 b V). field. exact H.
Qed.

(** ** DiscreteData *)
Lemma sumZ_of_nat {A} (f : A -> nat) l :
  sumZ (map (fun x => Z.of_nat (f x)) l) = Z.of_nat (fold_right (fun x s => f x + s)%nat 0%nat l).
Proof. induction l as [|x xs IH]; [reflexivity|]. unfold sumZ in *. cbn [map fold_right]. rewrite IH. lia. Qed.

Lemma sum_counts {A} `{Cmp A} `{EqDec A} (xs : list A) :
  fold_right (fun v s => count xs v + s)%nat 0%nat (unique xs) = length xs.
Proof.
  apply INR_eq. rewrite <- sumf_INR.
  rewrite (sumf_perm _ _ _ (unique_perm_distinct xs)).
  pose proof (group xs (fun x => x) (distinct xs) (fun _ => 1) (NoDup_nodup _ _)) as G.
  cbv beta in G. rewrite sumf_const in G.
  rewrite <- (Rmult_1_r (INR (length xs))). rewrite <- G.
  - apply sumf_ext. intros v _. rewrite cnt_count, map_id. ring.
  - intros s Hs. apply nodup_In. exact Hs.
Qed.

Lemma from_data_ok (xs : list Z) : xs <> [] ->
  from_data xs = Ok (mkDD (unique xs) (map Z.of_nat (unique_counts xs)) (Some xs)).
Proof.
  intros NE. unfold from_data. destruct xs as [|x xs']; [congruence|].
  cbn [length Nat.eqb]. remember (x :: xs') as xs eqn:Ex. unfold post_init.
  rewrite map_length. unfold unique_counts at 1. rewrite map_length, Nat.eqb_refl. cbn [negb].
  assert (E : existsb (fun z => Z.ltb z 0) (map Z.of_nat (unique_counts xs)) = false).
  { apply not_true_iff_false. intros E. apply existsb_exists in E. destruct E as [z [Hz L]].
    apply in_map_iff in Hz. destruct Hz as [k [<- _]]. apply Z.ltb_lt in L. lia. }
  rewrite E.
  assert (Es : sumZ (map Z.of_nat (unique_counts xs)) = Z.of_nat (length xs)).
  { unfold unique_counts. rewrite map_map, sumZ_of_nat, sum_counts. reflexivity. }
  rewrite Es. rewrite Z.eqb_refl. cbn [negb].
  assert (L : length xs <> 0%nat) by (subst; discriminate).
  destruct (Z.eqb_spec (Z.of_nat (length xs)) 0); [lia|].
  destruct (Nat.eqb_spec (length xs) 0); [lia|]. reflexivity.
Qed.

Lemma from_data_nil : from_data [] = Raise ValueError.
Proof. reflexivity. Qed.

(** the [DiscreteData] of a non-empty array *)
Definition dd_of (xs : list Z) : ddata := mkDD (unique xs) (map Z.of_nat (unique_counts xs)) (Some xs).

Lemma probs_dd_of xs : probabilities (dd_of xs) = map (prob xs) (unique xs).
Proof.
  unfold probabilities, dd_of, dd_N. cbn [dd_counts dd_data].
  unfold unique_counts. rewrite !map_map. apply map_ext. intros v.
  unfold prob. rewrite <- !INR_IZR_INZ. reflexivity.
Qed.

Lemma prob_pos {A} `{EqDec A} (xs : list A) v : In v xs -> 0 < prob xs v.
Proof.
  intros Hv. unfold prob. apply Rdiv_lt_0_compat; apply INR_pos.
  - unfold count. apply count_occ_In. exact Hv.
  - destruct xs; [destruct Hv|simpl; lia].
Qed.

Lemma prob_le1 {A} `{EqDec A} (xs : list A) v : prob xs v <= 1.
Proof.
  unfold prob. destruct xs as [|x xs'] eqn:E.
  - simpl. unfold Rdiv. rewrite Rmult_0_l. lra.
  - rewrite <- E. assert (0 < INR (length xs)) by (apply INR_pos; subst; simpl; lia).
    apply Rmult_le_reg_r with (INR (length xs)); [assumption|].
    unfold Rdiv. rewrite Rmult_assoc, Rinv_l, Rmult_1_r, Rmult_1_l by lra.
    apply le_INR. unfold count. apply count_occ_bound.
Qed.

Lemma prob_nonneg {A} `{EqDec A} (xs : list A) v : 0 <= prob xs v.
Proof.
  unfold prob. destruct xs as [|x xs']; [simpl; unfold Rdiv; rewrite Rmult_0_l; lra|].
  apply Rmult_le_pos; [apply pos_INR|]. left. apply Rinv_0_lt_compat, INR_pos. simpl. lia.
Qed.

Lemma prob_sum1 {A} `{Cmp A} `{EqDec A} (xs : list A) : xs <> [] -> sumf (prob xs) (unique xs) = 1.
Proof.
  intros NE. unfold prob. rewrite sumf_div, sumf_INR, sum_counts.
  field. apply not_0_INR. destruct xs; [congruence|discriminate].
Qed.

Lemma sumf_map' {A B} (h : A -> B) (f : B -> R) l : sumf f (map h l) = sumf (fun x => f (h x)) l.
Proof. apply sumf_map. Qed.

Lemma EntVec_probs (xs : list Z) : EntVec (map (prob xs) (unique xs)) = Ent xs.
Proof.
  unfold EntVec, Ent. rewrite sumf_map. f_equal.
  apply sumf_perm, unique_perm_distinct.
Qed.

Lemma probs_pos (xs : list Z) : Forall (fun x => 0 < x) (map (prob xs) (unique xs)).
Proof.
  apply Forall_forall. intros p Hp. apply in_map_iff in Hp. destruct Hp as [v [<- Hv]].
  apply prob_pos. apply unique_In. exact Hv.
Qed.

Lemma discrete_simple_ok b xs : valid_base b ->
  discrete_simple b (dd_of xs) = Ok (Ent xs / unit_of b).
Proof.
  intros V. unfold discrete_simple. rewrite probs_dd_of, plogp_ok by (auto using probs_pos).
  rewrite EntVec_probs. reflexivity.
Qed.

(** ** reduce_joint_space *)
Lemma reduce_rows_length rs : length (reduce_rows rs) = length rs.
Proof. unfold reduce_rows. rewrite map_length. apply inverse_length. Qed.

Lemma reduce_rows_nth rs i : (i < length rs)%nat ->
  nth i (reduce_rows rs) 0%Z = Z.of_nat (index_of (nth i rs []) (unique rs)).
Proof.
  intros Hi. unfold reduce_rows, inverse. rewrite map_map.
  rewrite (nth_indep _ 0%Z (Z.of_nat (index_of [] (unique rs)))) by (rewrite map_length; exact Hi).
  exact (map_nth (fun x => Z.of_nat (index_of x (unique rs))) rs [] i).
Qed.

Lemma reduce_rows_eq rs i j : (i < length rs)%nat -> (j < length rs)%nat ->
  (nth i (reduce_rows rs) 0%Z = nth j (reduce_rows rs) 0%Z <-> nth i rs [] = nth j rs []).
Proof.
  intros Hi Hj. rewrite !reduce_rows_nth by assumption. split; [|intros ->; reflexivity].
  intros E. apply Nat2Z.inj in E.
  eapply index_of_inj; [| |exact E]; apply unique_In, nth_In; assumption.
Qed.

Lemma reduce_rows_partition rs : same_partition rs (reduce_rows rs).
Proof.
  split; [symmetry; apply reduce_rows_length|].
  intros i j dx dy Hi Hj.
  rewrite (nth_indep rs dx []) by assumption. rewrite (nth_indep rs dx []) by assumption.
  rewrite (nth_indep _ dy 0%Z) by (rewrite reduce_rows_length; assumption).
  rewrite (nth_indep _ dy 0%Z) by (rewrite reduce_rows_length; assumption).
  symmetry. apply reduce_rows_eq; assumption.
Qed.

Lemma reduce_rows_Ent rs : Ent (reduce_rows rs) = Ent rs.
Proof. symmetry. apply Ent_partition, reduce_rows_partition. Qed.

Lemma reduce_rows_nil rs : reduce_rows rs = [] <-> rs = [].
Proof.
  split; intros E; [|subst; reflexivity].
  apply (f_equal (@length Z)) in E. rewrite reduce_rows_length in E.
  destruct rs; [reflexivity|discriminate].
Qed.

Lemma column_stack_ok n (cols : list (list Z)) :
  cols <> [] -> all_len n cols ->
  column_stack (map A1 cols) = Ok (rows_of 0%Z n cols).
Proof.
  intros NE HL. unfold column_stack.
  destruct (map A1 cols) as [|a r] eqn:E; [destruct cols; [congruence|discriminate]|].
  rewrite <- E.
  assert (Hn : arr_len a = n).
  { destruct cols as [|c cs]; [congruence|]. injection E as <- _. inversion HL. assumption. }
  rewrite Hn.
  assert (F : forallb (fun c => Nat.eqb (arr_len c) n) (map A1 cols) = true).
  { apply forallb_forall. intros c Hc. apply in_map_iff in Hc. destruct Hc as [c' [<- Hc']].
    apply Nat.eqb_eq. unfold all_len in HL. rewrite Forall_forall in HL. simpl. auto. }
  rewrite F. f_equal. unfold rows_of. apply map_ext_in. intros t Ht. apply in_seq in Ht.
  rewrite map_map. unfold all_len in HL. clear -HL Ht.
  induction HL as [|c cs Hc HL IH]; [reflexivity|].
  cbn [map concat]. rewrite IH. cbn [arr_rows].
  rewrite (nth_indep _ [] [0%Z]) by (rewrite map_length; lia).
  rewrite (map_nth (fun x => [x]) c 0%Z t). reflexivity.
Qed.

Lemma rows_of_length {A} (d : A) n cols : length (rows_of d n cols) = n.
Proof. unfold rows_of. rewrite map_length, seq_length. reflexivity. Qed.

Lemma column_stack_bad cols a : 
  (forall c, In c cols -> exists xs, c = A1 xs) ->
  In a cols -> arr_len a <> arr_len (hd (A1 []) cols) -> column_stack cols = Raise ValueError.
Proof.
  intros _ Ha N. unfold column_stack. destruct cols as [|c cs]; [reflexivity|].
  cbn [hd] in N.
  destruct (forallb (fun c0 => Nat.eqb (arr_len c0) (arr_len c)) (c :: cs)) eqn:F; [|reflexivity].
  rewrite forallb_forall in F. apply F in Ha. apply Nat.eqb_eq in Ha. contradiction.
Qed.
