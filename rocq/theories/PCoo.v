(** Proofs about the contingency table: cell sums are sums over samples. *)
From Coq Require Import Reals Lra Lia List ZArith Arith Bool Permutation.
From Verif Require Import Res RSum Spec Info Info2 Ord MBase MData MMI SpecBase PBase.
Import ListNotations.
Local Open Scope R_scope.

Lemma hs_alt {S A} `{EqDec A} (l : list S) (X : S -> A) : l <> [] ->
  hs l X = ln (INR (length l)) - sumf (fun s => ln (cnt l X (X s))) l / INR (length l).
Proof.
  intros NE. assert (Hn : 0 < INR (length l)) by (apply INR_pos; destruct l; simpl; [congruence|lia]).
  unfold hs. rewrite (sumf_ext _ (fun s => ln (cnt l X (X s)) - ln (INR (length l)))).
  - rewrite sumf_minus, sumf_const. field. lra.
  - intros s Hs. apply ln_div; [apply cnt_self_pos; exact Hs|exact Hn].
Qed.

Lemma eqb_nat x y : Nat.eqb x y = eqb x y.
Proof.
  unfold eqb. destruct (eq_dec x y) as [->|N]; [apply Nat.eqb_refl|apply Nat.eqb_neq; exact N].
Qed.

(** ** codes *)
Lemma codes_length a : length (codes a) = arr_len a.
Proof. destruct a; apply inverse_length. Qed.

Lemma inverse_nth {A} `{Cmp A} `{EqDec A} (xs : list A) d t : (t < length xs)%nat ->
  nth t (inverse xs) 0%nat = index_of (nth t xs d) (unique xs).
Proof.
  intros Ht. unfold inverse.
  rewrite (nth_indep _ 0%nat (index_of d (unique xs))) by (rewrite map_length; exact Ht).
  apply (map_nth (fun x => index_of x (unique xs))).
Qed.

Lemma inverse_lt {A} `{Cmp A} `{EqDec A} (xs : list A) t : (t < length xs)%nat ->
  (nth t (inverse xs) 0 < length (unique xs))%nat.
Proof.
  intros Ht. destruct xs as [|x xs'] eqn:E; [simpl in Ht; lia|]. rewrite <- E in *.
  rewrite (inverse_nth xs x t Ht). apply index_of_lt. apply unique_In. apply nth_In. exact Ht.
Qed.

Lemma inverse_eq {A} `{Cmp A} `{EqDec A} (xs : list A) d s t :
  (s < length xs)%nat -> (t < length xs)%nat ->
  (nth t (inverse xs) 0%nat = nth s (inverse xs) 0%nat <-> nth t xs d = nth s xs d).
Proof.
  intros Hs Ht. rewrite (inverse_nth xs d t Ht), (inverse_nth xs d s Hs).
  split; [|intros ->; reflexivity].
  apply index_of_inj; apply unique_In, nth_In; assumption.
Qed.

Lemma codes_lt a t : (t < arr_len a)%nat -> (nth t (codes a) 0 < nlevels a)%nat.
Proof. destruct a; apply inverse_lt. Qed.

(** value of variable [a] at sample [t] as a row *)
Definition arr_at (a : arr) (t : nat) : list Z := nth t (arr_rows a) [].

Lemma arr_at_A1 xs t : (t < length xs)%nat -> arr_at (A1 xs) t = [nth t xs 0%Z].
Proof.
  intros Ht. unfold arr_at. cbn [arr_rows].
  rewrite (nth_indep _ [] [0%Z]) by (rewrite map_length; exact Ht).
  apply (map_nth (fun x => [x])).
Qed.

Lemma codes_eq a s t : (s < arr_len a)%nat -> (t < arr_len a)%nat ->
  (nth t (codes a) 0%nat = nth s (codes a) 0%nat <-> arr_at a t = arr_at a s).
Proof.
  destruct a as [xs|rs]; cbn [arr_len codes]; intros Hs Ht.
  - rewrite !arr_at_A1 by assumption. rewrite (inverse_eq xs 0%Z) by assumption.
    split; [intros ->; reflexivity|congruence].
  - apply (inverse_eq rs []); assumption.
Qed.

(** ** uint64 products *)
Lemma u64_small z : (0 <= z < 2 ^ 64)%Z -> u64 z = z.
Proof. intros H. apply Z.mod_small. exact H. Qed.

Definition prodZ (l : list Z) : Z := fold_right Z.mul 1%Z l.

Lemma prodZ_pos l : Forall (fun z => (1 <= z)%Z) l -> (1 <= prodZ l)%Z.
Proof. induction 1; unfold prodZ in *; cbn [fold_right]; nia. Qed.

Lemma uprod_exact l : Forall (fun z => (1 <= z)%Z) l -> (prodZ l < 2 ^ 64)%Z -> uprod l = prodZ l.
Proof.
  induction 1 as [|z zs Hz HF IH]; intros HB; [reflexivity|].
  unfold uprod, prodZ in *. cbn [fold_right] in *. pose proof (prodZ_pos zs HF) as P. unfold prodZ in P.
  rewrite IH by nia. apply u64_small. nia.
Qed.

Lemma prodZ_le_pow l B : Forall (fun z => (1 <= z <= B)%Z) l ->
  (prodZ l <= B ^ Z.of_nat (length l))%Z.
Proof.
  induction 1 as [|z zs Hz HF IH]; [reflexivity|].
  cbn [length]. rewrite Nat2Z.inj_succ, Z.pow_succ_r by lia. unfold prodZ in *. cbn [fold_right].
  assert (1 <= fold_right Z.mul 1 zs)%Z.
  { apply prodZ_pos. eapply Forall_impl; [|exact HF]. intros; simpl in *; lia. }
  apply Z.mul_le_mono_nonneg; lia.
Qed.

Lemma ln_prodZ l : Forall (fun z => (1 <= z)%Z) l -> ln (IZR (prodZ l)) = sumf (fun z => ln (IZR z)) l.
Proof.
  induction 1 as [|z zs Hz HF IH]; [apply ln_1|].
  pose proof (prodZ_pos zs HF). unfold prodZ in *. cbn [fold_right sumf].
  rewrite mult_IZR, ln_mult, IH; [reflexivity| |]; apply IZR_lt; lia.
Qed.

(** ** the table *)
Section Coo.
Variable vars : list arr.
Variable N : nat.
Hypothesis Hlen : Forall (fun a => arr_len a = N) vars.
Hypothesis Hne : vars <> [].
Hypothesis HN : (0 < N)%nat.

Notation l := (seq 0 N).
Definition rowc (t : nat) : list nat := map (fun a => nth t (codes a) 0%nat) vars.
Definition the_coo : coo :=
  let rows := coo_rows vars in
  mkCoo (unique rows) (map (fun r => Z.of_nat (count rows r)) (unique rows)) (map nlevels vars).

Lemma hd_len : arr_len (hd (A1 []) vars) = N.
Proof using Hlen Hne. destruct vars as [|a r]; [congruence|]. inversion Hlen. assumption. Qed.

Lemma coo_rows_eq : coo_rows vars = map rowc l.
Proof using Hlen Hne.
  unfold coo_rows, rows_of. rewrite hd_len. apply map_ext. intros t. rewrite map_map. reflexivity.
Qed.

Lemma coo_of_ok : coo_of vars = Ok the_coo.
Proof using Hlen Hne.
  unfold coo_of. rewrite hd_len.
  assert (F : forallb (fun a => Nat.eqb (arr_len a) N) vars = true).
  { apply forallb_forall. intros a Ha. apply Nat.eqb_eq. rewrite Forall_forall in Hlen. auto. }
  rewrite F. reflexivity.
Qed.

Lemma entries_eq : combine (coo_coords the_coo) (coo_vals the_coo) =
  map (fun r => (r, Z.of_nat (count (coo_rows vars) r))) (unique (coo_rows vars)).
Proof using.
  unfold the_coo. cbn [coo_coords coo_vals].
  rewrite <- (map_id (unique (coo_rows vars))) at 1. apply combine_map.
Qed.

(** weighted sums over the stored cells are sums over the samples *)
Lemma cells_sum (g : list nat -> R) :
  sumf (fun rv => IZR (snd rv) * g (fst rv)) (combine (coo_coords the_coo) (coo_vals the_coo)) =
  sumf (fun t => g (rowc t)) l.
Proof using Hlen Hne.
  rewrite entries_eq, sumf_map. cbn [fst snd].
  rewrite <- (group l rowc (unique (coo_rows vars)) g).
  - apply sumf_ext. intros r _. rewrite cnt_count, <- coo_rows_eq, <- INR_IZR_INZ. reflexivity.
  - apply unique_NoDup.
  - intros s Hs. apply unique_In. rewrite coo_rows_eq. apply in_map. exact Hs.
Qed.

Lemma IZR_sumZ {A} (f : A -> Z) (m : list A) : IZR (sumZ (map f m)) = sumf (fun x => IZR (f x)) m.
Proof using. induction m as [|x xs IH]; [reflexivity|]. unfold sumZ in *. cbn [map fold_right sumf].
  rewrite plus_IZR, IH. reflexivity. Qed.

Lemma coo_sum_if_eq p : IZR (coo_sum_if the_coo p) = sumf (fun t => ind (p (rowc t))) l.
Proof using Hlen Hne.
  unfold coo_sum_if. rewrite IZR_sumZ. rewrite <- (cells_sum (fun r => ind (p r))).
  apply sumf_ext. intros [r v] _. cbn [fst snd]. destruct (p r); unfold ind; ring.
Qed.

Lemma coo_sum_eq : coo_sum the_coo = Z.of_nat N.
Proof using Hlen Hne.
  apply eq_IZR. unfold coo_sum. rewrite <- (map_id (coo_vals the_coo)), (IZR_sumZ (fun x => x)).
  change (fun x => IZR x) with IZR.
  assert (E : sumf IZR (coo_vals the_coo) =
     sumf (fun rv => IZR (snd rv) * 1) (combine (coo_coords the_coo) (coo_vals the_coo))).
  { rewrite entries_eq. unfold the_coo. cbn [coo_vals]. rewrite !sumf_map. apply sumf_ext.
    intros. cbn [snd]. ring. }
  rewrite E, (cells_sum (fun _ => 1)), sumf_const, seq_length, <- INR_IZR_INZ. ring.
Qed.

Lemma rowc_nth i t : (i < length vars)%nat ->
  nth i (rowc t) 0%nat = nth t (codes (nth i vars (A1 []))) 0%nat.
Proof using.
  intros Hi. unfold rowc.
  rewrite (nth_indep _ 0%nat ((fun a => nth t (codes a) 0%nat) (A1 []))) by (rewrite map_length; exact Hi).
  apply (map_nth (fun a => nth t (codes a) 0%nat)).
Qed.

Lemma var_len i : (i < length vars)%nat -> arr_len (nth i vars (A1 [])) = N.
Proof using Hlen. intros Hi. rewrite Forall_forall in Hlen. apply Hlen. apply nth_In. exact Hi. Qed.

Lemma shape_nth i : (i < length vars)%nat ->
  nth i (coo_shape the_coo) 0%nat = nlevels (nth i vars (A1 [])).
Proof using.
  intros Hi. unfold the_coo. cbn [coo_shape].
  rewrite (nth_indep _ 0%nat (nlevels (A1 []))) by (rewrite map_length; exact Hi). apply map_nth.
Qed.

Lemma row_in_shape i t : (i < length vars)%nat -> (t < N)%nat ->
  (nth i (rowc t) 0 < nth i (coo_shape the_coo) 0)%nat.
Proof using Hlen.
  intros Hi Ht. rewrite rowc_nth, shape_nth by exact Hi. apply codes_lt. rewrite var_len; assumption.
Qed.

Lemma nth_map_seq {B} (f : nat -> B) n a d : (a < n)%nat -> nth a (map f (seq 0 n)) d = f a.
Proof using.
  intros Ha. rewrite (nth_indep _ d (f 0%nat)) by (rewrite map_length, seq_length; exact Ha).
  rewrite map_nth, seq_nth by exact Ha. reflexivity.
Qed.

(** the random variable "code of variable i" *)
Definition Xi (i t : nat) : nat := nth i (rowc t) 0%nat.

Lemma marginal_eq i t : (i < length vars)%nat -> (t < N)%nat ->
  IZR (nth (Xi i t) (marginal the_coo i) 0%Z) = cnt l (Xi i) (Xi i t).
Proof using Hlen Hne.
  intros Hi Ht. unfold marginal. rewrite nth_map_seq by (apply row_in_shape; assumption).
  rewrite coo_sum_if_eq. unfold cnt. apply sumf_ext. intros s _. rewrite eqb_nat. reflexivity.
Qed.

Lemma marginal2_eq i j t : (i < length vars)%nat -> (j < length vars)%nat -> (t < N)%nat ->
  IZR (nth (Xi j t) (nth (Xi i t) (marginal2 the_coo i j) []) 0%Z) =
  cnt l (pair (Xi i) (Xi j)) (Xi i t, Xi j t).
Proof using Hlen Hne.
  intros Hi Hj Ht. unfold marginal2. rewrite nth_map_seq by (apply row_in_shape; assumption).
  rewrite nth_map_seq by (apply row_in_shape; assumption).
  rewrite coo_sum_if_eq. unfold cnt. apply sumf_ext. intros s _. rewrite !eqb_nat.
  unfold pair, eqb, Xi. f_equal.
  destruct (eq_dec (nth i (rowc s) 0%nat) (nth i (rowc t) 0%nat)),
           (eq_dec (nth j (rowc s) 0%nat) (nth j (rowc t) 0%nat)),
           (eq_dec (nth i (rowc s) 0%nat, nth j (rowc s) 0%nat)
                   (nth i (rowc t) 0%nat, nth j (rowc t) 0%nat)); simpl; congruence.
Qed.

Lemma cell_eq t : IZR (coo_cell the_coo (rowc t)) = cnt l rowc (rowc t).
Proof using Hlen Hne.
  unfold coo_cell. rewrite coo_sum_if_eq. unfold cnt. apply sumf_ext. intros s _.
  reflexivity.
Qed.

Lemma cnt_Z {A} `{EqDec A} (X : nat -> A) t z : In t l -> IZR z = cnt l X (X t) -> (1 <= z <= Z.of_nat N)%Z.
Proof using.
  intros Ht E. pose proof (cnt_self_ge1 l X t Ht). pose proof (cnt_le_n l X (X t)).
  rewrite seq_length, INR_IZR_INZ in H1. rewrite <- E in *. split; apply le_IZR; assumption.
Qed.

(** partition correspondence with the data *)
Lemma Xi_partition i s t : (i < length vars)%nat -> (s < N)%nat -> (t < N)%nat ->
  (Xi i t = Xi i s <-> arr_at (nth i vars (A1 [])) t = arr_at (nth i vars (A1 [])) s).
Proof using Hlen.
  intros Hi Hs Ht. unfold Xi. rewrite !rowc_nth by exact Hi.
  apply codes_eq; rewrite var_len; assumption.
Qed.

Lemma rowc_partition s t : (s < N)%nat -> (t < N)%nat ->
  (rowc t = rowc s <-> map (fun a => arr_at a t) vars = map (fun a => arr_at a s) vars).
Proof using Hlen.
  intros Hs Ht. unfold rowc. clear Hne.
  induction Hlen as [|a r Ha Hr IH]; [simpl; tauto|].
  cbn [map]. split; intros E; injection E as E0 E1.
  - f_equal; [apply codes_eq; try (rewrite Ha; assumption); exact E0|apply IH; assumption].
  - f_equal; [apply codes_eq; try (rewrite Ha; assumption); exact E0|apply IH; assumption].
Qed.

Lemma l_ne : l <> [].
Proof using HN. clear -HN. destruct N; [lia|discriminate]. Qed.
End Coo.
