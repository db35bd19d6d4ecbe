(** Property theorems: percentiles and confidence intervals of a statistical test (C36). *)
From Coq Require Import Reals Lra Lia List ZArith Arith Bool Permutation Sorting.Sorted.
From Verif Require Import Res MPct.
Import ListNotations.
Local Open Scope R_scope.

Lemma insR_perm x l : Permutation (insR x l) (x :: l).
Proof.
  induction l as [|y r IH]; simpl; [reflexivity|]. destruct (Rlt_dec y x); [|reflexivity]. rewrite IH. apply perm_swap.
Qed.
Lemma sortR_perm l : Permutation (sortR l) l.
Proof. induction l as [|x l IH]; simpl; [constructor|]. rewrite insR_perm. constructor. exact IH. Qed.
Lemma insR_sorted x l : StronglySorted Rle l -> StronglySorted Rle (insR x l).
Proof.
  induction l as [|y r IH]; intros S; simpl; [repeat constructor|]. inversion S; subst. destruct (Rlt_dec y x) as [L|L].
  - constructor; [apply IH; assumption|]. apply Forall_forall. intros z Hz. apply (Permutation_in _ (insR_perm x r)) in Hz.
    destruct Hz as [<-|Hz]; [lra|]. rewrite Forall_forall in H2. auto.
  - constructor; [exact S|]. constructor; [lra|]. apply Forall_forall. intros z Hz. rewrite Forall_forall in H2. specialize (H2 z Hz). lra.
Qed.
Lemma sortR_sorted l : StronglySorted Rle (sortR l).
Proof. induction l as [|x l IH]; simpl; [constructor|]. apply insR_sorted, IH. Qed.

Lemma sorted_le s : StronglySorted Rle s -> forall i j, (i <= j < length s)%nat -> nth i s 0 <= nth j s 0.
Proof.
  induction 1 as [|x s S IH F]; intros i j L; simpl in L; [lia|]. destruct i as [|i], j as [|j]; simpl; try lia; try lra.
  - rewrite Forall_forall in F. apply F, nth_In. lia.
  - apply IH. lia.
Qed.

(** a sorted list is determined by its elements *)
Lemma sorted_perm_eq s : forall t, StronglySorted Rle s -> StronglySorted Rle t -> Permutation s t -> s = t.
Proof.
  induction s as [|x s IH]; intros t S T P; [apply Permutation_nil in P; congruence|].
  destruct t as [|y t]; [symmetry in P; apply Permutation_nil in P; discriminate|].
  inversion S; inversion T; subst. rewrite Forall_forall in *.
  assert (x = y).
  { assert (Ix : In x (y :: t)) by (apply (Permutation_in _ P); left; reflexivity).
    assert (Iy : In y (x :: s)) by (apply (Permutation_in _ (Permutation_sym P)); left; reflexivity).
    destruct Ix as [->|Ix]; [reflexivity|]. destruct Iy as [->|Iy]; [reflexivity|].
    specialize (H2 y Iy). specialize (H6 x Ix). lra. }
  subst y. f_equal. apply IH; auto. eapply Permutation_cons_inv, P.
Qed.

(** interpolation at position [t] *)
Definition interp (s : list R) (t : R) : R :=
  let j := Z.to_nat (Int_part t) in
  nth j s 0 + (nth (Nat.min (j + 1) (length s - 1)) s 0 - nth j s 0) * (t - IZR (Int_part t)).

Lemma int_part_bounds t n : 0 <= t <= INR n - 1 -> IZR (Int_part t) <= t < IZR (Int_part t) + 1 /\ (Z.to_nat (Int_part t) < n)%nat /\ (0 <= Int_part t)%Z.
Proof.
  intros [T0 T1]. destruct (base_Int_part t) as [B1 B2]. split; [lra|].
  assert (P : (0 <= Int_part t)%Z).
  { assert (-1 < Int_part t)%Z; [|lia]. apply lt_IZR. simpl. lra. }
  split; [|exact P]. apply Nat2Z.inj_lt. rewrite Z2Nat.id by exact P. apply lt_IZR. rewrite <- INR_IZR_INZ. lra.
Qed.

Lemma int_part_mono t u : t <= u -> (Int_part t <= Int_part u)%Z.
Proof.
  intros L. destruct (base_Int_part t), (base_Int_part u). assert (Int_part t < Int_part u + 1)%Z; [|lia].
  apply lt_IZR. rewrite plus_IZR. simpl. lra.
Qed.

Section Interp.
Context (s : list R) (S : StronglySorted Rle s).

Lemma interp_bounds t : 0 <= t <= INR (length s) - 1 ->
  nth (Z.to_nat (Int_part t)) s 0 <= interp s t <= nth (Nat.min (Z.to_nat (Int_part t) + 1) (length s - 1)) s 0.
Proof.
  intros T. destruct (int_part_bounds t _ T) as ([B1 B2] & J & P). unfold interp.
  assert (L : nth (Z.to_nat (Int_part t)) s 0 <= nth (Nat.min (Z.to_nat (Int_part t) + 1) (length s - 1)) s 0) by (apply sorted_le; [exact S|lia]).
  nra.
Qed.

Lemma interp_mono t u : 0 <= t -> t <= u -> u <= INR (length s) - 1 -> interp s t <= interp s u.
Proof.
  intros T TU U. pose proof (int_part_mono t u TU) as M.
  destruct (Z.eq_dec (Int_part t) (Int_part u)) as [E|N].
  - destruct (int_part_bounds t (length s) ltac:(lra)) as ([B1 B2] & J & P). unfold interp. rewrite <- E.
    assert (L : nth (Z.to_nat (Int_part t)) s 0 <= nth (Nat.min (Z.to_nat (Int_part t) + 1) (length s - 1)) s 0) by (apply sorted_le; [exact S|lia]).
    nra.
  - destruct (int_part_bounds t (length s) ltac:(lra)) as (_ & J & P). destruct (int_part_bounds u (length s) ltac:(lra)) as (_ & J' & P').
    apply Rle_trans with (nth (Nat.min (Z.to_nat (Int_part t) + 1) (length s - 1)) s 0); [apply interp_bounds; lra|].
    apply Rle_trans with (nth (Z.to_nat (Int_part u)) s 0); [|apply interp_bounds; lra]. apply sorted_le; [exact S|]. lia.
Qed.
End Interp.

Lemma percentile_ok vals q : vals <> [] -> 0 <= q <= 100 ->
  percentile vals q = Ok (interp (sortR vals) ((INR (length vals) - 1) * (q / 100))).
Proof.
  intros NE Q. unfold percentile. destruct (Rlt_dec q 0); [lra|]. destruct (Rlt_dec 100 q); [lra|].
  pose proof (Permutation_length (sortR_perm vals)) as L. unfold interp. rewrite <- L.
  destruct (sortR vals) as [|x s] eqn:E; [destruct vals; [congruence|simpl in L; lia]|reflexivity].
Qed.

Lemma position vals q : vals <> [] -> 0 <= q <= 100 -> 0 <= (INR (length vals) - 1) * (q / 100) <= INR (length (sortR vals)) - 1.
Proof.
  intros NE Q. rewrite (Permutation_length (sortR_perm vals)).
  assert (1 <= INR (length vals)) by (destruct vals; [congruence|cbn [length]; rewrite S_INR; pose proof (pos_INR (length vals)); lra]).
  nra.
Qed.

(** Values in ascending order: any sorted rearrangement of the test values.  At q = 100 (k+g)/(n-1) the
    percentile is the interpolation between the k-th and (k+1)-th value; at 100 it is the largest. *)
Theorem C36_percentile_interpolates vals s q : vals <> [] -> 0 <= q <= 100 -> Permutation s vals -> StronglySorted Rle s ->
  exists v, percentile vals q = Ok v /\
  (forall k g, (k + 1 < length s)%nat -> 0 <= g < 1 -> q / 100 * (INR (length s) - 1) = INR k + g -> v = (1 - g) * nth k s 0 + g * nth (k + 1) s 0) /\
  (q = 100 -> v = nth (length s - 1) s 0).
Proof.
  intros NE Q P S. eexists. split; [apply percentile_ok; assumption|].
  assert (E : sortR vals = s) by (apply sorted_perm_eq; [apply sortR_sorted|exact S|rewrite sortR_perm; symmetry; exact P]).
  pose proof (position vals q NE Q) as T. rewrite E in *. pose proof (Permutation_length P) as L. rewrite <- L in *.
  set (t := (INR (length s) - 1) * (q / 100)) in *. split.
  - intros k g K G EQ. assert (ET : t = INR k + g) by (unfold t; rewrite <- EQ; ring).
    assert (IP : Int_part t = Z.of_nat k).
    { destruct (base_Int_part t) as [B1 B2]. rewrite ET, INR_IZR_INZ in B1, B2.
      assert (A1 : (Int_part (IZR (Z.of_nat k) + g) < Z.of_nat k + 1)%Z) by (apply lt_IZR; rewrite plus_IZR; simpl; lra).
      assert (A2 : (Z.of_nat k < Int_part (IZR (Z.of_nat k) + g) + 1)%Z) by (apply lt_IZR; rewrite plus_IZR; simpl; lra).
      rewrite ET, INR_IZR_INZ. lia. }
    unfold interp. rewrite IP, Nat2Z.id. rewrite Nat.min_l by lia. rewrite <- INR_IZR_INZ, ET. ring.
  - intros ->. assert (ET : t = INR (length s - 1)).
    { unfold t. rewrite minus_INR by (destruct s; [|simpl; lia]; apply Permutation_nil in P; congruence). simpl. lra. }
    assert (IP : Int_part t = Z.of_nat (length s - 1)).
    { rewrite ET, INR_IZR_INZ. destruct (base_Int_part (IZR (Z.of_nat (length s - 1)))) as [B1 B2]. 
      assert (A1 : (Int_part (IZR (Z.of_nat (length s - 1))) <= Z.of_nat (length s - 1))%Z) by (apply le_IZR; lra).
      assert (A2 : (Z.of_nat (length s - 1) < Int_part (IZR (Z.of_nat (length s - 1))) + 1)%Z) by (apply lt_IZR; rewrite plus_IZR; simpl; lra).
      lia. }
    unfold interp. rewrite IP, Nat2Z.id, ET, <- INR_IZR_INZ. ring.
Qed.
Print Assumptions C36_percentile_interpolates.

(** percentiles lie within the range of the test values and grow with [q]; the 0th is the minimum, the
    100th the maximum *)
Theorem C36_percentile_range vals q : vals <> [] -> 0 <= q <= 100 ->
  exists v, percentile vals q = Ok v /\ exists lo hi, In lo vals /\ In hi vals /\ (forall x, In x vals -> lo <= x <= hi) /\ lo <= v <= hi /\
  (q = 0 -> v = lo) /\ (q = 100 -> v = hi).
Proof.
  intros NE Q. eexists. split; [apply percentile_ok; assumption|].
  set (s := sortR vals). pose proof (sortR_perm vals : Permutation s vals) as P. pose proof (sortR_sorted vals : StronglySorted Rle s) as S.
  assert (NS : (0 < length s)%nat) by (rewrite (Permutation_length P); destruct vals; [congruence|simpl; lia]).
  pose proof (position vals q NE Q) as T. fold s in T. set (t := (INR (length vals) - 1) * (q / 100)) in *.
  exists (nth 0 s 0), (nth (length s - 1) s 0).
  split; [apply (Permutation_in _ P), nth_In; lia|]. split; [apply (Permutation_in _ P), nth_In; lia|].
  split; [|split; [|split]].
  - intros x Hx. apply (Permutation_in _ (Permutation_sym P)) in Hx. destruct (In_nth s x 0 Hx) as (i & Li & <-).
    split; apply sorted_le; auto; lia.
  - destruct (int_part_bounds t _ T) as (_ & J & _). destruct (interp_bounds s S t T) as [B1 B2]. split.
    + apply Rle_trans with (2 := B1). apply sorted_le; [exact S|lia].
    + apply Rle_trans with (1 := B2). apply sorted_le; [exact S|lia].
  - intros ->. destruct (C36_percentile_interpolates vals s 0 NE Q P S) as (v & E & I & _). rewrite percentile_ok in E by assumption. injection E as <-.
    fold s t. destruct (le_lt_dec (length s) 1) as [L1|L1].
    + destruct s as [|a [|]]; try (simpl in *; lia). assert (ET : t = 0) by (unfold t; field). unfold interp. rewrite ET.
      assert (Int_part 0 = 0%Z) as ->.
      { destruct (base_Int_part 0) as [B1 B2]. assert (Int_part 0 < 1)%Z by (apply lt_IZR; lra). assert (-1 < Int_part 0)%Z by (apply lt_IZR; lra). lia. }
      simpl. ring.
    + etransitivity; [apply (I 0%nat 0); [lia|lra|simpl; field]|ring].
  - intros ->. destruct (C36_percentile_interpolates vals s 100 NE Q P S) as (v & E & _ & I). rewrite percentile_ok in E by assumption. injection E as <-.
    apply I. reflexivity.
Qed.

Theorem C36_percentile_monotone vals q r : vals <> [] -> 0 <= q -> q <= r -> r <= 100 ->
  exists v w, percentile vals q = Ok v /\ percentile vals r = Ok w /\ v <= w.
Proof.
  intros NE Q L R. do 2 eexists. split; [apply percentile_ok; [exact NE|lra]|]. split; [apply percentile_ok; [exact NE|lra]|].
  pose proof (position vals q NE ltac:(lra)) as T1. pose proof (position vals r NE ltac:(lra)) as T2.
  apply interp_mono; [apply sortR_sorted|lra| |lra].
  assert (1 <= INR (length vals)) by (destruct vals; [congruence|cbn [length]; rewrite S_INR; pose proof (pos_INR (length vals)); lra]). nra.
Qed.

(** the order of the tests is irrelevant *)
Theorem C36_percentile_order_free vals vals' q : Permutation vals vals' -> percentile vals q = percentile vals' q.
Proof.
  intros P. assert (E : sortR vals = sortR vals').
  { apply sorted_perm_eq; try apply sortR_sorted. rewrite !sortR_perm. exact P. }
  unfold percentile. rewrite E. reflexivity.
Qed.

Theorem C36_percentile_rejects vals q : q < 0 \/ 100 < q -> percentile vals q = Raise ValueError.
Proof. intros B. unfold percentile. destruct (Rlt_dec q 0); [reflexivity|]. destruct (Rlt_dec 100 q); [reflexivity|lra]. Qed.

(** Confidence intervals: two percentiles symmetric about the median, the lower first, within the range
    of the values; a higher level gives a wider interval; levels outside (0,100) are refused. *)
Theorem C36_confidence_interval vals c : vals <> [] -> 0 < c < 100 ->
  exists lo hi, confidence_interval vals c = Ok [lo; hi] /\
  percentile vals ((100 - c) / 2) = Ok lo /\ percentile vals ((100 + c) / 2) = Ok hi /\ lo <= hi /\
  (exists m, percentile vals 50 = Ok m /\ lo <= m <= hi) /\
  (forall d, c <= d < 100 -> exists lo' hi', confidence_interval vals d = Ok [lo'; hi'] /\ lo' <= lo /\ hi <= hi').
Proof.
  intros NE C.
  destruct (C36_percentile_monotone vals ((100 - c) / 2) 50 NE ltac:(lra) ltac:(lra) ltac:(lra)) as (lo & m & E1 & E2 & L1).
  destruct (C36_percentile_monotone vals 50 ((100 + c) / 2) NE ltac:(lra) ltac:(lra) ltac:(lra)) as (m' & hi & E2' & E3 & L2).
  rewrite E2 in E2'. injection E2' as <-.
  exists lo, hi. assert (CI : confidence_interval vals c = Ok [lo; hi]).
  { unfold confidence_interval. destruct (Rlt_dec 0 c); [|lra]. destruct (Rlt_dec c 100); [|lra]. cbn [mapM].
    replace (100 - (100 - c) / 2) with ((100 + c) / 2) by lra. rewrite E1, E3. reflexivity. }
  split; [exact CI|]. split; [exact E1|]. split; [exact E3|]. split; [lra|]. split; [exists m; split; [exact E2|lra]|].
  intros d D.
  destruct (C36_percentile_monotone vals ((100 - d) / 2) ((100 - c) / 2) NE ltac:(lra) ltac:(lra) ltac:(lra)) as (lo' & lo2 & F1 & F2 & M1).
  destruct (C36_percentile_monotone vals ((100 + c) / 2) ((100 + d) / 2) NE ltac:(lra) ltac:(lra) ltac:(lra)) as (hi2 & hi' & F3 & F4 & M2).
  rewrite E1 in F2. injection F2 as <-. rewrite E3 in F3. injection F3 as <-. exists lo', hi'. split; [|lra].
  unfold confidence_interval. destruct (Rlt_dec 0 d); [|lra]. destruct (Rlt_dec d 100); [|lra]. cbn [mapM].
  replace (100 - (100 - d) / 2) with ((100 + d) / 2) by lra. rewrite F1, F4. reflexivity.
Qed.
Print Assumptions C36_confidence_interval.

Theorem C36_confidence_interval_rejects vals c : ~ 0 < c < 100 -> confidence_interval vals c = Raise ValueError.
Proof.
  intros C. unfold confidence_interval. destruct (Rlt_dec 0 c); [|reflexivity]. destruct (Rlt_dec c 100); [|reflexivity]. destruct C. split; assumption.
Qed.

(** at least the stated share of test values lies on either side *)
Fixpoint how_many (f : R -> bool) (l : list R) : nat := match l with [] => 0 | x :: r => (if f x then 1 else 0) + how_many f r end%nat.
Lemma how_many_perm f l m : Permutation l m -> how_many f l = how_many f m.
Proof. induction 1; simpl; lia. Qed.
Lemma how_many_app f l m : how_many f (l ++ m) = (how_many f l + how_many f m)%nat.
Proof. induction l; simpl; lia. Qed.
Lemma how_many_all f l : (forall x, In x l -> f x = true) -> how_many f l = length l.
Proof. induction l as [|x l IH]; intros A; simpl; [reflexivity|]. rewrite A by (left; reflexivity). rewrite IH by (intros y Hy; apply A; right; exact Hy). reflexivity. Qed.
Lemma how_many_split f l i : (how_many f l = how_many f (firstn i l) + how_many f (skipn i l))%nat.
Proof. rewrite <- how_many_app, firstn_skipn. reflexivity. Qed.

Theorem C36_percentile_shares vals q v : vals <> [] -> 0 <= q <= 100 -> percentile vals q = Ok v ->
  INR (how_many (fun x => if Rle_dec x v then true else false) vals) > (INR (length vals) - 1) * (q / 100) /\
  INR (how_many (fun x => if Rle_dec v x then true else false) vals) > (INR (length vals) - 1) * (1 - q / 100).
Proof.
  intros NE Q E. rewrite percentile_ok in E by assumption. injection E as <-.
  set (s := sortR vals). pose proof (sortR_perm vals : Permutation s vals) as P. pose proof (sortR_sorted vals : StronglySorted Rle s) as S.
  pose proof (position vals q NE Q) as T. fold s in T. set (t := (INR (length vals) - 1) * (q / 100)) in *.
  destruct (int_part_bounds t _ T) as ([B1 B2] & J & IP). destruct (interp_bounds s S t T) as [I1 I2].
  set (j := Z.to_nat (Int_part t)) in *. assert (Ej : IZR (Int_part t) = INR j) by (unfold j; rewrite INR_IZR_INZ, Z2Nat.id by exact IP; reflexivity).
  rewrite Ej in B1, B2. pose proof (Permutation_length P) as LP.
  rewrite <- !(how_many_perm _ _ _ P). set (v := interp s t) in *. split.
  - rewrite (how_many_split _ s (j + 1)). rewrite (how_many_all _ (firstn (j + 1) s)).
    + rewrite firstn_length, Nat.min_l by lia. rewrite !plus_INR. simpl (INR 1).
      pose proof (pos_INR (how_many (fun x => if Rle_dec x v then true else false) (skipn (j + 1) s))). lra.
    + intros x Hx. destruct (In_nth _ _ 0 Hx) as (i & Li & Ei). rewrite firstn_length, Nat.min_l in Li by lia.
      assert (EN : nth i s 0 = x).
      { rewrite <- Ei. rewrite <- (firstn_skipn (j + 1) s) at 1. apply app_nth1. rewrite firstn_length. lia. }
      destruct (Rle_dec x v) as [|N]; [reflexivity|]. destruct N. rewrite <- EN. apply Rle_trans with (2 := I1). apply sorted_le; [exact S|lia].
  - assert (G : exists m, (m <= length s)%nat /\ INR (length vals) - INR m > (INR (length vals) - 1) * (1 - q / 100) /\ forall i, (m <= i < length s)%nat -> v <= nth i s 0).
    { destruct (Req_dec t (INR j)) as [Ei|Ni].
      - exists j. split; [lia|]. split; [unfold t in Ei; lra|]. intros i Li. apply Rle_trans with (nth j s 0); [|apply sorted_le; [exact S|lia]].
        assert (EV : v = nth j s 0); [|lra]. unfold v, interp. fold j. rewrite Ej. replace (t - INR j) with 0 by lra. ring.
      - assert (Lt : INR j < t) by (destruct B1 as [B1|B1]; [exact B1|destruct Ni; symmetry; exact B1]).
        assert (j + 1 < length s)%nat.
        { apply INR_lt. rewrite plus_INR. simpl (INR 1). destruct T. lra. }
        exists (j + 1)%nat. split; [lia|]. split.
        + rewrite plus_INR. simpl (INR 1). unfold t in *. lra.
        + intros i Li. apply Rle_trans with (1 := I2). apply sorted_le; [exact S|lia]. }
    destruct G as (m & Lm & Sm & Gm).
    rewrite (how_many_split _ s m). rewrite (how_many_all _ (skipn m s)).
    + rewrite skipn_length. rewrite plus_INR, minus_INR by lia. rewrite LP.
      pose proof (pos_INR (how_many (fun x => if Rle_dec v x then true else false) (firstn m s))). lra.
    + intros x Hx. destruct (In_nth _ _ 0 Hx) as (i & Li & Ei). rewrite skipn_length in Li.
      assert (EN : nth (m + i) s 0 = x).
      { rewrite <- Ei. rewrite <- (firstn_skipn m s) at 1. rewrite app_nth2; rewrite firstn_length, Nat.min_l by lia; [f_equal; lia|lia]. }
      destruct (Rle_dec v x) as [|N]; [reflexivity|]. destruct N. rewrite <- EN. apply Gm. lia.
Qed.

Example C36_example : exists lo hi, confidence_interval [3; 1; 2] 50 = Ok [lo; hi] /\ lo = 3 / 2 /\ hi = 5 / 2.
Proof.
  destruct (C36_confidence_interval [3; 1; 2] 50 ltac:(discriminate) ltac:(lra)) as (lo & hi & E & E1 & E2 & _).
  exists lo, hi. split; [exact E|].
  assert (P : Permutation [1; 2; 3] [3; 1; 2]) by (apply Permutation_sym, Permutation_cons_append).
  assert (S : StronglySorted Rle [1; 2; 3]) by (repeat constructor; lra).
  destruct (C36_percentile_interpolates [3; 1; 2] _ ((100 - 50) / 2) ltac:(discriminate) ltac:(lra) P S) as (v & F & I & _).
  destruct (C36_percentile_interpolates [3; 1; 2] _ ((100 + 50) / 2) ltac:(discriminate) ltac:(lra) P S) as (w & F' & I' & _).
  rewrite E1 in F. injection F as <-. rewrite E2 in F'. injection F' as <-.
  rewrite (I 0%nat (1 / 2)); [|simpl; lia|lra|simpl; lra]. rewrite (I' 1%nat (1 / 2)); [|simpl; lia|lra|simpl; lra]. simpl. lra.
Qed.
