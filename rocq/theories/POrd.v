(** Lehmer code: range, injectivity, surjectivity; exactness of the fixed-width computation. *)
From Coq Require Import Reals Lra Lia List ZArith Arith Bool Permutation Sorted.
From Verif Require Import Res RSum Spec Ord MBase MOrd SpecOrd.
Import ListNotations.

Lemma zfact_pos n : (0 < zfact n)%Z.
Proof. induction n as [|n IH]; [reflexivity|]. cbn [zfact]. lia. Qed.

Lemma smaller_length x l : smaller x l = Z.of_nat (length (filter (fun y => Nat.ltb y x) l)).
Proof.
  induction l as [|y r IH]; [reflexivity|]. cbn [smaller filter]. rewrite IH.
  destruct (Nat.ltb y x); cbn [length]; lia.
Qed.

Lemma filter_length_le {A} (f : A -> bool) l : length (filter f l) <= length l.
Proof. induction l as [|x r IH]; [apply le_n|]. simpl. destruct (f x); simpl; lia. Qed.

Lemma lehmer_bounds p : (0 <= lehmer p < zfact (length p))%Z.
Proof.
  induction p as [|x r IH]; [simpl; lia|]. cbn [lehmer length zfact].
  pose proof (filter_length_le (fun y => Nat.ltb y x) r). pose proof (zfact_pos (length r)). nia.
Qed.

Lemma filter_perm {A} (f : A -> bool) l m : Permutation l m -> Permutation (filter f l) (filter f m).
Proof.
  induction 1; simpl.
  - constructor.
  - destruct (f x); [constructor|]; assumption.
  - destruct (f x), (f y); try apply Permutation_refl. apply perm_swap.
  - eapply Permutation_trans; eassumption.
Qed.

(** number of entries below [x] in a list *)
Definition rank (l : list nat) (x : nat) : nat := length (filter (fun y => Nat.ltb y x) l).

Lemma rank_mono l x y : In x l -> x < y -> rank l x < rank l y.
Proof.
  unfold rank. intros Hx L. induction l as [|z r IH]; [destruct Hx|]. simpl.
  assert (W : length (filter (fun w => Nat.ltb w x) r) <= length (filter (fun w => Nat.ltb w y) r)).
  { clear -L. induction r as [|z r IH]; [apply le_n|]. simpl.
    destruct (Nat.ltb_spec z x), (Nat.ltb_spec z y); simpl; lia. }
  destruct Hx as [->|Hx].
  - destruct (Nat.ltb_spec x x), (Nat.ltb_spec x y); simpl; lia.
  - specialize (IH Hx). destruct (Nat.ltb_spec z x), (Nat.ltb_spec z y); simpl; lia.
Qed.
Lemma rank_inj l x y : In x l -> In y l -> rank l x = rank l y -> x = y.
Proof.
  intros Hx Hy E. destruct (Nat.lt_trichotomy x y) as [L|[?|L]]; [|assumption|].
  - pose proof (rank_mono l x y Hx L). lia.
  - pose proof (rank_mono l y x Hy L). lia.
Qed.

Lemma rank_cons_self x r : rank (x :: r) x = length (filter (fun y => Nat.ltb y x) r).
Proof. unfold rank. simpl. rewrite Nat.ltb_irrefl. reflexivity. Qed.

Lemma divmod_unique (f a b c d : Z) : (0 <= b < f)%Z -> (0 <= d < f)%Z -> (a * f + b = c * f + d)%Z -> a = c /\ b = d.
Proof. intros. assert (a = c) by nia. subst. split; lia. Qed.

Lemma lehmer_inj p : forall q, Permutation p q -> lehmer p = lehmer q -> p = q.
Proof.
  induction p as [|x r IH]; intros q P E.
  - apply Permutation_nil in P. congruence.
  - destruct q as [|y t]; [apply Permutation_sym, Permutation_nil in P; discriminate|].
    assert (L : length r = length t) by (apply Permutation_length in P; simpl in P; lia).
    cbn [lehmer] in E. rewrite L in E.
    pose proof (lehmer_bounds r) as B1. rewrite L in B1. pose proof (lehmer_bounds t) as B2.
    destruct (divmod_unique _ _ _ _ _ B1 B2 E) as [E1 E2]. apply Nat2Z.inj in E1.
    assert (x = y).
    { apply (rank_inj (x :: r)); [left; reflexivity|apply (Permutation_in _ (Permutation_sym P)); left; reflexivity|].
      rewrite rank_cons_self, E1, <- rank_cons_self. unfold rank. apply Permutation_length, filter_perm, Permutation_sym, P. }
    subst y. f_equal. apply IH; [apply Permutation_cons_inv in P; exact P|exact E2].
Qed.

(** every rank occurs *)
Lemma rank_sorted l : StronglySorted Peano.lt l -> forall i, i < length l -> rank l (nth i l 0) = i.
Proof.
  induction 1 as [|x r S IH F]; intros i Hi; [simpl in Hi; lia|]. rewrite Forall_forall in F. destruct i as [|i].
  - unfold rank. simpl. rewrite Nat.ltb_irrefl.
    replace (filter (fun y => Nat.ltb y x) r) with (@nil nat); [reflexivity|]. symmetry. clear -F.
    induction r as [|z r IH]; [reflexivity|]. simpl. pose proof (F z (or_introl eq_refl)).
    destruct (Nat.ltb_spec z x); [lia|]. apply IH. intros w Hw. apply F. right. exact Hw.
  - simpl in Hi. unfold rank in *. simpl. assert (x < nth i r 0) by (apply F, nth_In; lia).
    destruct (Nat.ltb_spec x (nth i r 0)); [|lia]. simpl. rewrite IH by lia. reflexivity.
Qed.
Lemma sorted_lt l : StronglySorted (@Ord.lt nat Cmp_nat) l -> StronglySorted Peano.lt l.
Proof.
  induction 1 as [|x r S IH F]; constructor; [exact IH|]. eapply Forall_impl; [|exact F].
  intros y E. apply Nat.compare_lt_iff. exact E.
Qed.
Lemma rank_surj l r : NoDup l -> r < length l -> exists x, In x l /\ rank l x = r.
Proof.
  intros ND Hr. pose proof (unique_perm_distinct l) as P.
  assert (E : distinct l = l) by (apply nodup_fixed_point; exact ND). rewrite E in P.
  exists (nth r (unique l) 0). split.
  - apply (Permutation_in _ P). apply nth_In. rewrite (Permutation_length P). exact Hr.
  - transitivity (rank (unique l) (nth r (unique l) 0)); [|apply rank_sorted; [apply sorted_lt, unique_sorted|rewrite (Permutation_length P); exact Hr]].
    unfold rank. apply Permutation_length, filter_perm, Permutation_sym, P.
Qed.

Lemma lehmer_surj n : forall l c, NoDup l -> length l = n -> (0 <= c < zfact n)%Z -> exists p, Permutation p l /\ lehmer p = c.
Proof.
  induction n as [|n IH]; intros l c ND L Hc.
  - simpl in Hc. exists []. destruct l; [|discriminate]. split; [constructor|simpl; lia].
  - cbn [zfact] in Hc. pose proof (zfact_pos n) as FP.
    pose proof (Z.div_mod c (zfact n) ltac:(lia)) as DM. pose proof (Z.mod_pos_bound c (zfact n) FP) as MB.
    assert (DB : (0 <= c / zfact n < Z.of_nat (S n))%Z).
    { split; [apply Z.div_pos; lia|apply Z.div_lt_upper_bound; lia]. }
    destruct (rank_surj l (Z.to_nat (c / zfact n)) ND) as (x & Hx & Rx); [rewrite L; lia|].
    destruct (in_split x l Hx) as (l1 & l2 & ->).
    assert (P : Permutation (l1 ++ x :: l2) (x :: l1 ++ l2)) by (symmetry; apply Permutation_middle).
    destruct (IH (l1 ++ l2) (c mod zfact n)%Z) as (p & Pp & Ep).
    + eapply NoDup_remove_1, ND.
    + rewrite app_length in *. simpl in L. lia.
    + exact MB.
    + exists (x :: p). split.
      * eapply Permutation_trans; [constructor; exact Pp|]. apply Permutation_sym, P.
      * cbn [lehmer]. rewrite Ep.
        assert (Lp : length p = n) by (rewrite (Permutation_length Pp); rewrite app_length in *; simpl in L; lia).
        rewrite Lp. replace (length (filter (fun y => Nat.ltb y x) p)) with (Z.to_nat (c / zfact n)).
        -- rewrite Z2Nat.id by lia. lia.
        -- rewrite <- Rx, <- (rank_cons_self x p). unfold rank. apply Permutation_length, filter_perm.
           eapply Permutation_trans; [exact P|]. constructor. apply Permutation_sym, Pp.
Qed.

(** ** The fixed-width computation *)
Lemma zfact_le m n : m <= n -> (zfact m <= zfact n)%Z.
Proof.
  induction 1 as [|n _ IH]; [lia|]. cbn [zfact]. pose proof (zfact_pos n). nia.
Qed.

(** float64 products of digits and factorials that can occur are exact: all 20 x 20 cases *)
Lemma f64_table : forallb (fun a => forallb (fun k => (f64 (f64 (Z.of_nat a) * f64 (zfact k)) =? Z.of_nat a * zfact k)%Z) (seq 0 20)) (seq 0 20) = true.
Proof. vm_compute. reflexivity. Qed.
Lemma f64_exact a k : a < 20 -> k < 20 -> f64 (f64 (Z.of_nat a) * f64 (zfact k)) = (Z.of_nat a * zfact k)%Z.
Proof.
  intros Ha Hk. pose proof f64_table as T. rewrite forallb_forall in T. specialize (T a ltac:(apply in_seq; lia)).
  rewrite forallb_forall in T. specialize (T k ltac:(apply in_seq; lia)). apply Z.eqb_eq, T.
Qed.
Lemma zfact_20 : zfact 20 = 2432902008176640000%Z. Proof. vm_compute. reflexivity. Qed.
Lemma zfact_19 : zfact 19 = 121645100408832000%Z. Proof. vm_compute. reflexivity. Qed.

Lemma i64_id z : (0 <= z < 2 ^ 63)%Z -> i64 z = z.
Proof. intros B. unfold i64. rewrite Z.mod_small; lia. Qed.
Lemma uwrap_id bits z : (0 <= z < 2 ^ bits)%Z -> uwrap bits z = z.
Proof. intros B. unfold uwrap. apply Z.mod_small. exact B. Qed.

Definition width (bits : Z) : Prop := bits = 8%Z \/ bits = 16%Z \/ bits = 32%Z \/ bits = 64%Z.

Lemma up_mul_exact bits a k : width bits -> a <= k -> k < 20 -> (Z.of_nat a * zfact k < 2 ^ bits)%Z ->
  up_mul bits (uwrap bits (Z.of_nat a)) (zfact k) = (Z.of_nat a * zfact k)%Z.
Proof.
  intros W Ha Hk B. pose proof (zfact_pos k) as FP.
  assert (F19 : (zfact k <= zfact 19)%Z) by (apply zfact_le; lia). rewrite zfact_19 in F19.
  rewrite (uwrap_id bits (Z.of_nat a)) by nia. unfold up_mul. destruct (Z.eqb_spec bits 64) as [->|N].
  - rewrite f64_exact by lia. apply uwrap_id. nia.
  - rewrite (i64_id (zfact k)) by (change (2 ^ 63)%Z with 9223372036854775808%Z; lia).
    rewrite i64_id; [apply uwrap_id; nia|]. split; [nia|]. eapply Z.lt_trans; [exact B|].
    destruct W as [->|[->|[->|W]]]; try reflexivity; contradiction.
Qed.

Lemma p2i_sum bits (W : width bits) p : length p <= 20 -> (zfact (length p) <= 2 ^ bits)%Z ->
  forall acc, (0 <= acc)%Z -> (acc + lehmer p < 2 ^ bits)%Z ->
  fold_left (fun acc t => uwrap bits (acc + t)) (p2i_terms bits p) acc = (acc + lehmer p)%Z.
Proof.
  induction p as [|x r IH]; intros L F acc Ha B; [simpl; lia|].
  cbn [p2i_terms fold_left lehmer length zfact] in *. rewrite smaller_length.
  pose proof (filter_length_le (fun y => Nat.ltb y x) r) as FL.
  pose proof (lehmer_bounds r) as LB. pose proof (zfact_pos (length r)) as FP.
  rewrite up_mul_exact; [|exact W|exact FL|lia|nia].
  rewrite uwrap_id by nia. rewrite IH by nia. lia.
Qed.

Lemma p2i_exact bits p : width bits -> length p <= 20 -> (zfact (length p) <= 2 ^ bits)%Z ->
  permutation_to_integer bits p = Ok (lehmer p).
Proof.
  intros W L F. unfold permutation_to_integer. destruct (Nat.ltb_spec 20 (length p)); [lia|].
  rewrite p2i_sum; [reflexivity|exact W|exact L|exact F|lia|]. pose proof (lehmer_bounds p). lia.
Qed.

Lemma pick_bits_ok d : d <= 20 -> width (pick_bits d) /\ (zfact d <= 2 ^ pick_bits d)%Z.
Proof.
  intros L. pose proof (zfact_le d 20 L) as F. rewrite zfact_20 in F. unfold pick_bits, width.
  destruct (Z.ltb_spec (zfact d) (2 ^ 8 - 1)); [split; [auto|lia]|].
  destruct (Z.ltb_spec (zfact d) (2 ^ 16 - 1)); [split; [auto|lia]|].
  destruct (Z.ltb_spec (zfact d) (2 ^ 32 - 1)); [split; [auto|lia]|].
  split; [auto|]. change (2 ^ 64)%Z with 18446744073709551616%Z. lia.
Qed.
