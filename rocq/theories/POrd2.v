(** argsort: correctness, uniqueness, invariance; symbolisation. *)
From Coq Require Import Reals Lra Lia List ZArith Arith Bool Permutation Sorted.
From Verif Require Import Res RSum Spec Ord MBase MData MOrd SpecOrd POrd.
Import ListNotations.

Section Sort.
Context {T : Type} `{Cmp T}.
Local Notation ltb := (@ltb T _).

Lemma ltb_spec x y : reflect (lt x y) (ltb x y).
Proof. unfold MOrd.ltb, lt. destruct (cmp x y); constructor; congruence. Qed.
Lemma not_lt_cases x y : ~ lt x y -> x = y \/ lt y x.
Proof.
  unfold lt. intros N. destruct (cmp x y) eqn:E; [left; apply cmp_eq; exact E|congruence|right; apply gt_lt; exact E].
Qed.
Lemma lt_asym x y : lt x y -> ~ lt y x.
Proof. intros A B. exact (lt_irrefl x (lt_trans _ _ _ A B)). Qed.

(** value first, then position *)
Definition before (p q : T * nat) : Prop := lt (fst p) (fst q) \/ (fst p = fst q /\ snd p < snd q).

Lemma ins_perm p l : Permutation (ins p l) (p :: l).
Proof.
  induction l as [|q r IH]; [apply Permutation_refl|]. simpl. destruct (ltb (fst q) (fst p)); [|apply Permutation_refl].
  eapply Permutation_trans; [constructor; exact IH|apply perm_swap].
Qed.
Lemma isort_perm l : Permutation (fold_right ins [] l) l.
Proof. induction l as [|p l IH]; [constructor|]. simpl. eapply Permutation_trans; [apply ins_perm|constructor; exact IH]. Qed.

Lemma before_trans p q r : before p q -> before q r -> before p r.
Proof.
  unfold before. intros [A|[A A']] [B|[B B']].
  - left. eapply lt_trans; eassumption.
  - left. rewrite <- B. exact A.
  - left. rewrite A. exact B.
  - right. split; [congruence|lia].
Qed.

Lemma ins_sorted p l : Forall (fun q => snd p < snd q) l -> StronglySorted before l -> StronglySorted before (ins p l).
Proof.
  intros F S. induction S as [|q r S IH FB]; simpl; [constructor; constructor|].
  inversion F as [|? ? Fq Fr]; subst. destruct (ltb_spec (fst q) (fst p)) as [L|L].
  - constructor; [apply IH; exact Fr|]. rewrite Forall_forall in *. intros z Hz.
    apply (Permutation_in _ (ins_perm p r)) in Hz. destruct Hz as [<-|Hz]; [left; exact L|apply FB; exact Hz].
  - assert (B : before p q) by (destruct (not_lt_cases _ _ L) as [E|L']; [right; split; [congruence|exact Fq]|left; exact L']).
    constructor; [constructor; assumption|]. constructor; [exact B|]. rewrite Forall_forall in *. intros z Hz.
    eapply before_trans; [exact B|apply FB; exact Hz].
Qed.

Lemma isort_sorted (w : list T) : forall k, StronglySorted before (fold_right ins [] (combine w (seq k (length w)))).
Proof.
  induction w as [|x w IH]; intros k; simpl; [constructor|]. apply ins_sorted; [|apply IH].
  apply Forall_forall. intros q Hq. apply (Permutation_in _ (isort_perm _)) in Hq. destruct q as [v j].
  apply in_combine_r, in_seq in Hq. simpl. lia.
Qed.

Lemma ss_nth {A} (R : A -> A -> Prop) (d : A) l : StronglySorted R l -> forall i j, i < j < length l -> R (nth i l d) (nth j l d).
Proof.
  induction 1 as [|x r S IH F]; intros i j L; [simpl in L; lia|]. destruct j as [|j]; [lia|].
  rewrite Forall_forall in F. destruct i as [|i]; simpl in *; [apply F, nth_In; lia|apply IH; lia].
Qed.

Lemma combine_seq_In (w : list T) x0 k v j : In (v, j) (combine w (seq k (length w))) -> k <= j < k + length w /\ nth (j - k) w x0 = v.
Proof.
  revert k. induction w as [|x w IH]; intros k; simpl; [intros []|]. intros [E|E].
  - injection E as <- <-. split; [lia|]. rewrite Nat.sub_diag. reflexivity.
  - apply IH in E. destruct E as [E1 E2]. split; [lia|]. destruct (j - k) as [|m] eqn:Q; [lia|]. simpl. rewrite <- E2. f_equal. lia.
Qed.

Lemma map_snd_combine {A B} (l : list A) (m : list B) : length l = length m -> map snd (combine l m) = m.
Proof. revert m. induction l as [|x l IH]; intros [|y m] E; simpl in *; try congruence. f_equal. apply IH. lia. Qed.

Lemma argsort_stable_perm (w : list T) : Permutation (argsort_stable w) (seq 0 (length w)).
Proof.
  unfold argsort_stable. rewrite <- (map_snd_combine w (seq 0 (length w))) by (rewrite seq_length; reflexivity).
  rewrite map_snd_combine by (rewrite seq_length; reflexivity).
  rewrite <- (map_snd_combine w (seq 0 (length w))) at 2 by (rewrite seq_length; reflexivity).
  apply Permutation_map, isort_perm.
Qed.

Lemma argsort_stable_value (w : list T) x0 i : i < length w ->
  exists v, nth i (fold_right ins [] (combine w (seq 0 (length w)))) (x0, 0) = (v, nth i (argsort_stable w) 0) /\ v = nth (nth i (argsort_stable w) 0) w x0.
Proof.
  intros L. set (l := fold_right ins [] (combine w (seq 0 (length w)))).
  assert (LL : length l = length w) by (unfold l; rewrite (Permutation_length (isort_perm _)), combine_length, seq_length; lia).
  destruct (nth i l (x0, 0)) as [v j] eqn:E.
  assert (EJ : nth i (argsort_stable w) 0 = j).
  { unfold argsort_stable. fold l. change 0 with (snd (x0, 0)). rewrite map_nth, E. reflexivity. }
  exists v. rewrite EJ. split; [reflexivity|].
  assert (I : In (v, j) l) by (rewrite <- E; apply nth_In; lia).
  apply (Permutation_in _ (isort_perm _)) in I. apply (combine_seq_In w x0) in I. destruct I as [_ <-]. rewrite Nat.sub_0_r. reflexivity.
Qed.

Lemma argsort_stable_ok (w : list T) : sorts_stably w (argsort_stable w).
Proof.
  assert (Q : forall x0 i j, i < j < length w -> before (nth (nth i (argsort_stable w) 0) w x0, nth i (argsort_stable w) 0) (nth (nth j (argsort_stable w) 0) w x0, nth j (argsort_stable w) 0)).
  { intros x0 i j L. pose proof (ss_nth before (x0, 0) _ (isort_sorted w 0) i j) as S.
    rewrite (Permutation_length (isort_perm _)), combine_length, seq_length, Nat.min_id in S. specialize (S L).
    destruct (argsort_stable_value w x0 i) as (v & E & ->); [lia|]. destruct (argsort_stable_value w x0 j) as (v' & E' & ->); [lia|].
    rewrite E, E' in S. exact S. }
  split; [split; [apply argsort_stable_perm|]|].
  - intros x0 i j L. destruct (Q x0 i j L) as [B|[B _]]; simpl in B; [apply lt_asym; exact B|rewrite B; apply lt_irrefl].
  - intros x0 i j L E. destruct (Q x0 i j L) as [B|[_ B]]; simpl in B; [rewrite E in B; destruct (lt_irrefl _ B)|exact B].
Qed.

(** two sorted permutations of the same list under an asymmetric relation are equal *)
Lemma sorted_unique {A} (R : A -> A -> Prop) (AS : forall x y, R x y -> ~ R y x) p : forall q,
  StronglySorted R p -> StronglySorted R q -> Permutation p q -> p = q.
Proof.
  induction p as [|x r IH]; intros q Sp Sq P; [apply Permutation_nil in P; congruence|].
  destruct q as [|y t]; [apply Permutation_sym, Permutation_nil in P; discriminate|].
  inversion Sp as [|? ? Sr Fr]; subst. inversion Sq as [|? ? St Ft]; subst.
  rewrite Forall_forall in Fr, Ft.
  assert (x = y).
  { assert (Ix : In x (y :: t)) by (apply (Permutation_in _ P); left; reflexivity).
    assert (Iy : In y (x :: r)) by (apply (Permutation_in _ (Permutation_sym P)); left; reflexivity).
    destruct Ix as [->|Ix]; [reflexivity|]. destruct Iy as [->|Iy]; [reflexivity|].
    destruct (AS _ _ (Fr y Iy) (Ft x Ix)). }
  subst y. f_equal. apply IH; [exact Sr|exact St|]. eapply Permutation_cons_inv, P.
Qed.
Lemma ss_of_nth {A} (R : A -> A -> Prop) (d : A) l : (forall i j, i < j < length l -> R (nth i l d) (nth j l d)) -> StronglySorted R l.
Proof.
  induction l as [|x r IH]; intros Q; constructor.
  - apply IH. intros i j L. apply (Q (S i) (S j)). simpl. lia.
  - apply Forall_forall. intros y Hy. apply (In_nth _ _ d) in Hy. destruct Hy as (i & Hi & <-). apply (Q 0 (S i)). simpl. lia.
Qed.

(** positions ordered by value, then by position *)
Definition ibefore (x0 : T) (w : list T) (i j : nat) : Prop :=
  lt (nth i w x0) (nth j w x0) \/ (nth i w x0 = nth j w x0 /\ i < j).
Lemma ibefore_asym x0 w i j : ibefore x0 w i j -> ~ ibefore x0 w j i.
Proof.
  intros [A|[A A']] [B|[B B']]; [exact (lt_asym _ _ A B)|rewrite B in A; exact (lt_irrefl _ A)|rewrite A in B; exact (lt_irrefl _ B)|lia].
Qed.
Lemma stable_unique (w : list T) p : sorts_stably w p -> p = argsort_stable w.
Proof.
  intros S. destruct w as [|x0 w'] eqn:Ew.
  - destruct S as [[P _] _]. simpl in P. apply Permutation_sym, Permutation_nil in P. rewrite P. reflexivity.
  - rewrite <- Ew in *. pose proof (argsort_stable_ok w) as S2.
    assert (G : forall q, sorts_stably w q -> StronglySorted (ibefore x0 w) q).
    { intros q [[P A] B]. apply (ss_of_nth _ 0). rewrite (Permutation_length P), seq_length. intros i j L.
      destruct (not_lt_cases _ _ (A x0 i j L)) as [E|E]; [right|left; exact E].
      split; [congruence|]. apply (B x0); congruence. }
    apply (sorted_unique (ibefore x0 w) (ibefore_asym x0 w)); [apply G, S|apply G, S2|].
    eapply Permutation_trans; [apply S|apply Permutation_sym, S2].
Qed.

Lemma is_perm_nth n p i : Permutation p (seq 0 n) -> i < n -> nth i p 0 < n.
Proof.
  intros P L. assert (In (nth i p 0) p) by (apply nth_In; rewrite (Permutation_length P), seq_length; exact L).
  apply (Permutation_in _ P), in_seq in H0. lia.
Qed.
Lemma perm_nth_neq n p i j : Permutation p (seq 0 n) -> i < j < n -> nth i p 0 <> nth j p 0.
Proof.
  intros P L E. assert (ND : NoDup p) by (apply (Permutation_NoDup (Permutation_sym P)), seq_NoDup).
  pose proof (Permutation_length P) as LL. rewrite seq_length in LL.
  apply (proj1 (NoDup_nth p 0) ND) in E; lia.
Qed.

Lemma tie_free_stable (w : list T) p : tie_free w -> sorts w p -> sorts_stably w p.
Proof.
  intros ND S. split; [exact S|]. intros x0 i j L E. exfalso. destruct S as [P _].
  apply (perm_nth_neq _ _ i j P L).
  apply (proj1 (NoDup_nth w x0) ND); [apply (is_perm_nth _ _ _ P); lia|apply (is_perm_nth _ _ _ P); lia|exact E].
Qed.

Lemma argsort_sorts k (w : list T) : legal_kind k -> sorts w (argsort k w).
Proof. intros L. unfold argsort. destruct (k_stable k); [apply argsort_stable_ok|apply L]. Qed.
Lemma argsort_tie_free k (w : list T) : legal_kind k -> tie_free w -> argsort k w = argsort_stable w.
Proof. intros L ND. apply stable_unique, tie_free_stable; [exact ND|apply argsort_sorts, L]. Qed.
Lemma argsort_perm k (w : list T) : legal_kind k -> Permutation (argsort k w) (seq 0 (length w)).
Proof. intros L. apply (argsort_sorts k w L). Qed.

(** windows *)
Lemma window_length x0 (xs : list T) d s t : length (window x0 xs d s t) = d.
Proof. unfold window. rewrite map_length, seq_length. reflexivity. Qed.
Lemma windows_length x0 (xs : list T) d s : length (windows x0 xs d s) = length xs - (d - 1) * s.
Proof. unfold windows. rewrite map_length, seq_length. reflexivity. Qed.
Lemma windows_In_length x0 (xs : list T) d s w : In w (windows x0 xs d s) -> length w = d.
Proof. unfold windows. intros Hw. apply in_map_iff in Hw. destruct Hw as (t & <- & _). apply window_length. Qed.

(** in-range positions do not depend on the default *)
Lemma windows_default x0 x1 (xs : list T) d s : 1 <= s -> windows x0 xs d s = windows x1 xs d s.
Proof.
  intros Hs. unfold windows. apply map_ext_in. intros t Ht. apply in_seq in Ht. unfold window. apply map_ext_in.
  intros i Hi. apply in_seq in Hi. apply nth_indep. unfold nwindows in Ht. nia.
Qed.

Lemma symbolize_ok k x0 (xs : list T) d s : 1 <= d -> 1 <= s -> (d - 1) * s < length xs ->
  symbolize k xs (Z.of_nat d) (Z.of_nat s) = Ok (map (argsort k) (windows x0 xs d s)).
Proof.
  intros Hd Hs L. unfold symbolize.
  destruct (Z.ltb_spec (Z.of_nat d) 1); [lia|]. destruct (Z.ltb_spec (Z.of_nat s) 1); [lia|].
  destruct (Z.ltb_spec (Z.of_nat (length xs) - (Z.of_nat d - 1) * Z.of_nat s) 1); [nia|].
  destruct xs as [|x1 r] eqn:E; [simpl in L; lia|]. rewrite <- E in *. rewrite !Nat2Z.id.
  f_equal. f_equal. apply windows_default, Hs.
Qed.
Lemma symbolize_bad k (xs : list T) d s : (d < 1 \/ s < 1 \/ Z.of_nat (length xs) < (d - 1) * s + 1)%Z ->
  symbolize k xs d s = Raise ValueError.
Proof.
  intros B. unfold symbolize. destruct (Z.ltb_spec d 1); [reflexivity|]. destruct (Z.ltb_spec s 1); [reflexivity|].
  destruct (Z.ltb_spec (Z.of_nat (length xs) - (d - 1) * s) 1); [reflexivity|]. lia.
Qed.

Lemma symbolize_int_ok k x0 (xs : list T) d s : legal_kind k -> 1 <= d <= 20 -> 1 <= s -> (d - 1) * s < length xs ->
  symbolize_int k xs (Z.of_nat d) (Z.of_nat s) = Ok (map (fun w => lehmer (argsort k w)) (windows x0 xs d s)).
Proof.
  intros LK Hd Hs L. unfold symbolize_int. rewrite (symbolize_ok k x0) by lia. cbn [bind]. rewrite Nat2Z.id.
  rewrite (mapM_ok _ lehmer); [rewrite map_map; reflexivity|]. intros p Hp. apply in_map_iff in Hp.
  destruct Hp as (w & <- & Hw). apply windows_In_length in Hw.
  assert (LA : length (argsort k w) = d) by (rewrite (Permutation_length (argsort_perm k w LK)), seq_length; exact Hw).
  destruct (pick_bits_ok d ltac:(lia)) as [W F]. apply p2i_exact; rewrite ?LA; [exact W|lia|exact F].
Qed.
End Sort.

Section Mono.
Context {T U : Type} `{Cmp T} `{Cmp U}.
Variable f : T -> U.
Hypothesis INC : increasing f.

Lemma ltb_mono x y : ltb (f x) (f y) = ltb x y.
Proof using INC.
  destruct (ltb_spec x y) as [L|L]; [destruct (ltb_spec (f x) (f y)) as [|N]; [reflexivity|destruct N; apply INC, L]|].
  destruct (ltb_spec (f x) (f y)) as [L'|]; [|reflexivity]. destruct (not_lt_cases _ _ L) as [->|G]; [destruct (lt_irrefl _ L')|].
  destruct (lt_asym _ _ L' (INC _ _ G)).
Qed.
Let g (p : T * nat) : U * nat := (f (fst p), snd p).
Lemma ins_mono p l : ins (g p) (map g l) = map g (ins p l).
Proof using INC. induction l as [|q r IH]; [reflexivity|]. simpl. rewrite ltb_mono. destruct (ltb (fst q) (fst p)); simpl; rewrite ?IH; reflexivity. Qed.
Lemma argsort_stable_mono (w : list T) : argsort_stable (map f w) = argsort_stable w.
Proof using INC.
  unfold argsort_stable. rewrite map_length.
  assert (E : forall k, fold_right ins [] (combine (map f w) (seq k (length w))) = map g (fold_right ins [] (combine w (seq k (length w))))).
  { induction w as [|x w IH]; intros k; [reflexivity|]. simpl. rewrite IH. apply (ins_mono (x, k)). }
  rewrite E, map_map. reflexivity.
Qed.
Lemma windows_map x0 xs d s : windows (f x0) (map f xs) d s = map (map f) (windows x0 xs d s).
Proof using.
  unfold windows. rewrite map_length, map_map. apply map_ext. intros t. unfold window. rewrite map_map.
  apply map_ext. intros i. apply map_nth.
Qed.
Lemma inc_inj x y : f x = f y -> x = y.
Proof using INC.
  intros E. destruct (cmp x y) eqn:C; [apply cmp_eq, C| |].
  - pose proof (INC x y C) as L. rewrite E in L. destruct (lt_irrefl _ L).
  - pose proof (INC y x (gt_lt _ _ C)) as L. rewrite E in L. destruct (lt_irrefl _ L).
Qed.
Lemma tie_free_mono (w : list T) : tie_free w -> tie_free (map f w).
Proof using INC. intros ND. apply FinFun.Injective_map_NoDup; [intros x y; apply inc_inj|exact ND]. Qed.
End Mono.
