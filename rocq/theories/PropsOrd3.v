(** C95, continued: orientation and the direction of time.  Turning a series upside down (any strictly
    decreasing transformation) or reading all series backwards relabels the patterns one to one, so the
    ordinal measures do not change. *)
From Coq Require Import Reals Lra Lia List ZArith Arith Bool Permutation.
From Verif Require Import Res RSum Spec Info Info2 SpecBase Ord SpecTE MBase PBase MTE PTE2 PMI5 PCMI2 PEst6 MData MEntropy MMI MGeneric MEst SpecOrd MOrd MDiv POrd POrd2 PropsTE PropsOrd PropsOrd2.
Import ListNotations.
Local Open Scope R_scope.

(** ** Specification: strictly decreasing, strictly monotone *)
Definition decreasing {T U} `{Cmp T} `{Cmp U} (f : T -> U) : Prop := forall x y, lt x y -> lt (f y) (f x).
Definition monotone {T U} `{Cmp T} `{Cmp U} (f : T -> U) : Prop := increasing f \/ decreasing f.

Section Mono.
Context {T U : Type} `{CT : Cmp T} `{CU : Cmp U}.

Lemma nth_rev {A} (l : list A) i x0 : (i < length l)%nat -> nth i (rev l) x0 = nth (length l - 1 - i) l x0.
Proof. intros L. rewrite rev_nth by exact L. f_equal. lia. Qed.

Lemma lt_total (x y : T) : lt x y \/ x = y \/ lt y x.
Proof.
  unfold lt. destruct (cmp x y) eqn:E; [right; left; apply cmp_eq; exact E|left; reflexivity|right; right].
  rewrite cmp_opp, E. reflexivity.
Qed.

Lemma perm_len (w : list T) p : sorts w p -> length p = length w.
Proof. intros [P _]. rewrite (Permutation_length P). apply seq_length. Qed.

(** upside down *)
Lemma sorts_decreasing (f : T -> U) w p : decreasing f -> sorts w p -> sorts (map f w) (rev p).
Proof.
  intros D S. pose proof (perm_len w p S) as L. destruct S as [P O]. split.
  - rewrite map_length. transitivity p; [symmetry; apply Permutation_rev|exact P].
  - rewrite map_length. intros u0 i j Hij.
    destruct w as [|w0 w'] eqn:Ew; [cbn in Hij; lia|]. rewrite <- Ew in *. clear Ew.
    assert (B : forall k, (k < length w)%nat -> (nth k p 0 < length w)%nat).
    { intros k Hk. assert (In (nth k p 0%nat) (seq 0 (length w))) by (eapply Permutation_in; [exact P|]; apply nth_In; lia).
      apply in_seq in H. lia. }
    rewrite !nth_rev by lia. rewrite L.
    set (i' := (length w - 1 - j)%nat). set (j' := (length w - 1 - i)%nat).
    rewrite !(nth_indep (map f w) u0 (f w0)) by (rewrite map_length; apply B; lia).
    rewrite !(map_nth f). intros G. specialize (O w0 i' j' ltac:(lia)).
    destruct (lt_total (nth (nth i' p 0%nat) w w0) (nth (nth j' p 0%nat) w w0)) as [C|[C|C]].
    + exact (lt_asym _ _ G (D _ _ C)).
    + rewrite C in G. exact (lt_irrefl _ G).
    + exact (O C).
Qed.

Lemma sorts_increasing (f : T -> U) w p : increasing f -> sorts w p -> sorts (map f w) p.
Proof.
  intros D S. pose proof (perm_len w p S) as L. destruct S as [P O]. split.
  - rewrite map_length. exact P.
  - rewrite map_length. intros u0 i j Hij.
    destruct w as [|w0 w'] eqn:Ew; [cbn in Hij; lia|]. rewrite <- Ew in *. clear Ew.
    assert (B : forall k, (k < length w)%nat -> (nth k p 0 < length w)%nat).
    { intros k Hk. assert (In (nth k p 0%nat) (seq 0 (length w))) by (eapply Permutation_in; [exact P|]; apply nth_In; lia).
      apply in_seq in H. lia. }
    rewrite !(nth_indep (map f w) u0 (f w0)) by (rewrite map_length; apply B; lia).
    rewrite !(map_nth f). intros G. specialize (O w0 i j ltac:(lia)).
    destruct (lt_total (nth (nth i p 0%nat) w w0) (nth (nth j p 0%nat) w w0)) as [C|[C|C]].
    + exact (lt_asym _ _ G (D _ _ C)).
    + rewrite C in G. exact (lt_irrefl _ G).
    + exact (O C).
Qed.

Lemma mono_inj (f : T -> U) x y : monotone f -> f x = f y -> x = y.
Proof.
  intros M E. destruct (lt_total x y) as [C|[C|C]]; [|exact C|]; destruct M as [M|M]; apply M in C; rewrite E in C; destruct (lt_irrefl _ C).
Qed.
Lemma tie_free_map (f : T -> U) w : monotone f -> tie_free w -> tie_free (map f w).
Proof. intros M N. apply (FinFun.Injective_map_NoDup (f := f)); [intros x y; apply mono_inj; exact M|exact N]. Qed.
Lemma no_ties_map (f : T -> U) x0 xs d s : monotone f -> no_ties x0 xs d s -> no_ties (f x0) (map f xs) d s.
Proof.
  intros M N. unfold no_ties in *. rewrite windows_map, Forall_forall in *. intros w Hw. apply in_map_iff in Hw. destruct Hw as (v & <- & Hv).
  apply tie_free_map; auto.
Qed.

(** the patterns of a monotonely transformed series are a relabelling of the original ones *)
Lemma mono_partition (f : T -> U) p q x0 xs d s : monotone f -> sorting p -> sorting q -> no_ties x0 xs d s ->
  same_partition (patterns p x0 xs d s) (patterns q (f x0) (map f xs) d s).
Proof.
  intros M P Q N. unfold patterns. rewrite windows_map, map_map.
  assert (E : exists g : list nat -> list nat, (forall a b, g a = g b -> a = b) /\ forall w, In w (windows x0 xs d s) -> q (map f w) = g (p w)).
  { destruct M as [M|M]; [exists (fun a => a)|exists (@rev nat)]; (split; [|intros w Hw]).
    - auto.
    - apply C31_pattern_unique with (map f w); [|apply Q|apply sorts_increasing; [exact M|apply P]].
      apply tie_free_map; [left; exact M|]. unfold no_ties in N. rewrite Forall_forall in N. apply N, Hw.
    - intros a b E. rewrite <- (rev_involutive a), E. apply rev_involutive.
    - apply C31_pattern_unique with (map f w); [|apply Q|apply sorts_decreasing; [exact M|apply P]].
      apply tie_free_map; [right; exact M|]. unfold no_ties in N. rewrite Forall_forall in N. apply N, Hw. }
  destruct E as (g & I & E).
  replace (map (fun x => q (map f x)) (windows x0 xs d s)) with (map g (map p (windows x0 xs d s))).
  2: { rewrite map_map. apply map_ext_in. intros w Hw. symmetry. apply E, Hw. }
  apply map_inj_partition. intros a b _ _. apply I.
Qed.
End Mono.

Section C95.
Context {T U : Type} `{CT : Cmp T} `{CU : Cmp U} (kt : kind T) (ku : kind U).
Hypothesis (Kt : legal_kind kt) (Ku : legal_kind ku).

(** ** any strictly monotone transformation, increasing or decreasing, of each series separately *)
Theorem C95_monotone_entropy (f : T -> U) b x0 (xs : list T) (d s : nat) : monotone f -> valid_base b ->
  (1 <= d)%nat -> (1 <= s)%nat -> ((d - 1) * s < length xs)%nat -> no_ties x0 xs d s ->
  entropy_ordinal ku b (map f xs) (Z.of_nat d) (Z.of_nat s) = entropy_ordinal kt b xs (Z.of_nat d) (Z.of_nat s).
Proof using Kt Ku.
  intros M B D S L N.
  destruct (C32_fast_paths_tie_free kt b x0 xs d s Kt B D S L N) as (p1 & _ & E1 & U1).
  destruct (C32_fast_paths_tie_free ku b (f x0) (map f xs) d s Ku B D S ltac:(rewrite map_length; exact L) (no_ties_map f x0 xs d s M N)) as (p2 & _ & E2 & U2).
  rewrite E1, E2. f_equal. f_equal. rewrite <- (U1 (argsort kt)), <- (U2 (argsort ku)) by (intros w; apply argsort_sorts; assumption).
  symmetry. apply Ent_partition, mono_partition; [exact M| | |exact N]; intros w; apply argsort_sorts; assumption.
Qed.

Theorem C95_monotone_mi (f g : T -> U) b x0 (xs ys : list T) (d s : nat) : monotone f -> monotone g -> big_base b ->
  (1 <= d)%nat -> (1 <= s)%nat -> length xs = length ys -> ((d - 1) * s < length xs)%nat -> small2 (length xs) ->
  no_ties x0 xs d s -> no_ties x0 ys d s ->
  mi_ordinal ku b 0 [map f xs; map g ys] (Z.of_nat d) (Z.of_nat s) = mi_ordinal kt b 0 [xs; ys] (Z.of_nat d) (Z.of_nat s).
Proof using Kt Ku.
  intros Mf Mg B D S L W SM Nx Ny.
  destruct (C58_ordinal_mi kt b x0 xs ys d s Kt B D S L W SM) as (p & P & _ & E1 & _).
  destruct (C58_ordinal_mi ku b (f x0) (map f xs) (map g ys) d s Ku B D S) as (q & Q & _ & E2 & _); rewrite ?map_length; try assumption.
  rewrite E1, E2. f_equal. f_equal. symmetry.
  apply MI_partition; [unfold patterns; rewrite !map_length, !windows_length; congruence|apply mono_partition; assumption|].
  unfold patterns at 2. rewrite (windows_default (f x0) (g x0) (map g ys) d s S). apply mono_partition; assumption.
Qed.

Theorem C95_monotone_cmi (f g h : T -> U) b x0 (xs ys zs : list T) (d s : nat) : monotone f -> monotone g -> monotone h -> valid_base b ->
  (1 <= d)%nat -> (1 <= s)%nat -> length xs = length ys -> length xs = length zs -> ((d - 1) * s < length xs)%nat -> small2 (length xs) ->
  no_ties x0 xs d s -> no_ties x0 ys d s -> no_ties x0 zs d s ->
  cmi_ordinal ku b [map f xs; map g ys] (map h zs) (Z.of_nat d) (Z.of_nat s) = cmi_ordinal kt b [xs; ys] zs (Z.of_nat d) (Z.of_nat s).
Proof using Kt Ku.
  intros Mf Mg Mh B D S L L2 W SM Nx Ny Nz.
  destruct (C58_ordinal_cmi kt b x0 xs ys zs d s Kt B D S L L2 W SM) as (p & P & _ & E1 & _).
  destruct (C58_ordinal_cmi ku b (f x0) (map f xs) (map g ys) (map h zs) d s Ku B D S) as (q & Q & _ & E2 & _); rewrite ?map_length; try assumption.
  rewrite E1, E2. f_equal. f_equal. symmetry.
  apply CMI_partition; try (unfold patterns; rewrite !map_length, !windows_length; congruence).
  - apply mono_partition; assumption.
  - unfold patterns at 2. rewrite (windows_default (f x0) (g x0) (map g ys) d s S). apply mono_partition; assumption.
  - unfold patterns at 2. rewrite (windows_default (f x0) (h x0) (map h zs) d s S). apply mono_partition; assumption.
Qed.

Theorem C95_monotone_te (f g : T -> U) b x0 (xs ys : list T) (d l kk s n : nat) : monotone f -> monotone g -> valid_base b ->
  (1 <= d <= 20)%nat -> (1 <= s)%nat -> length xs = length ys -> ((d - 1) * s < length xs)%nat ->
  n = (length xs - (d - 1) * s)%nat -> (1 <= l)%nat -> (1 <= kk)%nat -> (Nat.max kk l * s < n)%nat -> small2 n ->
  no_ties x0 xs d s -> no_ties x0 ys d s ->
  te_ordinal ku b (map f xs) (map g ys) (Z.of_nat d) (NInt (Z.of_nat l)) (NInt (Z.of_nat kk)) (NInt (Z.of_nat s)) RNone =
  te_ordinal kt b xs ys (Z.of_nat d) (NInt (Z.of_nat l)) (NInt (Z.of_nat kk)) (NInt (Z.of_nat s)) RNone.
Proof using Kt Ku.
  intros Mf Mg B D S L W En Hl Hk Hd SM Nx Ny.
  destruct (C58_ordinal_te kt b x0 xs ys d l kk s n Kt B D S L W En Hl Hk Hd SM) as (p & P & _ & E1 & _).
  destruct (C58_ordinal_te ku b (f x0) (map f xs) (map g ys) d l kk s n Ku B D S) as (q & Q & _ & E2 & _); rewrite ?map_length; try assumption.
  rewrite E1, E2. f_equal. f_equal. symmetry. set (ts := base_times n (Nat.max kk l * s) s).
  assert (HT : forall b', In b' ts -> (b' < n)%nat).
  { intros b' Hb'. unfold ts in Hb'. rewrite base_times_In in Hb' by exact S. lia. }
  pose proof (mono_partition f p q x0 xs d s Mf P Q Nx) as Px.
  pose proof (mono_partition g p q x0 ys d s Mg P Q Ny) as Py.
  assert (Ey : patterns q (f x0) (map g ys) d s = patterns q (g x0) (map g ys) d s).
  { unfold patterns. rewrite (windows_default (f x0) (g x0) (map g ys) d s S). reflexivity. }
  rewrite Ey.
  assert (Lx : length (patterns p x0 xs d s) = n) by (unfold patterns; rewrite map_length, windows_length; congruence).
  assert (Ly : length (patterns p x0 ys d s) = n) by (unfold patterns; rewrite map_length, windows_length; congruence).
  apply CMI_partition; rewrite ?presents_length, ?pasts_length; try reflexivity.
  - apply presents_partition; [exact Py|]. rewrite Ly. exact HT.
  - apply pasts_partition; [exact Px| |exact S]. rewrite Lx. exact HT.
  - apply pasts_partition; [exact Py| |exact S]. rewrite Ly. exact HT.
Qed.

Theorem C95_monotone_cte (f g h : T -> U) b x0 (xs ys zs : list T) (d l kk m s n : nat) : monotone f -> monotone g -> monotone h -> valid_base b ->
  (1 <= d <= 20)%nat -> (1 <= s)%nat -> length xs = length ys -> length xs = length zs -> ((d - 1) * s < length xs)%nat ->
  n = (length xs - (d - 1) * s)%nat -> (1 <= l)%nat -> (1 <= kk)%nat -> (1 <= m)%nat -> (Nat.max (Nat.max kk l) m * s < n)%nat -> small2 n ->
  no_ties x0 xs d s -> no_ties x0 ys d s -> no_ties x0 zs d s ->
  cte_ordinal ku b (map f xs) (map g ys) (map h zs) (Z.of_nat d) (NInt (Z.of_nat l)) (NInt (Z.of_nat kk)) (NInt (Z.of_nat m)) (NInt (Z.of_nat s)) =
  cte_ordinal kt b xs ys zs (Z.of_nat d) (NInt (Z.of_nat l)) (NInt (Z.of_nat kk)) (NInt (Z.of_nat m)) (NInt (Z.of_nat s)).
Proof using Kt Ku.
  intros Mf Mg Mh B D S L L2 W En Hl Hk Hm Hd SM Nx Ny Nz.
  destruct (C58_ordinal_cte kt b x0 xs ys zs d l kk m s n Kt B D S L L2 W En Hl Hk Hm Hd SM) as (p & P & _ & E1 & _).
  destruct (C58_ordinal_cte ku b (f x0) (map f xs) (map g ys) (map h zs) d l kk m s n Ku B D S) as (q & Q & _ & E2 & _); rewrite ?map_length; try assumption.
  rewrite E1, E2. f_equal. f_equal. symmetry. set (ts := base_times n (Nat.max (Nat.max kk l) m * s) s).
  assert (HT : forall b', In b' ts -> (b' < n)%nat).
  { intros b' Hb'. unfold ts in Hb'. rewrite base_times_In in Hb' by exact S. lia. }
  pose proof (mono_partition f p q x0 xs d s Mf P Q Nx) as Px.
  pose proof (mono_partition g p q x0 ys d s Mg P Q Ny) as Py.
  pose proof (mono_partition h p q x0 zs d s Mh P Q Nz) as Pz.
  assert (Ey : patterns q (f x0) (map g ys) d s = patterns q (g x0) (map g ys) d s).
  { unfold patterns. rewrite (windows_default (f x0) (g x0) (map g ys) d s S). reflexivity. }
  assert (Ez : patterns q (f x0) (map h zs) d s = patterns q (h x0) (map h zs) d s).
  { unfold patterns. rewrite (windows_default (f x0) (h x0) (map h zs) d s S). reflexivity. }
  rewrite Ey, Ez.
  assert (Lx : length (patterns p x0 xs d s) = n) by (unfold patterns; rewrite map_length, windows_length; congruence).
  assert (Ly : length (patterns p x0 ys d s) = n) by (unfold patterns; rewrite map_length, windows_length; congruence).
  assert (Lz : length (patterns p x0 zs d s) = n) by (unfold patterns; rewrite map_length, windows_length; congruence).
  apply CMI_partition; rewrite ?combine_length, ?presents_length, ?pasts_length; try reflexivity; try lia.
  - apply presents_partition; [exact Py|]. rewrite Ly. exact HT.
  - apply pasts_partition; [exact Px| |exact S]. rewrite Lx. exact HT.
  - apply same_partition_combine; [rewrite !pasts_length; reflexivity| |].
    + apply pasts_partition; [exact Py| |exact S]. rewrite Ly. exact HT.
    + apply pasts_partition; [exact Pz| |exact S]. rewrite Lz. exact HT.
Qed.
End C95.

(** ** the direction of time *)
Section Rev.
Context {T : Type} `{CT : Cmp T}.

Lemma NoDup_map_on {A B} (f : A -> B) l : (forall a b, In a l -> In b l -> f a = f b -> a = b) -> NoDup l -> NoDup (map f l).
Proof.
  intros I N. induction N as [|a l NI N IH]; cbn; constructor.
  - intros C. apply in_map_iff in C. destruct C as (b & E & Hb). apply NI. rewrite (I a b); [exact Hb|left; reflexivity|right; exact Hb|congruence].
  - apply IH. intros; apply I; [right|right|]; assumption.
Qed.
Lemma sorts_reversed (w : list T) p : tie_free w -> sorts w p -> sorts (rev w) (map (fun i => (length w - 1 - i)%nat) p).
Proof.
  intros TF S. pose proof (perm_len w p S) as L. destruct S as [P O]. split.
  - rewrite rev_length. rewrite P.
    apply NoDup_Permutation_bis; rewrite ?map_length, ?seq_length; try lia.
    + apply (NoDup_map_on (fun i => (length w - 1 - i)%nat)); [|apply seq_NoDup]. intros a b Ha Hb. apply in_seq in Ha, Hb. lia.
    + intros a Ha. apply in_map_iff in Ha. destruct Ha as (i & <- & Hi). apply in_seq in Hi. apply in_seq. lia.
  - rewrite rev_length. intros x0 i j Hij.
    assert (B : forall k, (k < length w)%nat -> (nth k p 0 < length w)%nat).
    { intros k Hk. assert (In (nth k p 0%nat) (seq 0 (length w))) by (eapply Permutation_in; [exact P|]; apply nth_In; lia).
      apply in_seq in H. lia. }
    assert (E : forall k, (k < length w)%nat -> nth (nth k (map (fun i => (length w - 1 - i)%nat) p) 0%nat) (rev w) x0 = nth (nth k p 0%nat) w x0).
    { intros k Hk. rewrite (nth_indep (map _ p) 0%nat ((fun i => length w - 1 - i) 0)%nat) by (rewrite map_length; lia).
      rewrite (map_nth (fun i => (length w - 1 - i)%nat)). specialize (B k Hk). rewrite nth_rev by lia. f_equal. lia. }
    rewrite !E by lia. apply O. exact Hij.
Qed.

Lemma window_reversed x0 (xs : list T) d s t : (1 <= d)%nat -> (t < length xs - (d - 1) * s)%nat ->
  window x0 (rev xs) d s t = rev (window x0 xs d s (length xs - (d - 1) * s - 1 - t)).
Proof.
  intros D Ht. unfold window. apply (nth_ext _ _ x0 x0); [rewrite rev_length, !map_length; reflexivity|].
  rewrite map_length, seq_length. intros i Hi.
  rewrite nth_rev by (rewrite map_length, seq_length; exact Hi). rewrite map_length, seq_length.
  assert (E : forall (g : nat -> T) k, (k < d)%nat -> nth k (map g (seq 0 d)) x0 = g k).
  { intros g k Hk. rewrite (nth_indep (map g _) x0 (g 0%nat)) by (rewrite map_length, seq_length; exact Hk).
    rewrite (map_nth g), seq_nth by exact Hk. reflexivity. }
  assert (IB : (i * s <= (d - 1) * s)%nat) by (apply Nat.mul_le_mono_r; lia).
  rewrite !E by lia. rewrite nth_rev by lia. f_equal.
  replace ((d - 1 - i) * s)%nat with ((d - 1) * s - i * s)%nat by nia. lia.
Qed.

Lemma rev_seq n : rev (seq 0 n) = map (fun t => (n - 1 - t)%nat) (seq 0 n).
Proof.
  apply (nth_ext _ _ 0%nat ((fun t => n - 1 - t) 0)%nat); [rewrite rev_length, map_length; reflexivity|].
  rewrite rev_length, seq_length. intros i Hi. rewrite nth_rev by (rewrite seq_length; exact Hi).
  rewrite (map_nth (fun t => (n - 1 - t)%nat)), !seq_nth, seq_length by (rewrite ?seq_length; lia). lia.
Qed.

Lemma windows_reversed x0 (xs : list T) d s : (1 <= d)%nat -> windows x0 (rev xs) d s = rev (map (@rev T) (windows x0 xs d s)).
Proof.
  intros D. unfold windows, nwindows. rewrite map_map, <- map_rev, rev_seq, map_map, rev_length. apply map_ext_in.
  intros t Ht. apply in_seq in Ht. apply window_reversed; [exact D|lia].
Qed.

Lemma no_ties_reversed x0 (xs : list T) d s : (1 <= d)%nat -> no_ties x0 xs d s -> no_ties x0 (rev xs) d s.
Proof.
  intros D N. unfold no_ties in *. rewrite windows_reversed by exact D. rewrite Forall_forall in *. intros w Hw.
  apply in_rev in Hw. apply in_map_iff in Hw. destruct Hw as (v & <- & Hv). apply NoDup_rev. apply N, Hv.
Qed.

(** reading backwards: the patterns, relabelled, in the opposite order *)
Lemma patterns_reversed p q x0 (xs : list T) d s : (1 <= d)%nat -> sorting p -> sorting q -> no_ties x0 xs d s ->
  same_partition (patterns p x0 xs d s) (rev (patterns q x0 (rev xs) d s)).
Proof.
  intros D P Q N. unfold patterns. rewrite windows_reversed by exact D. rewrite map_rev, rev_involutive, map_map.
  replace (map (fun w => q (rev w)) (windows x0 xs d s)) with (map (map (fun i => (d - 1 - i)%nat)) (map p (windows x0 xs d s))).
  - apply map_inj_partition. intros a b Ha Hb E. apply in_map_iff in Ha, Hb. destruct Ha as (w & <- & Hw), Hb as (v & <- & Hv).
    pose proof (windows_In_length x0 xs d s w Hw) as Lw. pose proof (windows_In_length x0 xs d s v Hv) as Lv.
    assert (G : forall u, length u = d -> map (fun i => (d - 1 - i)%nat) (map (fun i => (d - 1 - i)%nat) (p u)) = p u).
    { intros u Lu. rewrite map_map. rewrite <- (map_id (p u)) at 2. apply map_ext_in. intros i Hi.
      assert (In i (seq 0 (length u))) by (eapply Permutation_in; [apply (P u)|exact Hi]). apply in_seq in H. lia. }
    rewrite <- (G w Lw), E. apply G, Lv.
  - rewrite map_map. apply map_ext_in. intros w Hw. pose proof (windows_In_length x0 xs d s w Hw) as Lw.
    unfold no_ties in N. rewrite Forall_forall in N. specialize (N w Hw).
    apply C31_pattern_unique with (rev w); [apply NoDup_rev; exact N| |apply Q].
    rewrite <- Lw. apply sorts_reversed; [exact N|apply P].
Qed.

Lemma combine_rev {A B} (xs : list A) (ys : list B) : length xs = length ys -> combine (rev xs) (rev ys) = rev (combine xs ys).
Proof.
  revert ys. induction xs as [|x xs IH]; intros [|y ys] L; try discriminate; [reflexivity|]. cbn in L. cbn [rev combine].
  rewrite <- IH by lia.
  assert (G : forall (a : list A) (b : list B), length a = length b -> combine (a ++ [x]) (b ++ [y]) = combine a b ++ [(x, y)]).
  { induction a as [|u a IHa]; intros [|v b] Lab; try discriminate; [reflexivity|]. cbn in *. rewrite IHa by lia. reflexivity. }
  apply G. rewrite !rev_length. lia.
Qed.
Lemma Ent_rev {A} `{EqDec A} (xs : list A) : Ent (rev xs) = Ent xs.
Proof. apply Ent_perm. symmetry. apply Permutation_rev. Qed.
Lemma MI_rev {A B} `{EqDec A} `{EqDec B} (xs : list A) (ys : list B) : length xs = length ys -> MI (rev xs) (rev ys) = MI xs ys.
Proof. intros L. unfold MI. rewrite (combine_rev xs ys L), !Ent_rev. reflexivity. Qed.
Lemma CMI_rev {A B C} `{EqDec A} `{EqDec B} `{EqDec C} (xs : list A) (ys : list B) (zs : list C) : length xs = length ys -> length xs = length zs ->
  CMI (rev xs) (rev ys) (rev zs) = CMI xs ys zs.
Proof.
  intros L L2. unfold CMI. rewrite (combine_rev xs ys L), (combine_rev xs zs L2), (combine_rev ys zs ltac:(congruence)).
  rewrite (combine_rev (combine xs ys) zs) by (rewrite combine_length; lia). rewrite !Ent_rev. reflexivity.
Qed.

Context (k : kind T).
Hypothesis (K : legal_kind k).

Theorem C95_reversed_entropy b x0 (xs : list T) (d s : nat) : valid_base b ->
  (1 <= d)%nat -> (1 <= s)%nat -> ((d - 1) * s < length xs)%nat -> no_ties x0 xs d s ->
  entropy_ordinal k b (rev xs) (Z.of_nat d) (Z.of_nat s) = entropy_ordinal k b xs (Z.of_nat d) (Z.of_nat s).
Proof using K.
  intros B D S L N.
  destruct (C32_fast_paths_tie_free k b x0 xs d s K B D S L N) as (p1 & _ & E1 & U1).
  destruct (C32_fast_paths_tie_free k b x0 (rev xs) d s K B D S ltac:(rewrite rev_length; exact L) (no_ties_reversed x0 xs d s D N)) as (p2 & _ & E2 & U2).
  assert (SP : sorting (argsort k)) by (intros w; apply argsort_sorts; assumption).
  rewrite E1, E2. f_equal. f_equal. rewrite <- (U1 (argsort k) SP), <- (U2 (argsort k) SP).
  rewrite <- (Ent_rev (patterns (argsort k) x0 (rev xs) d s)). symmetry. apply Ent_partition, patterns_reversed; assumption.
Qed.
Theorem C95_reversed_mi b x0 (xs ys : list T) (d s : nat) : big_base b ->
  (1 <= d)%nat -> (1 <= s)%nat -> length xs = length ys -> ((d - 1) * s < length xs)%nat -> small2 (length xs) ->
  no_ties x0 xs d s -> no_ties x0 ys d s ->
  mi_ordinal k b 0 [rev xs; rev ys] (Z.of_nat d) (Z.of_nat s) = mi_ordinal k b 0 [xs; ys] (Z.of_nat d) (Z.of_nat s).
Proof using K.
  intros B D S L W SM Nx Ny.
  destruct (C58_ordinal_mi k b x0 xs ys d s K B D S L W SM) as (p & P & _ & E1 & _).
  destruct (C58_ordinal_mi k b x0 (rev xs) (rev ys) d s K B D S) as (q & Q & _ & E2 & _); rewrite ?rev_length; try assumption.
  rewrite E1, E2. f_equal. f_equal.
  rewrite <- (MI_rev (patterns q x0 (rev xs) d s)) by (unfold patterns; rewrite !map_length, !windows_length, !rev_length; congruence).
  symmetry. apply MI_partition; [unfold patterns; rewrite !map_length, !windows_length; congruence|apply patterns_reversed; assumption..].
Qed.
Theorem C95_reversed_cmi b x0 (xs ys zs : list T) (d s : nat) : valid_base b ->
  (1 <= d)%nat -> (1 <= s)%nat -> length xs = length ys -> length xs = length zs -> ((d - 1) * s < length xs)%nat -> small2 (length xs) ->
  no_ties x0 xs d s -> no_ties x0 ys d s -> no_ties x0 zs d s ->
  cmi_ordinal k b [rev xs; rev ys] (rev zs) (Z.of_nat d) (Z.of_nat s) = cmi_ordinal k b [xs; ys] zs (Z.of_nat d) (Z.of_nat s).
Proof using K.
  intros B D S L L2 W SM Nx Ny Nz.
  destruct (C58_ordinal_cmi k b x0 xs ys zs d s K B D S L L2 W SM) as (p & P & _ & E1 & _).
  destruct (C58_ordinal_cmi k b x0 (rev xs) (rev ys) (rev zs) d s K B D S) as (q & Q & _ & E2 & _); rewrite ?rev_length; try assumption.
  rewrite E1, E2. f_equal. f_equal.
  rewrite <- (CMI_rev (patterns q x0 (rev xs) d s)) by (unfold patterns; rewrite !map_length, !windows_length, !rev_length; congruence).
  symmetry. apply CMI_partition; [unfold patterns; rewrite !map_length, !windows_length; congruence..|apply patterns_reversed; assumption|apply patterns_reversed; assumption|apply patterns_reversed; assumption].
Qed.
End Rev.

(** a tie-free integer series, an increasing and a decreasing transformation: all hypotheses hold *)
Example C95_example :
  let k := mkKind (@argsort_stable Z _) false in
  legal_kind k /\ increasing (fun x : Z => 2 * x + 1)%Z /\ decreasing Z.opp /\ monotone Z.opp /\
  no_ties 0%Z [4; 7; 9; 10; 6; 11; 3]%Z 3 1 /\ no_ties 0%Z [1; 5; 2; 8; 3; 9; 0]%Z 3 1 /\
  ((3 - 1) * 1 < length [4; 7; 9; 10; 6; 11; 3]%Z)%nat /\ small2 (length [4; 7; 9; 10; 6; 11; 3]%Z) /\
  symbolize k [4; 7; 9; 10; 6; 11; 3]%Z 3 1 = Ok [[0; 1; 2]; [0; 1; 2]; [2; 0; 1]; [1; 0; 2]; [2; 0; 1]]%nat /\
  symbolize k (map Z.opp [4; 7; 9; 10; 6; 11; 3]%Z) 3 1 = Ok [[2; 1; 0]; [2; 1; 0]; [1; 0; 2]; [2; 0; 1]; [1; 0; 2]]%nat.
Proof.
  assert (D : decreasing Z.opp) by (intros x y; unfold lt, cmp, Cmp_Z; rewrite !Z.compare_lt_iff; lia).
  assert (N : forall xs : list Z, forallb (fun w => if Nat.eqb (length (nodup Z.eq_dec w)) (length w) then true else false) (windows 0%Z xs 3 1) = true -> no_ties 0%Z xs 3 1).
  { intros xs Hb. unfold no_ties. rewrite Forall_forall. intros w Hw. rewrite forallb_forall in Hb. specialize (Hb w Hw).
    destruct (Nat.eqb_spec (length (nodup Z.eq_dec w)) (length w)) as [E|E]; [|discriminate].
    apply NoDup_incl_NoDup with (l := nodup Z.eq_dec w); [apply NoDup_nodup|rewrite E; apply le_n|]. intros a Ha. apply nodup_In in Ha. exact Ha. }
  split; [apply stable_legal|]. split; [intros x y; unfold lt, cmp, Cmp_Z; rewrite !Z.compare_lt_iff; lia|].
  split; [exact D|]. split; [right; exact D|]. split; [apply N; vm_compute; reflexivity|]. split; [apply N; vm_compute; reflexivity|].
  split; [cbn; lia|]. split; [unfold small2; cbn; lia|]. split; vm_compute; reflexivity.
Qed.

