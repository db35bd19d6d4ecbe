(** Property theorems: ordinal patterns and the ordinal estimators (C29-C32, C58). *)
From Coq Require Import Reals Lra Lia List ZArith Arith Bool Permutation.
From Verif Require Import Res RSum Spec SpecBase SpecTE Info Info2 Ord MBase MData MEntropy MMI MTE SpecOrd MOrd PBase PEntropy PCoo PMI PMI2 PMI3 PCMI PMI4 PCMI2 PMI5 PMI6 PropsMI PTE PTE2 PropsTE PEst6 MGeneric MObj SpecObj PropsObj POrd POrd2 POrd3.
Import ListNotations.

Lemma some_elt {T} (xs : list T) n : n < length xs -> exists x, In x xs.
Proof. destruct xs as [|x r]; [intros L; destruct (Nat.nlt_0_r _ L)|exists x; left; reflexivity]. Qed.

(** ** C29 *)
(** the code of a permutation of n <= 20 elements is a number below n!; different permutations have
    different codes; every number below n! is the code of a permutation; longer input is rejected *)
Theorem C29_lehmer_bijection n p : is_perm n p -> n <= 20 ->
  exists c, permutation_to_integer 64 p = Ok c /\ (0 <= c < zfact n)%Z /\
    forall q, is_perm n q -> permutation_to_integer 64 q = Ok c -> q = p.
Proof.
  intros P N. assert (L : length p = n) by (rewrite (Permutation_length P); apply seq_length).
  assert (F : (zfact n <= 2 ^ 64)%Z) by (pose proof (zfact_le n 20 N); rewrite zfact_20 in *; lia).
  exists (lehmer p). split; [apply p2i_exact; [right; right; right; reflexivity|lia|rewrite L; exact F]|].
  split; [rewrite <- L; apply lehmer_bounds|].
  intros q Q E. assert (LQ : length q = n) by (rewrite (Permutation_length Q); apply seq_length).
  rewrite p2i_exact in E; [|right; right; right; reflexivity|lia|rewrite LQ; exact F].
  injection E as E. apply lehmer_inj; [eapply perm_trans; [exact Q|symmetry; exact P]|exact E].
Qed.
Print Assumptions C29_lehmer_bijection.

Theorem C29_lehmer_onto n c : n <= 20 -> (0 <= c < zfact n)%Z ->
  exists p, is_perm n p /\ permutation_to_integer 64 p = Ok c.
Proof.
  intros N C. destruct (lehmer_surj n (seq 0 n) c (seq_NoDup _ _) (seq_length _ _) C) as (p & P & E).
  exists p. split; [exact P|]. assert (L : length p = n) by (rewrite (Permutation_length P); apply seq_length).
  rewrite p2i_exact; [rewrite E; reflexivity|right; right; right; reflexivity|lia|].
  rewrite L. pose proof (zfact_le n 20 N). rewrite zfact_20 in *; lia.
Qed.

Theorem C29_too_long_rejected bits (p : list nat) : 20 < length p -> permutation_to_integer bits p = Raise ValueError.
Proof. intros L. unfold permutation_to_integer. rewrite (proj2 (Nat.ltb_lt _ _) L). reflexivity. Qed.

(** the identity has code 0 and the reversal the largest code *)
Example C29_example : permutation_to_integer 64 [0; 1; 2; 3] = Ok 0%Z /\ permutation_to_integer 64 [3; 2; 1; 0] = Ok 23%Z /\
  permutation_to_integer 64 (rev (seq 0 20)) = Ok (zfact 20 - 1)%Z.
Proof. split; [|split]; vm_compute; reflexivity. Qed.

(** why 20 is the limit: one more element and the codes no longer fit the unsigned 64-bit type *)
Theorem C29_limit_sharp : (zfact 20 <= 2 ^ 64)%Z /\ (2 ^ 64 < zfact 21)%Z.
Proof. split; vm_compute; congruence. Qed.

(** ** C30 *)
(** For every embedding dimension up to 20, the dtype picked for the codes (8, 16, 32 or 64 bits) can
    hold every code, and wrapping arithmetic, int64 and float64 intermediates give the exact code of
    every pattern of the series. *)
Theorem C30_codes_exact {T} `{Cmp T} (k : kind T) x0 (xs : list T) d s : legal_kind k -> 1 <= d <= 20 -> 1 <= s ->
  (d - 1) * s < length xs ->
  exists p, sorting p /\
  symbolize_int k xs (Z.of_nat d) (Z.of_nat s) = Ok (map lehmer (patterns p x0 xs d s)) /\
  Forall (fun c => 0 <= c < zfact d)%Z (map lehmer (patterns p x0 xs d s)) /\ (zfact d <= 2 ^ pick_bits d)%Z.
Proof.
  intros K D S L. exists (argsort k). split; [intros w; apply argsort_sorts; exact K|].
  split; [rewrite (symbolize_int_ok k x0 xs d s K D S L); unfold patterns; rewrite map_map; reflexivity|].
  split; [|apply pick_bits_ok; lia].
  apply Forall_forall. intros c Hc. unfold patterns in Hc. rewrite map_map in Hc. apply in_map_iff in Hc.
  destruct Hc as (w & <- & Hw). pose proof (lehmer_bounds (argsort k w)) as B.
  rewrite (Permutation_length (argsort_perm k w K)), seq_length, (windows_In_length x0 xs d s w Hw) in B. exact B.
Qed.
Print Assumptions C30_codes_exact.

(** two windows get the same code exactly when they have the same pattern *)
Theorem C30_codes_faithful {T} `{Cmp T} (k : kind T) (xs : list T) d s : legal_kind k -> 1 <= d <= 20 -> 1 <= s ->
  (d - 1) * s < length xs ->
  exists ps cs, symbolize k xs (Z.of_nat d) (Z.of_nat s) = Ok ps /\
    symbolize_int k xs (Z.of_nat d) (Z.of_nat s) = Ok cs /\ length cs = length ps /\
    forall i j dp dc, i < length ps -> j < length ps -> (nth i ps dp = nth j ps dp <-> nth i cs dc = nth j cs dc).
Proof.
  intros K D S L. destruct (some_elt xs _ L) as [x0 _]. eexists. eexists. split; [apply (symbolize_ok k x0); (exact L || lia)|].
  split; [apply (symbolize_int_ok k x0); assumption|]. split; [rewrite !map_length; reflexivity|].
  rewrite <- (map_map (argsort k) lehmer).
  assert (P : same_partition (map (argsort k) (windows x0 xs d s)) (map lehmer (map (argsort k) (windows x0 xs d s)))).
  { apply map_inj_partition. intros p q Hp Hq E. apply in_map_iff in Hp, Hq.
    destruct Hp as (w & <- & Hw), Hq as (v & <- & Hv). apply lehmer_inj; [|exact E].
    rewrite (argsort_perm k w K), (argsort_perm k v K), (windows_In_length x0 xs d s w Hw), (windows_In_length x0 xs d s v Hv). reflexivity. }
  exact (proj2 P).
Qed.

(** ** C31 *)
Theorem C31_patterns_sort {T} `{Cmp T} (k : kind T) x0 (xs : list T) d s : legal_kind k -> 1 <= d -> 1 <= s ->
  (d - 1) * s < length xs ->
  exists ps, symbolize k xs (Z.of_nat d) (Z.of_nat s) = Ok ps /\
    length ps = length xs - (d - 1) * s /\
    (forall t, t < length ps -> sorts (window x0 xs d s t) (nth t ps [])) /\
    (k_stable k = true -> forall t, t < length ps -> sorts_stably (window x0 xs d s t) (nth t ps [])).
Proof.
  intros K D S L. eexists. split; [apply (symbolize_ok k x0); assumption|].
  rewrite map_length, windows_length. split; [reflexivity|].
  assert (N : forall t, t < length xs - (d - 1) * s ->
     nth t (map (argsort k) (windows x0 xs d s)) [] = argsort k (window x0 xs d s t)).
  { intros t Ht. rewrite (nth_indep _ [] (argsort k (window x0 xs d s 0))) by (rewrite map_length, windows_length; exact Ht).
    rewrite map_nth. f_equal. unfold windows. rewrite map_nth. f_equal. apply seq_nth. exact Ht. }
  split; intros; rewrite N by assumption; [apply argsort_sorts; exact K|].
  unfold argsort. rewrite H0. apply argsort_stable_ok.
Qed.
Print Assumptions C31_patterns_sort.

(** windows that do not fit, and dimensions and steps below 1, are rejected *)
Theorem C31_rejects {T} `{Cmp T} (k : kind T) (xs : list T) d s :
  (d < 1 \/ s < 1 \/ Z.of_nat (length xs) < (d - 1) * s + 1)%Z -> symbolize k xs d s = Raise ValueError.
Proof. apply symbolize_bad. Qed.

(** with [stable=True] the patterns are unchanged by every strictly increasing transformation *)
Theorem C31_monotone_stable {T U} `{Cmp T} `{Cmp U} (f : T -> U) (kt : kind T) (ku : kind U) (xs : list T) d s :
  increasing f -> k_stable kt = true -> k_stable ku = true ->
  symbolize ku (map f xs) d s = symbolize kt xs d s.
Proof.
  intros INC ST SU. unfold symbolize. rewrite map_length.
  destruct (d <? 1)%Z; [reflexivity|]. destruct (s <? 1)%Z; [reflexivity|].
  destruct (_ <? 1)%Z; [reflexivity|]. destruct xs as [|x0 r]; [reflexivity|].
  cbn [map]. f_equal. change (f x0 :: map f r) with (map f (x0 :: r)).
  rewrite windows_map, map_map. apply map_ext. intros w. unfold argsort. rewrite ST, SU. apply argsort_stable_mono. exact INC.
Qed.

(** with any argsort the same holds for series without ties inside a window *)
Theorem C31_monotone_tie_free {T U} `{Cmp T} `{Cmp U} (f : T -> U) (kt : kind T) (ku : kind U) x0 (xs : list T) d s :
  increasing f -> legal_kind kt -> legal_kind ku -> 1 <= s -> no_ties x0 xs d s ->
  symbolize ku (map f xs) (Z.of_nat d) (Z.of_nat s) = symbolize kt xs (Z.of_nat d) (Z.of_nat s).
Proof.
  intros INC LT LU S NT. unfold symbolize. rewrite map_length.
  destruct (_ <? 1)%Z; [reflexivity|]. destruct (_ <? 1)%Z; [reflexivity|].
  destruct (_ <? 1)%Z; [reflexivity|]. destruct xs as [|y0 r]; [reflexivity|].
  cbn [map]. f_equal. change (f y0 :: map f r) with (map f (y0 :: r)).
  rewrite !Nat2Z.id, windows_map, map_map. apply map_ext_in. intros w Hw.
  assert (TF : tie_free w).
  { unfold no_ties in NT. rewrite Forall_forall in NT. apply NT.
    rewrite (windows_default x0 y0) by exact S. exact Hw. }
  rewrite (argsort_tie_free kt w LT TF), (argsort_tie_free ku (map f w) LU (tie_free_mono f INC w TF)).
  apply argsort_stable_mono. exact INC.
Qed.

(** a window without ties has exactly one sorting pattern *)
Theorem C31_pattern_unique {T} `{Cmp T} (w : list T) p q : tie_free w -> sorts w p -> sorts w q -> p = q.
Proof.
  intros TF P Q. rewrite (stable_unique w p (tie_free_stable w p TF P)).
  symmetry. apply stable_unique, tie_free_stable; assumption.
Qed.

Lemma stable_legal {T} `{Cmp T} : legal_kind (mkKind argsort_stable true).
Proof. intros w. apply argsort_stable_ok. Qed.

Example C31_example :
  symbolize (mkKind argsort_stable true) [4; 7; 9; 10; 6; 11; 3]%Z 3 1 =
    Ok [[0; 1; 2]; [0; 1; 2]; [2; 0; 1]; [1; 0; 2]; [2; 0; 1]] /\
  legal_kind (mkKind (@argsort_stable Z _) true) /\ no_ties 0%Z [4; 7; 9; 10; 6; 11; 3]%Z 3 1.
Proof.
  split; [vm_compute; reflexivity|]. split; [apply stable_legal|].
  unfold no_ties, windows. simpl. repeat constructor; simpl; intuition congruence.
Qed.

(** ** C32 *)
Local Open Scope R_scope.

(** The ordinal entropy is the plug-in entropy of the patterns given by some legal pattern function; it
    lies between 0 and log_b(d!). *)
Theorem C32_entropy_of_patterns {T} `{Cmp T} (k : kind T) b x0 (xs : list T) d s : legal_kind k -> big_base b ->
  (1 <= d)%nat -> (1 <= s)%nat -> ((d - 1) * s < length xs)%nat ->
  exists p, sorting p /\
  entropy_ordinal k b xs (Z.of_nat d) (Z.of_nat s) = Ok (Ent (patterns p x0 xs d s) / unit_of b) /\
  0 <= Ent (patterns p x0 xs d s) / unit_of b <= ln (IZR (zfact d)) / unit_of b.
Proof.
  intros K B D S L. exists (eff_sort k d s). split; [intros w; apply eff_sort_sorts; exact K|].
  split; [apply entropy_ordinal_ok; auto using big_valid|].
  assert (NE : patterns (eff_sort k d s) x0 xs d s <> []).
  { intros E. apply (f_equal (@length _)) in E. unfold patterns in E. rewrite map_length, windows_length in E. simpl in E. lia. }
  split; [apply big_div_nonneg; [exact B|]; apply Ent_nonneg|].
  apply big_div_le; [exact B|]. apply Ent_perms_bound; [exact NE|].
  intros p Hp. apply in_map_iff in Hp. destruct Hp as (w & <- & Hw).
  unfold is_perm. rewrite <- (windows_In_length x0 xs d s w Hw). apply eff_sort_sorts. exact K.
Qed.
Print Assumptions C32_entropy_of_patterns.

(** without ties inside a window, it is the entropy of the patterns themselves, whichever path computes
    it: they are the only sorting patterns and exactly what [symbolize_series] returns *)
Theorem C32_fast_paths_tie_free {T} `{Cmp T} (k : kind T) b x0 (xs : list T) d s : legal_kind k -> valid_base b ->
  (1 <= d)%nat -> (1 <= s)%nat -> ((d - 1) * s < length xs)%nat -> no_ties x0 xs d s ->
  exists ps, symbolize k xs (Z.of_nat d) (Z.of_nat s) = Ok ps /\
  entropy_ordinal k b xs (Z.of_nat d) (Z.of_nat s) = Ok (Ent ps / unit_of b) /\
  forall p, sorting p -> patterns p x0 xs d s = ps.
Proof.
  intros K B D S L NT. eexists. split; [apply (symbolize_ok k x0); assumption|].
  assert (U : forall p q, sorting p -> sorting q -> patterns p x0 xs d s = patterns q x0 xs d s).
  { intros p q P Q. apply map_ext_in. intros w Hw. unfold no_ties in NT. rewrite Forall_forall in NT.
    apply (C31_pattern_unique w); auto. }
  split; [|intros p P; apply U; [exact P|intros w; apply argsort_sorts; exact K]].
  rewrite (entropy_ordinal_ok k b x0) by assumption. f_equal. f_equal. f_equal.
  apply U; intros w; [apply eff_sort_sorts|apply argsort_sorts]; exact K.
Qed.

(** other dimensions and steps (and no fast path): always the patterns of [symbolize_series] *)
Theorem C32_general_path {T} `{Cmp T} (k : kind T) b (xs : list T) d s : legal_kind k -> valid_base b ->
  (1 <= d)%nat -> (1 <= s)%nat -> ((d - 1) * s < length xs)%nat -> (2 <= s)%nat \/ (4 <= d)%nat \/ d = 1%nat ->
  exists ps, symbolize k xs (Z.of_nat d) (Z.of_nat s) = Ok ps /\
  entropy_ordinal k b xs (Z.of_nat d) (Z.of_nat s) = Ok (Ent ps / unit_of b).
Proof.
  intros K B D S L C. destruct (some_elt xs _ L) as [x0 _]. eexists. split; [apply (symbolize_ok k x0); assumption|].
  rewrite (entropy_ordinal_ok k b x0) by assumption. unfold eff_sort.
  replace ((s =? 1)%nat && ((d =? 2)%nat || (d =? 3)%nat)) with false; [reflexivity|].
  symmetry. destruct (Nat.eqb_spec s 1), (Nat.eqb_spec d 2), (Nat.eqb_spec d 3); simpl; try reflexivity; lia.
Qed.

(** As stated (with ties) the claim fails: with [stable=True] and dimension 2 the patterns of
    [0,0,1,2] are all (0,1), but the fast path treats the tie as a descent. *)
Theorem C32_stable_ties_refuted :
  let k := mkKind (@argsort_stable Z _) true in
  symbolize k [0; 0; 1; 2]%Z 2 1 = Ok [[0; 1]; [0; 1]; [0; 1]]%nat /\
  exists h, entropy_ordinal k BE [0; 0; 1; 2]%Z 2 1 = Ok h /\ 0 < h /\ Ent [[0; 1]; [0; 1]; [0; 1]]%nat = 0.
Proof.
  intros k. split; [vm_compute; reflexivity|].
  eexists. split; [exact (entropy_ordinal_ok k BE 0%Z [0; 0; 1; 2]%Z 2 1 stable_legal Logic.I ltac:(lia) ltac:(lia) ltac:(simpl; lia))|].
  replace (map (eff_sort k 2 1) (windows 0%Z [0; 0; 1; 2]%Z 2 1)) with ([[1; 0]; [0; 1]; [0; 1]]%nat) by (vm_compute; reflexivity).
  split; [|apply (Ent_const _ [0; 1]%nat); intros x Hx; simpl in Hx; intuition congruence].
  simpl unit_of. unfold Rdiv at 1. rewrite Rinv_1, Rmult_1_r. unfold Ent, prob, count, distinct.
  change (nodup eq_dec [[1; 0]; [0; 1]; [0; 1]]%nat) with ([[1; 0]; [0; 1]]%nat).
  unfold sumf. simpl.
  assert (L1 : ln (1 / (1 + 1 + 1)) < 0).
  { replace 0 with (ln 1) by apply ln_1. apply ln_increasing; lra. }
  assert (L2 : ln ((1 + 1) / (1 + 1 + 1)) < 0).
  { replace 0 with (ln 1) by apply ln_1. apply ln_increasing; lra. }
  nra.
Qed.

(** The distribution reported for dimension 3 labels the two cyclic patterns the wrong way round: for the
    (tie-free) series 1,2,0 the pattern is (2,0,1), but the probabilities are reported for (1,2,0). *)
Theorem C32_dim3_labels_refuted :
  symbolize (mkKind (@argsort_stable Z _) false) [1; 2; 0; 1]%Z 3 1 = Ok [[2; 0; 1]; [1; 2; 0]]%nat /\
  exists dict, est_probs (mkKind (@argsort_stable Z _) false) [1; 2; 0; 1]%Z 3 1 = Ok (dict, [[1; 2; 0]; [2; 0; 1]]%nat).
Proof. split; [vm_compute; reflexivity|]. eexists. vm_compute. reflexivity. Qed.

(** local values average to the entropy, one per window (dimension at least 2) *)
Theorem C32_local_mean {T} `{Cmp T} (k : kind T) b (xs : list T) d s : legal_kind k -> valid_base b ->
  (2 <= d)%nat -> (1 <= s)%nat -> ((d - 1) * s < length xs)%nat ->
  exists ls, local_ordinal k b xs (Z.of_nat d) (Z.of_nat s) = Ok ls /\ length ls = (length xs - (d - 1) * s)%nat /\
    entropy_ordinal k b xs (Z.of_nat d) (Z.of_nat s) = Ok (mean ls).
Proof. apply local_ordinal_ok. Qed.

(** with dimension 1 the local values raise TypeError although the entropy is 0 *)
Theorem C32_local_dim1_refuted {T} `{Cmp T} (k : kind T) b (xs : list T) s : (1 <= s)%Z -> xs <> [] ->
  entropy_ordinal k b xs 1 s = Ok 0 /\ local_ordinal k b xs 1 s = Raise TypeError.
Proof.
  intros S NE. assert (L : (1 <= length xs)%nat) by (destruct xs; [congruence|simpl; lia]).
  unfold entropy_ordinal, local_ordinal, ord_init.
  destruct (Z.ltb_spec 1 0); [lia|]. destruct (Z.ltb_spec s 1); [lia|].
  destruct (Z.ltb_spec (Z.of_nat (length xs)) ((1 - 1) * s + 1)); [lia|].
  split; [reflexivity|]. simpl. destruct (Nat.eqb_spec (length xs) 0); [lia|reflexivity].
Qed.

(** a strictly monotone series (one pattern) has ordinal entropy 0; a strictly increasing transformation
    of tie-free data changes nothing *)
Theorem C32_monotone_map {T U} `{Cmp T} `{Cmp U} (f : T -> U) (kt : kind T) (ku : kind U) b x0 (xs : list T) d s :
  increasing f -> legal_kind kt -> legal_kind ku -> valid_base b ->
  (1 <= d)%nat -> (1 <= s)%nat -> ((d - 1) * s < length xs)%nat -> no_ties x0 xs d s ->
  entropy_ordinal ku b (map f xs) (Z.of_nat d) (Z.of_nat s) = entropy_ordinal kt b xs (Z.of_nat d) (Z.of_nat s).
Proof.
  intros INC LT LU B D S L NT.
  destruct (C32_fast_paths_tie_free kt b x0 xs d s LT B D S L NT) as (ps & E1 & E2 & _).
  assert (NT' : no_ties (f x0) (map f xs) d s).
  { unfold no_ties. rewrite windows_map, Forall_map. eapply Forall_impl; [|exact NT]. intros w. apply tie_free_mono. exact INC. }
  destruct (C32_fast_paths_tie_free ku b (f x0) (map f xs) d s LU B D S ltac:(rewrite map_length; exact L) NT') as (ps' & E1' & E2' & _).
  rewrite (C31_monotone_tie_free f kt ku x0 xs d s INC LT LU S NT), E1 in E1'. injection E1' as <-. congruence.
Qed.

(** concrete: six values, dimension 3, stable sort *)
Example C32_example : exists h,
  entropy_ordinal (mkKind (@argsort_stable Z _) true) (BNum 2) [4; 7; 9; 10; 6; 11; 3]%Z 3 1 = Ok h /\ 0 <= h <= ln 6 / ln 2.
Proof.
  destruct (C32_entropy_of_patterns (mkKind (@argsort_stable Z _) true) (BNum 2) 0%Z [4; 7; 9; 10; 6; 11; 3]%Z 3 1 stable_legal)
    as (p & _ & E & Bd); try (simpl; lia); [simpl; lra|].
  eexists. split; [exact E|]. exact Bd.
Qed.

(** ** C58: ordinal MI, CMI, TE and CTE are the discrete measures of the pattern sequences *)
Section C58.
Context {T : Type} `{Cmp T}.

Lemma ord_symbols_ok (k : kind T) x0 (xs : list T) d s : legal_kind k -> (1 <= d)%nat -> (1 <= s)%nat -> ((d - 1) * s < length xs)%nat ->
  exists cs, ord_symbols k xs (Z.of_nat d) (Z.of_nat s) = Ok cs /\ same_partition (patterns (argsort k) x0 xs d s) cs.
Proof.
  intros K D S L. unfold ord_symbols. rewrite (symbolize_ok k x0) by assumption. cbn [bind].
  exists (reduce_rows (rows_Z (map (argsort k) (windows x0 xs d s)))). split; [reflexivity|].
  eapply same_partition_trans; [|apply reduce_rows_partition].
  apply map_inj_partition. intros p q _ _ E. revert q E. induction p as [|a p IH]; intros [|c q] E; try discriminate; [reflexivity|].
  injection E as E1 E2. f_equal; [lia|apply IH; exact E2].
Qed.

Lemma patterns_length p x0 (xs : list T) d s : length (patterns p x0 xs d s) = (length xs - (d - 1) * s)%nat.
Proof. unfold patterns. rewrite map_length. apply windows_length. Qed.

Lemma checks_ok (xs : list T) d s : (1 <= d)%nat -> (1 <= s)%nat -> ((d - 1) * s < length xs)%nat ->
  ord_mi_checks xs (Z.of_nat d) (Z.of_nat s) = Ok tt.
Proof. exact (ord_init_ok xs d s). Qed.

Lemma patterns_1 (k : kind T) x0 xs s : legal_kind k -> patterns (argsort k) x0 xs 1 s = repeat [0%nat] (length xs).
Proof.
  intros K. unfold patterns. rewrite (map_ext_in _ (fun _ => [0%nat])).
  - clear.
    replace (length xs) with (length (windows x0 xs 1 s)) by (rewrite windows_length; lia).
    induction (windows x0 xs 1 s) as [|w l IH]; [reflexivity|]. cbn. f_equal. exact IH.
  - intros w Hw. apply (perm_1 k w K). apply (windows_In_length x0 xs 1 s w Hw).
Qed.

Lemma MI_const_0 {A B} `{EqDec A} `{EqDec B} (a : A) (c : B) n : MI (repeat a n) (repeat c n) = 0.
Proof.
  unfold MI. rewrite (Ent_const (repeat a n) a), (Ent_const (repeat c n) c), (Ent_const (combine (repeat a n) (repeat c n)) (a, c)); [ring| | |].
  - intros [x y] Hx. pose proof (in_combine_l _ _ _ _ Hx) as P. apply in_combine_r in Hx. apply repeat_spec in Hx, P. congruence.
  - intros x Hx. apply repeat_spec in Hx. exact Hx.
  - intros x Hx. apply repeat_spec in Hx. exact Hx.
Qed.

Lemma CMI_const_0 {A B C} `{EqDec A} `{EqDec B} `{EqDec C} (a : A) (c : B) (e : C) n : CMI (repeat a n) (repeat c n) (repeat e n) = 0.
Proof.
  unfold CMI. rewrite (Ent_const (combine (repeat a n) (repeat e n)) (a, e)), (Ent_const (combine (repeat c n) (repeat e n)) (c, e)), (Ent_const (repeat e n) e),
    (Ent_const (combine (combine (repeat a n) (repeat c n)) (repeat e n)) (a, c, e)); [ring| | | |].
  - intros [[x y] z] Hx. pose proof (in_combine_l _ _ _ _ Hx) as P. apply in_combine_r in Hx.
    pose proof (in_combine_l _ _ _ _ P) as Q. apply in_combine_r in P. apply repeat_spec in Hx, P, Q. congruence.
  - intros x Hx. apply repeat_spec in Hx. exact Hx.
  - intros [x y] Hx. pose proof (in_combine_l _ _ _ _ Hx) as P. apply in_combine_r in Hx. apply repeat_spec in Hx, P. congruence.
  - intros [x y] Hx. pose proof (in_combine_l _ _ _ _ Hx) as P. apply in_combine_r in Hx. apply repeat_spec in Hx, P. congruence.
Qed.

Theorem C58_ordinal_mi (k : kind T) b x0 (xs ys : list T) d s : legal_kind k -> big_base b ->
  (1 <= d)%nat -> (1 <= s)%nat -> length xs = length ys -> ((d - 1) * s < length xs)%nat -> small2 (length xs) ->
  exists p, sorting p /\ (k_stable k = true -> stable_sorting p) /\
  let v := MI (patterns p x0 xs d s) (patterns p x0 ys d s) / unit_of b in
  mi_ordinal k b 0 [xs; ys] (Z.of_nat d) (Z.of_nat s) = Ok v /\
  mi_ordinal k b 0 [ys; xs] (Z.of_nat d) (Z.of_nat s) = Ok v /\
  0 <= v <= ln (IZR (zfact d)) / unit_of b.
Proof.
  intros K B D S L W SM. exists (argsort k). split; [intros w; apply argsort_sorts; exact K|].
  split; [intros St w; unfold argsort; rewrite St; apply argsort_stable_ok|]. intros v.
  assert (G : forall us vs, length us = length vs -> length us = length xs ->
     mi_ordinal k b 0 [us; vs] (Z.of_nat d) (Z.of_nat s) = Ok (MI (patterns (argsort k) x0 us d s) (patterns (argsort k) x0 vs d s) / unit_of b)).
  { intros us vs Luv Lu. unfold mi_ordinal. cbn [ord_mi_init length Nat.ltb Nat.leb hd forallb andb negb nth].
    rewrite <- Luv, !Nat.eqb_refl. cbn [andb negb Z.ltb Z.compare bind hd].
    rewrite (checks_ok us d s D S) by lia. cbn [bind mapM].
    destruct (ord_symbols_ok k x0 us d s K D S ltac:(lia)) as (cu & Eu & Pu).
    destruct (ord_symbols_ok k x0 vs d s K D S ltac:(lia)) as (cv & Ev & Pv).
    rewrite Eu, Ev. cbn [bind map].
    destruct (Z.eqb_spec (Z.of_nat d) 1) as [E1|N1].
    - assert (d = 1%nat) by lia. subst d. rewrite !patterns_1 by exact K. rewrite <- Luv, MI_const_0. f_equal. unfold Rdiv. ring.
    - pose proof (proj1 Pu) as LPu. pose proof (proj1 Pv) as LPv. rewrite patterns_length in LPu, LPv.
      rewrite mi_global_1d; [|exact B|congruence| |unfold small2 in *; lia].
      + f_equal. f_equal. symmetry. apply MI_partition; [rewrite !patterns_length; congruence|exact Pu|exact Pv].
      + intros Q. rewrite Q in LPu. simpl in LPu. lia. }
  split; [apply G; [exact L|reflexivity]|]. assert (LP : length (patterns (argsort k) x0 xs d s) = length (patterns (argsort k) x0 ys d s)) by (rewrite !patterns_length; congruence).
  split; [rewrite G; [|auto|auto]; unfold v; rewrite (MI_sym _ _ LP); reflexivity|].
  split; [apply big_div_nonneg; [exact B|]; apply MI_nonneg; exact LP|].
  apply big_div_le; [exact B|]. eapply Rle_trans; [apply MI_le_l; exact LP|].
  apply Ent_perms_bound.
  - intros Q. apply (f_equal (@length _)) in Q. rewrite patterns_length in Q. simpl in Q. lia.
  - intros p Hp. apply in_map_iff in Hp. destruct Hp as (w & <- & Hw).
    unfold is_perm. rewrite <- (windows_In_length x0 xs d s w Hw). apply argsort_sorts. exact K.
Qed.

Theorem C58_ordinal_cmi (k : kind T) b x0 (xs ys zs : list T) d s : legal_kind k -> valid_base b ->
  (1 <= d)%nat -> (1 <= s)%nat -> length xs = length ys -> length xs = length zs -> ((d - 1) * s < length xs)%nat -> small2 (length xs) ->
  exists p, sorting p /\ (k_stable k = true -> stable_sorting p) /\
  let v := CMI (patterns p x0 xs d s) (patterns p x0 ys d s) (patterns p x0 zs d s) / unit_of b in
  cmi_ordinal k b [xs; ys] zs (Z.of_nat d) (Z.of_nat s) = Ok v /\ (big_base b -> 0 <= v).
Proof.
  intros K B D S L1 L2 W SM. exists (argsort k). split; [intros w; apply argsort_sorts; exact K|].
  split; [intros St w; unfold argsort; rewrite St; apply argsort_stable_ok|]. intros v.
  split; [|intros BB; apply big_div_nonneg; [exact BB|]; apply CMI_nonneg; rewrite !patterns_length; congruence].
  unfold cmi_ordinal. rewrite <- L1, <- L2, !Nat.eqb_refl. cbn [negb orb].
  rewrite (checks_ok xs d s D S W). cbn [bind mapM].
  destruct (ord_symbols_ok k x0 xs d s K D S W) as (cu & Eu & Pu).
  destruct (ord_symbols_ok k x0 ys d s K D S ltac:(lia)) as (cv & Ev & Pv).
  destruct (ord_symbols_ok k x0 zs d s K D S ltac:(lia)) as (cz & Ez & Pz).
  rewrite Eu, Ev, Ez. cbn [bind map].
  destruct (Z.eqb_spec (Z.of_nat d) 1) as [E1|N1].
  - assert (d = 1%nat) by lia. subst d. unfold v. rewrite !patterns_1 by exact K. rewrite <- L1, <- L2, CMI_const_0. f_equal. unfold Rdiv. ring.
  - pose proof (proj1 Pu) as LPu. pose proof (proj1 Pv) as LPv. pose proof (proj1 Pz) as LPz. rewrite patterns_length in LPu, LPv, LPz.
    destruct (cmi2_general b None cu cv cz B) as [G _]; [congruence|congruence|lia|unfold small2 in SM; lia|exact Logic.I|].
    rewrite G, Rplus_0_r. f_equal. unfold v. f_equal. symmetry.
    apply CMI_partition; try assumption; rewrite !patterns_length; congruence.
Qed.
Print Assumptions C58_ordinal_cmi.

Lemma symbolize_int_part (k : kind T) x0 (xs : list T) d s : legal_kind k -> (1 <= d <= 20)%nat -> (1 <= s)%nat -> ((d - 1) * s < length xs)%nat ->
  exists cs, symbolize_int k xs (Z.of_nat d) (Z.of_nat s) = Ok cs /\ same_partition (patterns (argsort k) x0 xs d s) cs.
Proof.
  intros K D S L. eexists. split; [apply (symbolize_int_ok k x0); assumption|].
  unfold patterns. rewrite <- (map_map (argsort k) lehmer). apply map_inj_partition. intros p q Hp Hq E.
  apply in_map_iff in Hp, Hq. destruct Hp as (w & <- & Hw), Hq as (v & <- & Hv). apply lehmer_inj; [|exact E].
  rewrite (argsort_perm k w K), (argsort_perm k v K), (windows_In_length x0 xs d s w Hw), (windows_In_length x0 xs d s v Hv). reflexivity.
Qed.

Lemma presents_partition {A B} (da : A) (db : B) (zs : list A) (cs : list B) ts :
  same_partition zs cs -> (forall b, In b ts -> (b < length zs)%nat) ->
  same_partition (presents da zs ts) (presents db cs ts).
Proof.
  intros [L P] HT. unfold presents. split; [rewrite !map_length; reflexivity|]. rewrite map_length.
  intros i j dx dy Hi Hj.
  rewrite !(nth_indep (map (fun b => nth b zs da) ts) dx (nth 0 zs da)) by (rewrite map_length; assumption).
  rewrite !(nth_indep (map (fun b => nth b cs db) ts) dy (nth 0 cs db)) by (rewrite map_length; assumption).
  rewrite !(map_nth (fun b => nth b zs da)), !(map_nth (fun b => nth b cs db)).
  apply P; apply HT, nth_In; assumption.
Qed.

(** the number of patterns of each series is [n]; TE and CTE embed the pattern sequences with the same
    step size *)
Theorem C58_ordinal_te (k : kind T) b x0 (xs ys : list T) d l kk s n : legal_kind k -> valid_base b ->
  (1 <= d <= 20)%nat -> (1 <= s)%nat -> length xs = length ys -> ((d - 1) * s < length xs)%nat ->
  n = (length xs - (d - 1) * s)%nat -> (1 <= l)%nat -> (1 <= kk)%nat -> (Nat.max kk l * s < n)%nat -> small2 n ->
  exists p, sorting p /\ (k_stable k = true -> stable_sorting p) /\
  let ts := base_times n (Nat.max kk l * s) s in
  let px := patterns p x0 xs d s in let py := patterns p x0 ys d s in
  let v := CMI (presents [] py ts) (pasts [] px s l ts) (pasts [] py s kk ts) / unit_of b in
  te_ordinal k b xs ys (Z.of_nat d) (NInt (Z.of_nat l)) (NInt (Z.of_nat kk)) (NInt (Z.of_nat s)) RNone = Ok v /\
  (big_base b -> 0 <= v).
Proof.
  intros K B D S L W En Hl Hk Hd SM. exists (argsort k). split; [intros w; apply argsort_sorts; exact K|].
  split; [intros St w; unfold argsort; rewrite St; apply argsort_stable_ok|]. intros ts px py v.
  assert (HT : forall b', In b' ts -> (b' < n)%nat).
  { intros b' Hb'. unfold ts in Hb'. rewrite base_times_In in Hb' by exact S. lia. }
  split; [|intros BB; apply big_div_nonneg; [exact BB|]; apply CMI_nonneg; rewrite presents_length, pasts_length; reflexivity].
  destruct (symbolize_int_part k x0 xs d s K D S W) as (cx & Ex & Px).
  destruct (symbolize_int_part k x0 ys d s K D S ltac:(lia)) as (cy & Ey & Py).
  assert (Lx : length cx = n) by (rewrite <- (proj1 Px), patterns_length; congruence).
  assert (Ly : length cy = n) by (rewrite <- (proj1 Py), patterns_length; congruence).
  pose proof (C19_te_is_conditional_mi b cx cy l kk s n B Lx Ly Hl Hk S Hd SM) as E. cbv zeta in E. fold ts in E.
  unfold te_discrete, te_gen in E. cbn [a_prop a_offset a_step a_src a_dest te_kw] in E.
  rewrite te_init_plain in E by (cbn [arr_len]; congruence). cbn [bind fst snd] in E.
  unfold te_ordinal. destruct (Z.ltb_spec (Z.of_nat d) 0); [lia|]. destruct (Z.ltb_spec (Z.of_nat s) 0); [lia|].
  destruct (Z.ltb_spec (Z.of_nat (length xs)) ((Z.of_nat d - 1) * Z.of_nat s + 1)); [nia|].
  rewrite Ex, Ey. cbn [bind]. rewrite E. f_equal. unfold v. f_equal. symmetry.
  apply CMI_partition; rewrite ?presents_length, ?pasts_length; try reflexivity.
  - apply presents_partition; [exact Py|]. intros b' Hb'. rewrite (proj1 Py : length py = _), Ly. auto.
  - apply pasts_partition; [exact Px| |exact S]. intros b' Hb'. rewrite (proj1 Px : length px = _), Lx. auto.
  - apply pasts_partition; [exact Py| |exact S]. intros b' Hb'. rewrite (proj1 Py : length py = _), Ly. auto.
Qed.
Print Assumptions C58_ordinal_te.

Theorem C58_ordinal_cte (k : kind T) b x0 (xs ys zs : list T) d l kk m s n : legal_kind k -> valid_base b ->
  (1 <= d <= 20)%nat -> (1 <= s)%nat -> length xs = length ys -> length xs = length zs -> ((d - 1) * s < length xs)%nat ->
  n = (length xs - (d - 1) * s)%nat -> (1 <= l)%nat -> (1 <= kk)%nat -> (1 <= m)%nat ->
  (Nat.max (Nat.max kk l) m * s < n)%nat -> small2 n ->
  exists p, sorting p /\ (k_stable k = true -> stable_sorting p) /\
  let ts := base_times n (Nat.max (Nat.max kk l) m * s) s in
  let px := patterns p x0 xs d s in let py := patterns p x0 ys d s in let pz := patterns p x0 zs d s in
  let v := CMI (presents [] py ts) (pasts [] px s l ts) (combine (pasts [] py s kk ts) (pasts [] pz s m ts)) / unit_of b in
  cte_ordinal k b xs ys zs (Z.of_nat d) (NInt (Z.of_nat l)) (NInt (Z.of_nat kk)) (NInt (Z.of_nat m)) (NInt (Z.of_nat s)) = Ok v /\
  (big_base b -> 0 <= v).
Proof.
  intros K B D S L L2 W En Hl Hk Hm Hd SM. exists (argsort k). split; [intros w; apply argsort_sorts; exact K|].
  split; [intros St w; unfold argsort; rewrite St; apply argsort_stable_ok|]. intros ts px py pz v.
  assert (HT : forall b', In b' ts -> (b' < n)%nat).
  { intros b' Hb'. unfold ts in Hb'. rewrite base_times_In in Hb' by exact S. lia. }
  split; [|intros BB; apply big_div_nonneg; [exact BB|]; apply CMI_nonneg; rewrite ?combine_length, ?presents_length, ?pasts_length; try reflexivity; lia].
  destruct (symbolize_int_part k x0 xs d s K D S W) as (cx & Ex & Px).
  destruct (symbolize_int_part k x0 ys d s K D S ltac:(lia)) as (cy & Ey & Py).
  destruct (symbolize_int_part k x0 zs d s K D S ltac:(lia)) as (cz & Ez & Pz).
  assert (Lx : length cx = n) by (rewrite <- (proj1 Px), patterns_length; congruence).
  assert (Ly : length cy = n) by (rewrite <- (proj1 Py), patterns_length; congruence).
  assert (Lz : length cz = n) by (rewrite <- (proj1 Pz), patterns_length; congruence).
  pose proof (C24_cte_is_conditional_mi b cx cy cz l kk m s n B Lx Ly Lz Hl Hk Hm S Hd SM) as E. cbv zeta in E. fold ts in E.
  unfold cte_discrete, cte_gen in E. cbn [a_prop a_offset a_step a_src a_dest a_cond cte_kw reduce_joint_space bind] in E.
  rewrite (cte_init_plain (A1 cx) (A1 cy) (A1 cz) n Lx Ly Lz) in E. cbn [bind] in E.
  unfold cte_ordinal. destruct (Z.ltb_spec (Z.of_nat d) 0); [lia|]. destruct (Z.ltb_spec (Z.of_nat s) 0); [lia|].
  destruct (Z.ltb_spec (Z.of_nat (length xs)) ((Z.of_nat d - 1) * Z.of_nat s + 1)); [nia|].
  rewrite Ex, Ey, Ez. cbn [bind]. rewrite E. f_equal. unfold v. f_equal. symmetry.
  assert (PX : same_partition (pasts [] px s l ts) (pasts 0%Z cx s l ts)).
  { apply pasts_partition; [exact Px| |exact S]. intros b' Hb'. rewrite (proj1 Px : length px = _), Lx. auto. }
  assert (PY : same_partition (pasts [] py s kk ts) (pasts 0%Z cy s kk ts)).
  { apply pasts_partition; [exact Py| |exact S]. intros b' Hb'. rewrite (proj1 Py : length py = _), Ly. auto. }
  assert (PZ : same_partition (pasts [] pz s m ts) (pasts 0%Z cz s m ts)).
  { apply pasts_partition; [exact Pz| |exact S]. intros b' Hb'. rewrite (proj1 Pz : length pz = _), Lz. auto. }
  apply CMI_partition; rewrite ?combine_length, ?presents_length, ?pasts_length; try reflexivity; try lia; try assumption.
  - apply presents_partition; [exact Py|]. intros b' Hb'. rewrite (proj1 Py : length py = _), Ly. auto.
  - apply same_partition_combine; [rewrite !pasts_length; reflexivity|exact PY|exact PZ].
Qed.
End C58.

(** concrete instance: two integer series of length 6, dimension 2, default step *)
Example C58_example : exists v,
  mi_ordinal (mkKind (@argsort_stable Z _) true) BE 0 [[1; 2; 3; 1; 5; 4]; [2; 1; 0; 3; 3; 9]]%Z 2 1 = Ok v /\ 0 <= v <= ln 2.
Proof.
  destruct (C58_ordinal_mi (mkKind (@argsort_stable Z _) true) BE 0%Z [1; 2; 3; 1; 5; 4]%Z [2; 1; 0; 3; 3; 9]%Z 2 1 stable_legal)
    as (p & _ & _ & E & _ & Bd); try (simpl; lia); try exact Logic.I; try (unfold small2; simpl; lia).
  eexists. split; [exact E|]. split; [apply Bd|]. eapply Rle_trans; [apply Bd|]. simpl unit_of. change (zfact 2) with 2%Z. lra.
Qed.
Example C58_te_example : exists v,
  te_ordinal (mkKind (@argsort_stable Z _) true) BE [1; 2; 3; 1; 5; 4]%Z [2; 1; 0; 3; 3; 9]%Z 2 (NInt 1) (NInt 2) (NInt 1) RNone = Ok v /\ 0 <= v.
Proof.
  destruct (C58_ordinal_te (mkKind (@argsort_stable Z _) true) BE 0%Z [1; 2; 3; 1; 5; 4]%Z [2; 1; 0; 3; 3; 9]%Z 2 1 2 1 5 stable_legal)
    as (p & _ & _ & E & Bd); try (simpl; lia); try exact Logic.I; try (unfold small2; simpl; lia).
  eexists. split; [exact E|]. apply Bd. exact Logic.I.
Qed.
