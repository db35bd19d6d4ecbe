(** C42: DiscreteData. *)
From Coq Require Import Reals Lra Lia List ZArith Arith Bool Permutation Sorted.
From Verif Require Import Res RSum Spec Info Info2 Gibbs Ord MBase MData MEntropy MGeneric MEst MCtor SpecBase PBase PEntropy POrd3.
Import ListNotations.
Local Open Scope R_scope.

Lemma sumZ_cons x l : sumZ (x :: l) = (x + sumZ l)%Z.
Proof. reflexivity. Qed.
Lemma sumZ_nonneg l : (forall x, In x l -> (0 <= x)%Z) -> (0 <= sumZ l)%Z.
Proof. induction l as [|x r IH]; intros H; [reflexivity|]. rewrite sumZ_cons. pose proof (H x (or_introl eq_refl)). pose proof (IH (fun y I => H y (or_intror I))). lia. Qed.
Lemma sumZ_ge l x : (forall y, In y l -> (0 <= y)%Z) -> In x l -> (x <= sumZ l)%Z.
Proof.
  induction l as [|y r IH]; intros H I; [destruct I|]. destruct I as [->|I]; rewrite sumZ_cons.
  - pose proof (sumZ_nonneg r (fun z J => H z (or_intror J))). lia.
  - pose proof (H y (or_introl eq_refl)). pose proof (IH (fun z J => H z (or_intror J)) I). lia.
Qed.
Lemma sumZ_zero l : (forall y, In y l -> (0 <= y)%Z) -> (sumZ l = 0)%Z -> forall x, In x l -> x = 0%Z.
Proof. intros H E x I. pose proof (sumZ_ge l x H I). pose proof (H x I). lia. Qed.
Lemma sumZ_IZR l : IZR (sumZ l) = sumf IZR l.
Proof. induction l as [|x r IH]; [reflexivity|]. rewrite sumZ_cons, plus_IZR, IH. reflexivity. Qed.

Lemma post_init_cases u c : 
  (length u = length c /\ (forall x, In x c -> (0 <= x)%Z) /\ (exists x, In x c /\ (0 < x)%Z) /\ post_init u c None = Ok (mkDD u c None)) \/
  ((length u <> length c \/ (exists x, In x c /\ (x < 0)%Z) \/ (forall x, In x c -> x = 0%Z)) /\ post_init u c None = Raise ValueError).
Proof.
  unfold post_init. destruct (Nat.eqb_spec (length u) (length c)) as [L|L]; cbn [negb]; [|right; auto].
  destruct (existsb (fun x => Z.ltb x 0) c) eqn:E.
  { right. split; [right; left|reflexivity]. apply existsb_exists in E. destruct E as (x & I & X). exists x. split; [exact I|apply Z.ltb_lt, X]. }
  assert (P : forall x, In x c -> (0 <= x)%Z).
  { intros x I. destruct (Z.ltb_spec x 0) as [X|X]; [|lia]. assert (existsb (fun x => Z.ltb x 0) c = true) by (apply existsb_exists; exists x; split; [exact I|apply Z.ltb_lt, X]). congruence. }
  destruct (Z.eqb_spec (sumZ c) 0) as [Z0|Z0].
  - right. split; [right; right; intros x I; eapply sumZ_zero; eassumption|reflexivity].
  - left. repeat split; auto. destruct (existsb (fun x => Z.ltb 0 x) c) eqn:EX.
    + apply existsb_exists in EX. destruct EX as (x & I & X). exists x. split; [exact I|apply Z.ltb_lt, X].
    + exfalso. apply Z0. assert (forall x, In x c -> x = 0%Z).
      { intros x I. pose proof (P x I). destruct (Z.ltb_spec 0 x) as [X|X]; [|lia]. assert (existsb (fun x => Z.ltb 0 x) c = true) by (apply existsb_exists; exists x; split; [exact I|apply Z.ltb_lt, X]). congruence. }
      clear -H. induction c as [|x r IH]; [reflexivity|]. rewrite sumZ_cons, IH by (intros; apply H; right; assumption). rewrite (H x (or_introl eq_refl)). reflexivity.
Qed.

(** [from_counts] accepts exactly equally many values and integer counts, none negative, not all zero; everything
    else is a ValueError *)
Theorem C42_from_counts_accepts : forall u c,
  (forall d, from_counts_raw u c = Ok d <->
     exists l, c = CInts l /\ length u = length l /\ (forall x, In x l -> (0 <= x)%Z) /\ (exists x, In x l /\ (0 < x)%Z) /\
               d = mkDD u l None) /\
  ((exists d, from_counts_raw u c = Ok d) \/ from_counts_raw u c = Raise ValueError).
Proof.
  intros u [l|l]; cbn [from_counts_raw].
  - unfold from_counts. destruct (post_init_cases u l) as [(L & P & X & ->)|(B & ->)].
    + split; [|eauto]. intros d. split; [intros [= <-]; exists l; auto|intros (l' & [= <-] & _ & _ & _ & ->); reflexivity].
    + split; [|auto]. intros d. split; [discriminate|]. intros (l' & [= <-] & L & P & (x & I & X) & _). exfalso.
      destruct B as [B|[(y & J & Y)|B]]; [contradiction|specialize (P y J); lia|specialize (B x I); lia].
  - split; [|auto]. intros d. split; [discriminate|intros (l' & E & _); discriminate].
Qed.

Definition built (d : ddata) : Prop := (exists xs, from_data xs = Ok d) \/ (exists u c, from_counts_raw u c = Ok d).

Lemma built_facts d : built d -> length (dd_uniq d) = length (dd_counts d) /\ dd_N d = sumZ (dd_counts d) /\ (0 < dd_N d)%Z /\
  (forall c, In c (dd_counts d) -> (0 <= c)%Z).
Proof.
  intros [(xs & E)|(u & c & E)].
  - destruct xs as [|x r]; [discriminate|]. rewrite from_data_dd in E by discriminate. injection E as <-. unfold dd_of, dd_N. cbn [dd_uniq dd_counts dd_data].
    rewrite map_length. unfold unique_counts. rewrite map_length, map_map, sumZ_of_nat, sum_counts. repeat split.
    intros c I. apply in_map_iff in I. destruct I as (v & <- & _). lia.
  - apply C42_from_counts_accepts in E. destruct E as (l & -> & L & P & (x & I & X) & ->). unfold dd_N. cbn [dd_uniq dd_counts dd_data].
    repeat split; auto. pose proof (sumZ_ge l x P I). lia.
Qed.

(** every DiscreteData object: as many counts as values, N the sum of the counts and positive, probabilities in
    [0,1] that sum to one *)
Theorem C42_invariant : forall d, built d ->
  length (dd_uniq d) = length (dd_counts d) /\ dd_K d = length (dd_uniq d) /\ (1 <= dd_K d)%nat /\
  dd_N d = sumZ (dd_counts d) /\ (0 < dd_N d)%Z /\
  Forall (fun p => 0 <= p <= 1) (probabilities d) /\ length (probabilities d) = dd_K d /\ sumR (probabilities d) = 1.
Proof.
  intros d B. destruct (built_facts d B) as (L & N & P & C).
  assert (NP : 0 < IZR (dd_N d)) by (apply IZR_lt; exact P).
  repeat split; auto.
  - unfold dd_K. rewrite L. destruct (dd_counts d); [rewrite N in P; cbn in P; lia|simpl; lia].
  - unfold probabilities. rewrite Forall_map, Forall_forall. intros c I.
    pose proof (C c I) as C0. pose proof (sumZ_ge _ c C I) as C1. rewrite <- N in C1. split.
    + apply Rmult_le_pos; [apply IZR_le; exact C0|left; apply Rinv_0_lt_compat, NP].
    + apply Rmult_le_reg_r with (IZR (dd_N d)); [exact NP|]. unfold Rdiv. rewrite Rmult_assoc, Rinv_l, Rmult_1_r, Rmult_1_l by lra. apply IZR_le. exact C1.
  - unfold probabilities, dd_K. rewrite map_length. symmetry. exact L.
  - unfold probabilities. rewrite <- sumf_sumR, sumf_div, <- sumZ_IZR, <- N. field. lra.
Qed.
Print Assumptions C42_invariant.

(** [from_data]: exactly the values of the array, ascending, each with its number of occurrences; the empty array is refused *)
Theorem C42_from_data : forall xs, (xs = [] -> from_data xs = Raise ValueError) /\
  (xs <> [] -> exists d, from_data xs = Ok d /\ StronglySorted Z.lt (dd_uniq d) /\ (forall v, In v (dd_uniq d) <-> In v xs) /\
     dd_counts d = map (fun v => Z.of_nat (count_occ Z.eq_dec xs v)) (dd_uniq d) /\ dd_N d = Z.of_nat (length xs) /\
     dd_K d = length (nodup Z.eq_dec xs)).
Proof.
  intros xs. split; [intros ->; reflexivity|]. intros NE. exists (dd_of xs). split; [apply from_data_dd, NE|].
  unfold dd_of, dd_N, dd_K. cbn [dd_uniq dd_counts dd_data]. split.
  { pose proof (unique_sorted xs) as S. induction S as [|a l S IH F]; constructor; [exact IH|].
    eapply Forall_impl; [|exact F]. intros z A. apply Z.compare_lt_iff. exact A. }
  split; [intros v; apply unique_In|]. split; [unfold unique_counts; rewrite map_map; apply map_ext; intros v; unfold count; f_equal; f_equal|].
  split; [reflexivity|]. apply Permutation_length. apply NoDup_Permutation; [apply unique_NoDup|apply NoDup_nodup|]. intros v. rewrite unique_In, nodup_In. tauto.
Qed.

(** ** the same tallies *)
(** [u] with counts [c] are the tallies of [xs], in any order *)
Definition tallies (u c : list Z) (xs : list Z) : Prop :=
  NoDup u /\ (forall v, In v u <-> In v xs) /\ c = map (fun v => Z.of_nat (count_occ Z.eq_dec xs v)) u.

Lemma tallies_perm u c xs : tallies u c xs -> Permutation u (unique xs).
Proof. intros (ND & I & _). apply NoDup_Permutation; [exact ND|apply unique_NoDup|]. intros v. rewrite unique_In. apply I. Qed.

Lemma tallies_ok u c xs : xs <> [] -> tallies u c xs -> from_counts_raw u (CInts c) = Ok (mkDD u c None) /\ sumZ c = Z.of_nat (length xs).
Proof.
  intros NE T. pose proof (tallies_perm u c xs T) as P. destruct T as (ND & I & ->).
  assert (S : sumZ (map (fun v => Z.of_nat (count_occ Z.eq_dec xs v)) u) = Z.of_nat (length xs)).
  { rewrite <- (sum_counts xs) at 1. rewrite <- (sumZ_of_nat (count xs)).
    assert (PP : forall l1 l2 : list Z, Permutation l1 l2 -> sumZ l1 = sumZ l2) by (clear; induction 1; rewrite ?sumZ_cons in *; lia).
    apply PP. unfold count. apply Permutation_map. exact P. }
  split; [|exact S]. apply C42_from_counts_accepts. eexists. split; [reflexivity|]. rewrite map_length. split; [reflexivity|].
  split; [intros x X; apply in_map_iff in X; destruct X as (v & <- & _); lia|]. split; [|reflexivity].
  destruct xs as [|x r]; [congruence|]. exists (Z.of_nat (count_occ Z.eq_dec (x :: r) x)). split.
  - apply in_map_iff. exists x. split; [reflexivity|]. apply I. left. reflexivity.
  - rewrite count_occ_cons_eq by reflexivity. lia.
Qed.

Theorem C42_from_counts_same_facts : forall xs u c, xs <> [] -> tallies u c xs ->
  exists d d', from_data xs = Ok d /\ from_counts_raw u (CInts c) = Ok d' /\ dd_N d' = dd_N d /\ dd_K d' = dd_K d /\
    forall v p, In (v, p) (distribution_dict d') <-> In (v, p) (distribution_dict d).
Proof.
  intros xs u c NE T. destruct (tallies_ok u c xs NE T) as [E S]. exists (dd_of xs), (mkDD u c None).
  split; [apply from_data_dd, NE|]. split; [exact E|]. unfold dd_N at 1 2, dd_K. cbn [dd_data dd_uniq dd_counts dd_of].
  split; [exact S|]. split; [apply Permutation_length; eapply tallies_perm; exact T|].
  intros v p. unfold distribution_dict, probabilities, dd_N. cbn [dd_data dd_uniq dd_counts dd_of]. rewrite S.
  destruct T as (ND & I & ->). unfold unique_counts. rewrite !map_map.
  assert (C : forall (l : list Z) (g : Z -> R), In (v, p) (combine l (map g l)) <-> In v l /\ p = g v).
  { clear. induction l as [|a r IH]; intros g; simpl; [tauto|]. rewrite IH. split; [intros [[= <- <-]|X]; tauto|].
    intros [[->|X] ->]; auto. }
  rewrite !C, unique_In, I. unfold count. tauto.
Qed.

(** entropy from the tallies equals entropy from the data: discrete and Miller-Madow, tallies in any order *)
Lemma probs_tallies u c xs : xs <> [] -> tallies u c xs -> probabilities (mkDD u c None) = map (prob xs) u.
Proof.
  intros NE T. destruct (tallies_ok u c xs NE T) as [_ S]. destruct T as (ND & I & ->). unfold probabilities, dd_N. cbn [dd_data dd_counts]. rewrite S.
  rewrite map_map. apply map_ext. intros v. unfold prob, count. rewrite <- !INR_IZR_INZ. reflexivity.
Qed.
Theorem C42_from_counts_same_entropy : forall b xs u c, valid_base b -> xs <> [] -> tallies u c xs ->
  entropy_from_counts est_discrete b u (CInts c) = Ok (Ent xs / unit_of b) /\
  entropy_from_counts est_discrete b u (CInts c) = entropy_of est_discrete b (EArr (A1 xs)) /\
  entropy_from_counts est_mm b u (CInts c) = entropy_of est_mm b (EArr (A1 xs)).
Proof.
  intros b xs u c V NE T. pose proof (tallies_perm u c xs T) as P. destruct (tallies_ok u c xs NE T) as [E S].
  assert (EV : EntVec (map (prob xs) u) = EntVec (map (prob xs) (unique xs))).
  { unfold EntVec. f_equal. apply sumf_perm. apply Permutation_map. exact P. }
  assert (PL : plogp b (probabilities (mkDD u c None)) = Ok (Ent xs / unit_of b)).
  { rewrite (probs_tallies u c xs NE T), plogp_ok, EV, EntVec_probs; [reflexivity|exact V|].
    rewrite Forall_map, Forall_forall. intros v Iv. apply prob_pos. apply T. exact Iv. }
  assert (PD : plogp b (probabilities (dd_of xs)) = Ok (Ent xs / unit_of b)).
  { pose proof (discrete_simple_ok b xs V) as D. exact D. }
  unfold entropy_from_counts, entropy_of. rewrite E. cbn [make_data bind]. rewrite from_data_dd by exact NE. cbn [bind dh_entropy dh_init].
  unfold e_global, est_discrete, est_mm. cbn [e_calc]. unfold discrete_simple, mm_simple, mm_factor. rewrite PL, PD. cbn [bind rmap value_global].
  assert (N1 : dd_N (mkDD u c None) = dd_N (dd_of xs)) by exact S.
  assert (K1 : dd_K (mkDD u c None) = dd_K (dd_of xs)) by (apply Permutation_length; exact P).
  rewrite N1, K1. auto.
Qed.
Print Assumptions C42_from_counts_same_entropy.

(** the object built from a data object's own tallies gives the same entropy with every approach but Grassberger's *)
Theorem C42_from_counts_same_entropy_all : forall b xs d, from_data xs = Ok d ->
  Forall (fun e => entropy_from_counts e b (dd_uniq d) (CInts (dd_counts d)) = entropy_of e b (EArr (A1 xs)))
    ([est_discrete; est_mm; est_shrink; est_zhang; est_chao_shen; est_cwj; est_bonachela]) /\
  (forall K, entropy_from_counts (est_ansb K) b (dd_uniq d) (CInts (dd_counts d)) = entropy_of (est_ansb K) b (EArr (A1 xs))) /\
  (forall a K, entropy_from_counts (est_bayes a K) b (dd_uniq d) (CInts (dd_counts d)) = entropy_of (est_bayes a K) b (EArr (A1 xs))).
Proof.
  intros b xs d E. destruct (C42_from_data xs) as [D0 D1]. destruct (list_eq_dec Z.eq_dec xs []) as [->|NE]; [discriminate|].
  destruct (D1 NE) as (d' & E' & SS & I & C & _). rewrite E in E'. injection E' as <-.
  assert (T : tallies (dd_uniq d) (dd_counts d) xs).
  { repeat split; try apply I; [|exact C]. rewrite from_data_dd in E by exact NE. injection E as <-. apply unique_NoDup. }
  destruct (tallies_ok _ _ xs NE T) as [F S].
  assert (N1 : dd_N (mkDD (dd_uniq d) (dd_counts d) None) = dd_N d).
  { rewrite from_data_dd in E by exact NE. injection E as <-. exact S. }
  assert (P1 : probabilities (mkDD (dd_uniq d) (dd_counts d) None) = probabilities d) by (unfold probabilities; rewrite N1; reflexivity).
  assert (K1 : dd_K (mkDD (dd_uniq d) (dd_counts d) None) = dd_K d) by reflexivity.
  split; [|split].
  - repeat constructor; unfold entropy_from_counts, entropy_of; rewrite F; cbn [make_data]; rewrite E; cbn [bind dh_entropy dh_init]; unfold e_global; cbn [e_calc est_discrete est_mm est_shrink est_zhang est_chao_shen est_cwj est_bonachela]; f_equal; f_equal.
    + unfold discrete_simple. rewrite P1. reflexivity.
    + unfold mm_simple, mm_factor. rewrite P1, N1, K1. reflexivity.
    + unfold shrink_simple, shrink_probs. rewrite P1, N1, K1. reflexivity.
    + unfold zhang_simple. rewrite N1. reflexivity.
    + unfold chao_shen_simple. rewrite P1, N1. reflexivity.
    + unfold cwj_simple. rewrite N1. reflexivity.
    + unfold bonachela_simple. rewrite N1. reflexivity.
  - intros K; unfold entropy_from_counts, entropy_of; rewrite F; cbn [make_data]; rewrite E; cbn [bind dh_entropy dh_init]; unfold e_global; cbn [e_calc est_ansb]; f_equal; f_equal.
    unfold ansb_simple. rewrite N1, K1. reflexivity.
  - intros a K; unfold entropy_from_counts, entropy_of; rewrite F; cbn [make_data]; rewrite E; cbn [bind dh_entropy dh_init]; unfold e_global; cbn [e_calc est_bayes]; f_equal; f_equal.
    unfold bayes_simple, bayes_probs, bayes_K. rewrite N1, K1. reflexivity.
Qed.

(** ** where it fails *)
(** Grassberger's estimator iterates over the samples, which an object built from counts does not have;
    and no approach gives local values for it *)
Theorem C42_grassberger_refuted : forall b u c d, from_counts_raw u c = Ok d ->
  entropy_from_counts est_grassberger b u c = Raise TypeError.
Proof.
  intros b u c d E. unfold entropy_from_counts. rewrite E. cbn [bind dh_entropy dh_init]. apply C42_from_counts_accepts in E.
  destruct E as (l & _ & _ & _ & _ & ->). reflexivity.
Qed.
Theorem C42_local_values_refuted : forall b xs d, valid_base b -> from_data xs = Ok d ->
  exists d', from_counts_raw (dd_uniq d) (CInts (dd_counts d)) = Ok d' /\
    dh_local est_discrete b [IDD d'] = Raise TypeError /\ exists ls, dh_local est_discrete b [IArr (EArr (A1 xs))] = Ok ls.
Proof.
  intros b xs d V E. destruct (list_eq_dec Z.eq_dec xs []) as [->|NE]; [discriminate|].
  rewrite from_data_dd in E by exact NE. injection E as <-.
  assert (T : tallies (dd_uniq (dd_of xs)) (dd_counts (dd_of xs)) xs).
  { split; [apply unique_NoDup|]. split; [intros v; exact (unique_In xs v)|].
    unfold dd_of, unique_counts. cbn [dd_counts dd_uniq]. rewrite map_map. apply map_ext. intros v. unfold count. reflexivity. }
  destruct (tallies_ok _ _ xs NE T) as [F S]. eexists. split; [exact F|].
  pose proof (discrete_simple_ok b xs V) as DS. split.
  - cbn [dh_local dh_init bind]. unfold e_local, est_discrete. cbn [e_calc e_extract].
    destruct (C42_from_counts_same_entropy b xs _ _ V NE T) as (H & _ & _). unfold entropy_from_counts in H. rewrite F in H.
    cbn [bind dh_entropy dh_init] in H. unfold e_global, est_discrete in H. cbn [e_calc] in H.
    destruct (discrete_simple b (mkDD (dd_uniq (dd_of xs)) (dd_counts (dd_of xs)) None)); [reflexivity|discriminate..].
  - unfold dh_local, dh_init, convert, make_data. rewrite from_data_dd by exact NE. cbn [bind]. unfold e_local, est_discrete. cbn [e_calc e_extract].
    rewrite DS. cbn [rmap bind]. pose proof (local_1d b xs V NE) as L. unfold local_discrete in L. cbn [make_data] in L. rewrite from_data_dd in L by exact NE. cbn [bind] in L.
    rewrite L. eauto.
Qed.
(** [from_probabilities] never works *)
Theorem C42_from_probabilities_refuted : forall e b u p, entropy_from_probabilities e b u p = Raise AttributeError.
Proof. reflexivity. Qed.
(** a zero count is accepted but the discrete entropy is then not a number *)
Theorem C42_zero_count_refuted : forall u c d, from_counts_raw u (CInts c) = Ok d -> In 0%Z c ->
  entropy_from_counts est_discrete BE u (CInts c) = NonFinite.
Proof.
  intros u c d E I. unfold entropy_from_counts. rewrite E. cbn [bind dh_entropy dh_init]. unfold e_global, est_discrete. cbn [e_calc].
  unfold discrete_simple, plogp.
  assert (M : forall l, In 0 l -> mapM (log_base BE) l = NonFinite).
  { clear. induction l as [|x r IH]; intros J; [destruct J|]. cbn [mapM log_base]. unfold np_log at 1. destruct (Rlt_dec 0 x) as [X|X]; cbn [bind]; [|reflexivity].
    destruct J as [->|J]; [lra|]. rewrite (IH J). reflexivity. }
  rewrite M; [reflexivity|]. apply C42_from_counts_accepts in E. destruct E as (l & [= <-] & _ & _ & _ & ->). unfold probabilities. cbn [dd_counts].
  apply in_map_iff. exists 0%Z. split; [unfold Rdiv; rewrite Rmult_0_l; reflexivity|exact I].
Qed.
(** repeated values are accepted and counted as different symbols: two halves of one symbol give ln 2 instead of 0 *)
Theorem C42_repeated_values_refuted :
  entropy_from_counts est_discrete BE [7; 7]%Z (CInts [1; 1]%Z) = Ok (ln 2) /\
  entropy_of est_discrete BE (EArr (A1 [7; 7]%Z)) = Ok 0.
Proof.
  split.
  - change (rmap value_global (rmap VNum (plogp BE (probabilities (mkDD [7; 7]%Z [1; 1]%Z None)))) = Ok (ln 2)).
    unfold probabilities, dd_N. cbn [map dd_counts dd_data sumZ fold_right Z.add Pos.add]. rewrite plogp_ok; [|exact Logic.I|repeat constructor; lra].
    cbn [rmap bind value_global]. f_equal. unfold EntVec, sumf. simpl. replace (1 / 2) with (/ 2) by lra. rewrite ln_Rinv by lra. lra.
  - pose proof (C42_from_counts_same_entropy BE [7; 7]%Z [7%Z] [2%Z]) as X. destruct X as (X1 & X2 & _); [exact Logic.I|discriminate| |].
    + repeat split; [repeat constructor; intros []|intros [<-|[]]; left; reflexivity|intros [<-|[<-|[]]]; left; reflexivity].
    + rewrite <- X2, X1. f_equal. rewrite (Ent_const _ 7%Z); [simpl; lra|]. intros x [<-|[<-|[]]]; reflexivity.
Qed.
(** a second DiscreteData argument is ignored: the "cross-entropy" is the entropy of the first *)
Theorem C42_second_object_ignored_refuted : forall e cross b d d', dh_entropy e cross b [IDD d; IDD d'] = dh_entropy e cross b [IDD d].
Proof. reflexivity. Qed.

Example C42_example : tallies [5; 3]%Z [1; 2]%Z [3; 5; 3]%Z /\ exists d, from_counts_raw [5; 3]%Z (CInts [1; 2]%Z) = Ok d.
Proof.
  split; [|eexists; reflexivity]. repeat split.
  - repeat constructor; simpl; intuition discriminate.
  - simpl. tauto.
  - simpl. tauto.
Qed.
