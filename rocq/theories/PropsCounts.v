(** Property theorems completing C55: the Bayesian estimate for every prior and number of states, ANSB with a given
    number of states and NSB depend only on the multiset of counts - for every base, usable or not. *)
From Coq Require Import Reals Lra Lia List ZArith Arith Bool Permutation String FunctionalExtensionality.
From Verif Require Import Res RSum Spec SpecBase SpecEst SpecInput Info Info2 Ord MBase MData MEntropy MMI MGeneric MEst MNsb PBase PEntropy PEst PEst2 PEst4 PEst5 PEst6 PGeneric PropsEst.
Import ListNotations.
Local Open Scope R_scope.
Local Notation length := List.length.

Lemma count_occ_map_freq {A} `{EqDec A} (xs : list A) r (V : list A) :
  count_occ Nat.eq_dec (map (count xs) V) r = length (filter (fun v => Nat.eqb (count xs v) r) V).
Proof.
  induction V as [|v V IH]; [reflexivity|]. cbn [map count_occ filter]. destruct (Nat.eq_dec (count xs v) r) as [E|E].
  - rewrite E, Nat.eqb_refl. cbn [length]. rewrite IH. reflexivity.
  - rewrite (proj2 (Nat.eqb_neq _ _) E). exact IH.
Qed.

Lemma equi_counts {A B} `{EqDec A} `{EqDec B} (xs : list A) (ys : list B) : equi xs ys ->
  Permutation (map (count xs) (distinct xs)) (map (count ys) (distinct ys)).
Proof.
  intros E. apply (Permutation_count_occ Nat.eq_dec). intros r. rewrite !count_occ_map_freq. exact (equi_freq xs ys E r).
Qed.

Lemma dd_counts_perm xs ys : equi xs ys -> Permutation (dd_counts (dd_of xs)) (dd_counts (dd_of ys)).
Proof.
  intros E. cbn [dd_of dd_counts]. unfold unique_counts. apply Permutation_map.
  rewrite (Permutation_map (count xs) (unique_perm_distinct xs)), (Permutation_map (count ys) (unique_perm_distinct ys)).
  apply equi_counts, E.
Qed.

(** an elementwise operation that can fail in one way only *)
Lemma mapM_fail {A B} (f : A -> res B) (g : A -> B) (e : forall X, res X) l : (forall a, f a = Ok (g a) \/ f a = e B) ->
  (forall X (x : X), e X <> Ok x) -> (forall X Y (k : X -> res Y), bind (e X) k = e Y) ->
  mapM f l = if List.existsb (fun a => match f a with Ok _ => false | _ => true end) l then e (list B) else Ok (map g l).
Proof.
  intros Hf He Hb. induction l as [|a l IH]; [reflexivity|]. cbn [mapM map existsb].
  destruct (Hf a) as [E|E]; rewrite E.
  - cbn [bind orb]. rewrite IH. destruct (existsb _ l); [apply Hb|reflexivity].
  - rewrite Hb. destruct (e B) eqn:EB; [exfalso; exact (He _ _ EB)|reflexivity|reflexivity].
Qed.

Lemma existsb_perm {A} (f : A -> bool) l l' : Permutation l l' -> existsb f l = existsb f l'.
Proof. induction 1; cbn [existsb]; try congruence. destruct (f x), (f y); reflexivity. Qed.

Lemma sumR_perm' l l' : Permutation l l' -> sumR l = sumR l'.
Proof. intros P. unfold sumR. induction P; simpl in *; lra. Qed.

Lemma combine_self {A B} (f : A -> B) l : combine l (map f l) = map (fun x => (x, f x)) l.
Proof. induction l; simpl; [reflexivity|]. rewrite IHl. reflexivity. Qed.

(** the logarithm fails either by a ValueError for every argument, or by nan/inf only *)
Lemma log_base_failure b : (forall x, log_base b x = Raise ValueError) \/ forall x, (exists y, log_base b x = Ok y) \/ log_base b x = NonFinite.
Proof.
  assert (NL : forall x, (exists y, np_log x = Ok y) \/ np_log x = NonFinite).
  { intros x. unfold np_log. destruct (Rlt_dec 0 x); [left; eexists; reflexivity|right; reflexivity]. }
  destruct b as [|r]; [right; exact NL|]. cbn [log_base].
  destruct (Req_EM_T r 2); [right|destruct (Req_EM_T r 10); [right|destruct (Req_EM_T r 0); [right|destruct (Rlt_dec r 0); [left|right]]]].
  - intros x. destruct (NL x) as [(y & ->)| ->]; cbn; [left; eexists; reflexivity|right; reflexivity].
  - intros x. destruct (NL x) as [(y & ->)| ->]; cbn; [left; eexists; reflexivity|right; reflexivity].
  - intros x. left. eexists. reflexivity.
  - reflexivity.
  - intros x. destruct (NL x) as [(y & ->)| ->]; cbn [bind]; [|right; reflexivity].
    destruct (NL r) as [(z & ->)| ->]; cbn [bind]; [|right; reflexivity].
    unfold np_div. destruct (Req_EM_T z 0); [right; reflexivity|left; eexists; reflexivity].
Qed.

Lemma plogp_perm b p p' : Permutation p p' -> plogp b p = plogp b p'.
Proof.
  intros P. unfold plogp.
  set (g := fun x => match log_base b x with Ok y => y | _ => 0 end).
  assert (D : forall q, Permutation p q -> - dot q (map g q) = - dot p (map g p)).
  { intros q Q. f_equal. unfold dot. rewrite !combine_self. apply sumR_perm', Permutation_map, Permutation_map, Permutation_sym, Q. }
  destruct (log_base_failure b) as [F|F].
  - rewrite !(mapM_fail (log_base b) g (fun X => Raise ValueError)); try (intros; first [discriminate|reflexivity]); try (intros a; right; apply F).
    rewrite (existsb_perm _ _ _ P). destruct (existsb _ p'); [reflexivity|]. cbn [bind]. rewrite (D p' P). reflexivity.
  - assert (F' : forall a, log_base b a = Ok (g a) \/ log_base b a = NonFinite).
    { intros a. unfold g. destruct (F a) as [(y & ->)| ->]; auto. }
    rewrite !(mapM_fail (log_base b) g (fun X => NonFinite)); try (intros; first [discriminate|reflexivity]); try exact F'.
    rewrite (existsb_perm _ _ _ P). destruct (existsb _ p'); [reflexivity|]. cbn [bind]. rewrite (D p' P). reflexivity.
Qed.

(** the estimate is a function of the multiset of counts, the number of samples and the number of observed values *)
Definition counted (e : est) : Prop := forall b d d', Permutation (dd_counts d) (dd_counts d') -> dd_N d = dd_N d' -> dd_K d = dd_K d' ->
  e_global e b d = e_global e b d'.

Lemma bayes_counted a K : counted (est_bayes a K).
Proof.
  intros b d d' P EN EK. unfold e_global. cbn [est_bayes e_calc]. unfold bayes_simple, bayes_probs, bayes_K. rewrite EN, EK.
  set (k := match K with Some k => k | None => Z.of_nat (dd_K d') end).
  destruct (get_alpha a k (dd_N d')) as [al|e|]; [|reflexivity|reflexivity]. cbn [bind].
  set (D := IZR (dd_N d') + IZR k * al).
  assert (F : forall c, np_div (IZR c + al) D = Ok ((IZR c + al) / D) \/ np_div (IZR c + al) D = NonFinite).
  { intros c. unfold np_div. destruct (Req_EM_T D 0); auto. }
  rewrite !(mapM_fail _ (fun c => (IZR c + al) / D) (fun X => NonFinite)); try (intros; first [discriminate|reflexivity]); try exact F.
  rewrite (existsb_perm _ _ _ P). destruct (existsb _ (dd_counts d')); [reflexivity|]. cbn [bind].
  rewrite (plogp_perm b _ _ (Permutation_map (fun c => (IZR c + al) / D) P)). reflexivity.
Qed.

Lemma ansb_counted K : counted (est_ansb K).
Proof. intros b d d' P EN EK. unfold e_global. cbn [est_ansb e_calc]. unfold ansb_simple. rewrite EN, EK. reflexivity. Qed.

Lemma sumZ_perm l l' : Permutation l l' -> sumZ l = sumZ l'.
Proof. induction 1; simpl in *; lia. Qed.

Lemma nsb_counted E K : counted (est_nsb E K).
Proof.
  intros b d d' P EN EK. unfold e_global. cbn [est_nsb e_calc]. unfold nsb_simple. rewrite EN, EK.
  set (k := match K with Some k => k | None => Z.of_nat (dd_K d') end). set (N := dd_N d').
  assert (R1 : forall beta, neg_log_rho E beta k N (dd_counts d) = neg_log_rho E beta k N (dd_counts d')).
  { intros beta. unfold neg_log_rho. f_equal. apply sumR_perm', Permutation_map, P. }
  assert (R2 : forall beta, nsb_bayes E beta (dd_counts d) = nsb_bayes E beta (dd_counts d')).
  { intros beta. unfold nsb_bayes. rewrite (sumZ_perm _ _ P), (Permutation_length P). f_equal. apply sumR_perm', Permutation_map, P. }
  assert (R0 : find_l0 E k N (dd_counts d) = find_l0 E k N (dd_counts d')) by (unfold find_l0; apply R1).
  destruct (np_log (IZR k)) as [lk|e|]; [|reflexivity|reflexivity]. cbn [bind]. destruct (N - k =? 0)%Z; [reflexivity|].
  rewrite R0.
  replace (fun beta => exp (- neg_log_rho E beta k N (dd_counts d) + find_l0 E k N (dd_counts d')) * dxi E beta k * nsb_bayes E beta (dd_counts d))
    with (fun beta => exp (- neg_log_rho E beta k N (dd_counts d') + find_l0 E k N (dd_counts d')) * dxi E beta k * nsb_bayes E beta (dd_counts d'))
    by (apply functional_extensionality; intros beta; rewrite R1, R2; reflexivity).
  replace (fun beta => exp (- neg_log_rho E beta k N (dd_counts d) + find_l0 E k N (dd_counts d')) * dxi E beta k)
    with (fun beta => exp (- neg_log_rho E beta k N (dd_counts d') + find_l0 E k N (dd_counts d')) * dxi E beta k)
    by (apply functional_extensionality; intros beta; rewrite R1; reflexivity).
  reflexivity.
Qed.

Lemma counted_renamed e b i j : counted e -> usable i -> usable j -> renamed i j -> entropy_of e b i = entropy_of e b j.
Proof.
  intros C U W Rn. destruct (usable_data i U) as (xs & EX & NX & SX & LX). destruct (usable_data j W) as (ys & EY & NY & SY & LY).
  assert (Q : equi xs ys).
  { apply (equi_trans xs (sample i) ys); [apply equi_sym, equi_partition, SX|].
    apply (equi_trans (sample i) (sample j) ys); [apply renamed_equi, Rn|apply equi_partition, SY]. }
  unfold entropy_of. rewrite EX, EY. cbn [bind]. apply C.
  - apply dd_counts_perm, Q.
  - unfold dd_N, dd_of. cbn [dd_data]. rewrite (equi_len xs ys Q). reflexivity.
  - rewrite !dd_K_of, (equi_nvals xs ys Q). reflexivity.
Qed.

(** every prior (a number, a name, anything else), every number of states, every base - errors and undefined results too *)
Theorem C55_counts_only_priors b i j E a K : SpecInput.usable i -> SpecInput.usable j -> renamed i j ->
  Forall (fun e => entropy_of e b i = entropy_of e b j) [est_bayes a K; est_ansb K; est_nsb E K].
Proof.
  intros U W Rn. repeat constructor; apply counted_renamed; auto using bayes_counted, ansb_counted, nsb_counted.
Qed.
Print Assumptions C55_counts_only_priors.

(** the hypotheses on a concrete pair, and the value there with a given number of states *)
Example C55_priors_example : renamed (EArr (A1 [4; 4; 7]%Z)) (EArr (A1 [1; -2; -2]%Z)) /\
  entropy_of (est_bayes (AlphaNum 1) (Some 2%Z)) BE (EArr (A1 [4; 4; 7]%Z)) = Ok (- (3 / 5 * ln (3 / 5) + 2 / 5 * ln (2 / 5))).
Proof.
  split; [exact C55_example|].
  assert (E : make_data (EArr (A1 [4; 4; 7]%Z)) = Ok (mkDD [4; 7]%Z [2; 1]%Z (Some [4; 4; 7]%Z))) by reflexivity.
  unfold entropy_of, e_global. rewrite E. cbn [bind est_bayes e_calc]. unfold bayes_simple, bayes_probs, bayes_K, plogp. cbn [dd_counts get_alpha bind].
  unfold dd_N. cbn [dd_data length mapM]. change (Z.of_nat 3) with 3%Z. unfold np_div.
  assert (D : 3 + 2 * 1 <> 0) by lra. destruct (Req_EM_T (3 + 2 * 1) 0) as [X|_]; [contradiction|]. cbn [bind mapM log_base]. unfold np_log.
  destruct (Rlt_dec 0 ((2 + 1) / (3 + 2 * 1))) as [_|X]; [|exfalso; apply X; apply Rdiv_lt_0_compat; lra]. cbn [bind].
  destruct (Rlt_dec 0 ((1 + 1) / (3 + 2 * 1))) as [_|X]; [|exfalso; apply X; apply Rdiv_lt_0_compat; lra]. cbn [bind rmap].
  f_equal. unfold dot. cbn [combine map sumR fst snd].
  replace ((2 + 1) / (3 + 2 * 1)) with (3 / 5) by field. replace ((1 + 1) / (3 + 2 * 1)) with (2 / 5) by field. unfold sumR. cbn [sumf value_global]. ring.
Qed.
