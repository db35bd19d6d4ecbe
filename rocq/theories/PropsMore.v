(** Property theorems completing C20, C22, C27 and C44: resampled conditional embeddings, the divergences of every pair of
    samples, and what the shrinkage mutual information actually is. *)
From Coq Require Import Reals Lra Lia List ZArith Arith Bool Permutation.
From Verif Require Import Res RSum Spec SpecDiv SpecBase SpecEst SpecInput SpecCross Info Info2 Gibbs Ord MBase MData MEntropy MMI MTE MGeneric MEst MDiv SpecTE PBase PEntropy PCoo PMI4 PMI5 PTE PTE2 PGeneric PEst PEst2 PEst4 PEst5 PEst6 PDiv PropsTE PropsEst PropsDiv PropsCross.
Import ListNotations.
Local Open Scope R_scope.
Local Notation length := List.length.

(** ** C20, C22 *)
Theorem C20_cte_embedding_2d (source dest cond : arr) l k m s n :
  (1 <= l)%nat -> (1 <= k)%nat -> (1 <= m)%nat -> (1 <= s)%nat -> arr_len source = n -> arr_len dest = n -> arr_len cond = n ->
  (Nat.max (Nat.max k l) m * s < n)%nat ->
  let ts := base_times n (Nat.max (Nat.max k l) m * s) s in
  cte_observations source dest cond (PropsTE.I l) (PropsTE.I k) (PropsTE.I m) (PropsTE.I s) RNone =
    Ok (map (@concat Z) (pasts [] (arr_rows source) s l ts), map (@concat Z) (pasts [] (arr_rows dest) s k ts),
        presents [] (arr_rows dest) ts, map (@concat Z) (pasts [] (arr_rows cond) s m ts)).
Proof.
  intros Hl Hk Hm Hs Lx Ly Lz Hd ts.
  apply (cte_obs_ok source dest l k s n Hl Hk Hs Lx Ly cond m RNone Hm Lz ltac:(discriminate) Hd Logic.I).
Qed.
Theorem C22_cte_resample source dest cond l k m s n js :
  arr_len source = n -> arr_len dest = n -> arr_len cond = n ->
  (1 <= l)%nat -> (1 <= k)%nat -> (1 <= m)%nat -> (1 <= s)%nat ->
  (Nat.max (Nat.max k l) m * s < n)%nat ->
  length js = nrows n (Nat.max (Nat.max k l) m * s) s -> Forall (fun j => (j < nrows n (Nat.max (Nat.max k l) m * s) s)%nat) js ->
  exists sh dh df ch sh',
    cte_observations source dest cond (PropsTE.I l) (PropsTE.I k) (PropsTE.I m) (PropsTE.I s) RNone = Ok (sh, dh, df, ch) /\
    cte_observations source dest cond (PropsTE.I l) (PropsTE.I k) (PropsTE.I m) (PropsTE.I s) (RResample js) = Ok (sh', dh, df, ch) /\
    length sh' = length sh /\ (forall i, (i < length js)%nat -> nth i sh' [] = nth (nth i js 0%nat) sh []) /\ (forall r, In r sh' -> In r sh).
Proof.
  intros Ls Ld Lc Hl Hk Hm Hs Hd Lj F.
  do 5 eexists. split; [apply (cte_obs_ok source dest l k s n Hl Hk Hs Ls Ld cond m RNone Hm Lc ltac:(discriminate) Hd Logic.I)|].
  split; [apply (cte_obs_ok source dest l k s n Hl Hk Hs Ls Ld cond m (RResample js) Hm Lc ltac:(discriminate) Hd F)|].
  split; [|split].
  - rewrite map_length, flat_pasts_length, base_times_length. exact Lj.
  - intros i Hi. match goal with |- nth i (map ?f js) [] = _ => rewrite (nth_indep (map f js) [] (f 0%nat)) by (rewrite map_length; exact Hi); rewrite (map_nth f) end. reflexivity.
  - intros r Hr. apply in_map_iff in Hr. destruct Hr as (j & <- & Hj).
    apply nth_In. rewrite flat_pasts_length, base_times_length. rewrite Forall_forall in F. auto.
Qed.

(** ** C27: the value for every pair of samples, whatever the supports: the cross-entropy over the common values minus the
    entropy of the first sample *)
Theorem C27_kld_every_pair b (ps qs : list Z) : valid_base b -> ps <> [] -> qs <> [] ->
  kld_disc b (A1 ps) (A1 qs) = Ok ((CrossEnt ps qs - Ent ps) / unit_of b).
Proof.
  intros V NP NQ. pose proof (C99_discrete_value b ps qs V NP NQ) as C. unfold cross_discrete in C.
  unfold kld_disc, kld_of. rewrite C. cbn [bind]. unfold simple_of. rewrite make_1d by exact NP. cbn [bind].
  rewrite discrete_simple_dd by assumption. cbn [bind]. f_equal. field. apply unit_neq0, V.
Qed.
(** it is never below minus the entropy of the first sample, and that is attained exactly without common values
    (or with common values that all have frequency 1 in the second sample) *)
Theorem C27_kld_lower_bound b (ps qs : list Z) : big_base b -> ps <> [] -> qs <> [] ->
  exists v, kld_disc b (A1 ps) (A1 qs) = Ok v /\ - (Ent ps / unit_of b) <= v.
Proof.
  intros B NP NQ. pose proof (big_valid b B) as V. destruct (C99_nonneg b ps qs B NP NQ) as (h & Hh & P).
  rewrite (C99_discrete_value b ps qs V NP NQ) in Hh. injection Hh as <-.
  eexists. split; [apply C27_kld_every_pair; assumption|]. unfold Rdiv in *. lra.
Qed.
Theorem C27_kld_mm_every_pair b (ps qs : list Z) : valid_base b -> ps <> [] -> qs <> [] ->
  let Kp := INR (nvals ps) in let Kq := INR (nvals qs) in let Np := INR (length ps) in let Nq := INR (length qs) in
  kld_mm b (A1 ps) (A1 qs) =
    Ok ((match shared ps qs with [] => 0 | _ => CrossEnt ps qs + ((Kp + Kq) / 2 - 1) / (Np + Nq) end - Ent ps - (Kp - 1) / (2 * Np)) / unit_of b).
Proof.
  intros V NP NQ Kp Kq Np Nq. pose proof (C99_mm_value b ps qs V NP NQ) as C. cbv zeta in C. unfold cross_mm in C.
  unfold kld_mm, kld_of. rewrite C. cbn [bind]. unfold simple_of. rewrite make_1d by exact NP. cbn [bind].
  rewrite mm_simple_ok by assumption. cbn [bind]. f_equal. change (INR (length (distinct ps))) with Kp. fold Kp Kq Np Nq.
  pose proof (unit_neq0 b V) as UN. assert (HP : 0 < Np) by (apply inr_len_pos; exact NP). assert (HQ : 0 < Nq) by (apply inr_len_pos; exact NQ).
  destruct (shared ps qs); field; repeat split; lra.
Qed.
Theorem C27_kld_bayes_every_pair b a (ps qs : list Z) : valid_base b -> 0 < a -> ps <> [] -> qs <> [] ->
  kld_bayes (AlphaNum a) None b (A1 ps) (A1 qs) =
    Ok ((shared_sum (posterior a (INR (nvals ps)) ps) (posterior a (INR (nvals qs)) qs) ps qs - BayesH a (INR (nvals ps)) ps) / unit_of b).
Proof.
  intros V Ha NP NQ. pose proof (C99_bayes_value b a ps qs V Ha NP NQ) as C. unfold cross_bayes in C.
  unfold kld_bayes, kld_of. rewrite C. cbn [bind]. unfold simple_of. rewrite make_1d by exact NP. cbn [bind].
  destruct (bayes_lawful_on b a ps V Ha NP) as [G _].
  assert (E : bayes_simple (AlphaNum a) None b (dd_of ps) = Ok (BayesH a (INR (nvals ps)) ps / unit_of b)).
  { revert G. unfold e_global, est_bayes. cbn [e_calc]. destruct (bayes_simple _ _ _ _); cbn; congruence. }
  rewrite E. cbn [bind]. f_equal. field. apply unit_neq0, V.
Qed.

(** ** C44: the shrinkage mutual information of any number of variables combines, not the shrinkage entropies, but the averages over
    the sample of minus the logarithm of the shrunk probabilities *)
Definition mean_surprise (rows : list (list Z)) : R := - sumf (fun v => prob rows v * ln (shrunk rows v)) (distinct rows).
Lemma shrink_combination b plus minus n : valid_base b -> plus <> [] -> (0 < n)%nat ->
  (forall i, In i (plus ++ minus) -> SpecInput.usable i /\ input_size i = n) ->
  exists v, from_entropies est_shrink b plus minus = Ok v /\
    value_global v = (sumf (fun i => mean_surprise (SpecInput.sample i)) plus - sumf (fun i => mean_surprise (SpecInput.sample i)) minus) / unit_of b.
Proof.
  intros V NE Hn HU.
  assert (M : forall i, In i (plus ++ minus) -> exists xs, make_data i = Ok (dd_of xs) /\ length xs = n /\
     lawful_on est_shrink_loc b xs (mean_surprise (SpecInput.sample i) / unit_of b)).
  { intros i Hi. destruct (HU i Hi) as [Us Sz]. destruct (usable_data i Us) as (xs & E & N & SP & L). exists xs. split; [exact E|]. split; [congruence|].
    change (mean_surprise (SpecInput.sample i)) with (shrink_local_mean (SpecInput.sample i)). rewrite (equi_shrink_lm _ _ (equi_partition _ _ SP)). apply shrink_loc_lawful; assumption. }
  destruct (from_entropies_ok est_shrink_loc b plus minus n (fun i => mean_surprise (SpecInput.sample i) / unit_of b) NE Hn M) as (v & Ev & Vv & _).
  rewrite <- (shrink_from_entropies b _ _ n) in Ev; [|exact V|exact Hn|intros i Hi; destruct (M i Hi) as (w & ? & ? & _); exists w; tauto].
  exists v. split; [exact Ev|]. rewrite Vv, !sumf_div. field. apply unit_neq0, V.
Qed.
Theorem C44_shrink_mi_value b (vars : list arr) n : valid_base b -> (2 <= length vars)%nat -> (0 < n)%nat -> Forall (fun a => arr_len a = n) vars ->
  exists v, MGeneric.gen_mi est_shrink b (Some 0%Z) vars = Ok v /\
    value_global v = (sumf (fun a => mean_surprise (SpecInput.sample (EArr a))) vars - mean_surprise (SpecInput.sample (ETuple vars))) / unit_of b.
Proof.
  intros V L Hn F. unfold MGeneric.gen_mi. rewrite (mi_init_0 vars n L F). cbn [bind].
  destruct (shrink_combination b (map EArr vars) [ETuple vars] n V) as (v & Ev & Vv).
  - destruct vars; [cbn in L; lia|discriminate].
  - exact Hn.
  - intros i Hi. apply in_app_iff in Hi. destruct Hi as [Hi|[<-|[]]].
    + apply in_map_iff in Hi. destruct Hi as (x & <- & Hx). rewrite Forall_forall in F. specialize (F x Hx). split; [split; [cbn; lia|exact Logic.I]|exact F].
    + destruct vars as [|x r]; [cbn in L; lia|]. inversion F; subst. split; [|reflexivity]. split; [cbn; assumption|]. exact F.
  - exists v. split; [exact Ev|]. rewrite Vv, sumf_map. cbn [sumf fold_right]. rewrite Rplus_0_r. reflexivity.
Qed.

(** cases: samples that overlap only partly; two columns of three symbols *)
Example C27_every_pair_example : kld_disc BE (A1 [0; 1]%Z) (A1 [0; 0]%Z) = Ok (CrossEnt [0; 1]%Z [0; 0]%Z - Ent [0; 1]%Z) /\ ~ incl [0; 1]%Z [0; 0]%Z.
Proof.
  split.
  - rewrite C27_kld_every_pair by (exact Logic.I || discriminate). cbn [unit_of]. f_equal. field.
  - intros I. destruct (I 1%Z) as [C|[C|[]]]; [right; left; reflexivity|discriminate..].
Qed.
Example C44_value_example : Forall (fun a => arr_len a = 3%nat) [A1 [0; 1; 1]; A1 [0; 0; 1]; A2 [[0; 1]; [2; 2]; [0; 1]]]%Z.
Proof. repeat constructor. Qed.
