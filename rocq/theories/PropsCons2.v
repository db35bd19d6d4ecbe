(** Property theorems: cross-entropy, divergences and conditional measures converge as records grow and their
    frequencies settle (C117). *)
From Coq Require Import Reals Lra Lia List ZArith Arith Bool Permutation.
From Coquelicot Require Import Rbar Lim_seq.
From Verif Require Import Res RSum Spec SpecDiv SpecCross SpecGamma SpecEst SpecInput SpecRepl SpecTE SpecCons SpecCons2 Info Info2 MBase MData MEntropy MMI MTE MDiv MGeneric MEst SpecBase PBase PEntropy PDiv PDiv2 PCoo PMI PMI2 PMI3 PMI4 PMI5 PLog PEst PRepl PCons PropsInv PropsDiv PropsCross PTE PTE2 PropsTE PropsCons.
Import ListNotations.
Local Open Scope R_scope.

Lemma prob_notin {A} `{EqDec A} (xs : list A) v : ~ In v xs -> prob xs v = 0.
Proof. intros N. unfold prob. rewrite (proj1 (count_occ_not_In eq_dec xs v) N : count xs v = 0%nat). simpl. unfold Rdiv. ring. Qed.
Lemma F2_length {A B} (P : A -> B -> Prop) l r : Forall2 P l r -> length l = length r.
Proof. induction 1; cbn; congruence. Qed.

Section TwoStreams.
Context {A : Type} `{EqDec A}.
Variables (U : list A) (p q : A -> R) (x y : nat -> list A).
Hypothesis SX : settles U p x.
Hypothesis SY : settles U q y.
Hypothesis Q : forall u, In u U -> 0 < q u.

Lemma cross_on_U m : CrossEnt (x m) (y m) = - sumf (fun u => prob (x m) u * ln (prob (y m) u)) U.
Proof using SX.
  unfold CrossEnt, shared_sum. f_equal. symmetry. destruct SX as (ND & IN & _).
  apply sumf_support; [apply NoDup_filter, NoDup_nodup|exact ND| |].
  - intros v Hv. unfold shared in Hv. apply filter_In in Hv. apply (IN m). apply (proj1 (distinct_In _ _)), Hv.
  - intros v Hv N. destruct (in_dec eq_dec v (x m)) as [I1|N1]; [|rewrite prob_notin by exact N1; ring].
    destruct (in_dec eq_dec v (y m)) as [I2|N2]; [|rewrite (prob_notin (y m)) by exact N2; rewrite ln_neg by lra; ring].
    exfalso. apply N. unfold shared. apply filter_In. split; [apply distinct_In, I1|]. destruct (in_dec eq_dec v (y m)); [reflexivity|contradiction].
Qed.

Lemma cross_lim : is_lim_seq (fun m => CrossEnt (x m) (y m)) (limit_cross U p q).
Proof using SX SY Q.
  apply (is_lim_seq_ext (fun m => - sumf (fun u => prob (x m) u * ln (prob (y m) u)) U)); [intros m; symmetry; apply cross_on_U|].
  unfold limit_cross. apply lim_opp. apply (lim_sumf (fun m u => prob (x m) u * ln (prob (y m) u))). intros u Hu.
  apply is_lim_seq_mult'; [apply (st_freq U p x SX u Hu)|]. apply lim_ln; [apply Q, Hu|apply (st_freq U q y SY u Hu)].
Qed.

Lemma kl_split : limit_cross U p q - limit_entropy U p = limit_kl U p q.
Proof using SX SY Q.
  unfold limit_cross, limit_entropy, limit_kl. rewrite <- !sumf_opp. unfold Rminus. rewrite <- sumf_opp, <- sumf_plus.
  apply sumf_ext. intros u Hu. unfold plnp. destruct (Req_EM_T (p u) 0) as [->|N]; [ring|].
  pose proof (p_nonneg U p x SX u Hu). pose proof (Q u Hu). unfold Rdiv. rewrite (ln_mult (p u) (/ q u)) by (try apply Rinv_0_lt_compat; lra).
  rewrite ln_Rinv by lra. ring.
Qed.
End TwoStreams.

Theorem C117_cross_entropy b U p q (x y : nat -> list Z) : valid_base b -> settles U p x -> settles U q y ->
  (forall u, In u U -> 0 < q u) -> (forall m, x m <> [] /\ y m <> []) ->
  exists h, (forall m, cross_discrete b (A1 (x m)) (A1 (y m)) = Ok (h m)) /\ Un_cv h (limit_cross U p q / unit_of b).
Proof.
  intros V SX SY Q NE. exists (fun m => CrossEnt (x m) (y m) / unit_of b). split.
  - intros m. destruct (NE m). apply C99_discrete_value; assumption.
  - apply is_lim_seq_Reals. unfold Rdiv. apply is_lim_seq_mult'; [|apply is_lim_seq_const]. apply cross_lim; assumption.
Qed.
Print Assumptions C117_cross_entropy.

Theorem C117_kld b U p q (x y : nat -> list Z) : valid_base b -> settles U p x -> settles U q y ->
  (forall u, In u U -> 0 < q u) -> (forall m, x m <> [] /\ y m <> []) ->
  exists h, (forall m, kld_disc b (A1 (x m)) (A1 (y m)) = Ok (h m)) /\ Un_cv h (limit_kl U p q / unit_of b).
Proof.
  intros V SX SY Q NE. exists (fun m => CrossEnt (x m) (y m) / unit_of b - Ent (x m) / unit_of b). split.
  - intros m. destruct (NE m) as [NX NY]. unfold kld_disc, kld_of. 
    pose proof (C99_discrete_value b (x m) (y m) V NX NY) as E. unfold cross_discrete in E. rewrite E. cbn [bind].
    unfold simple_of. rewrite make_1d by exact NX. cbn [bind]. rewrite discrete_simple_ok by assumption. cbn [bind].
    rewrite Ent_PEnt_unique. reflexivity.
  - rewrite <- (kl_split U p q x y SX SY Q). apply is_lim_seq_Reals.
    apply (lim_eq _ (limit_cross U p q / unit_of b - limit_entropy U p / unit_of b)); [unfold Rdiv; ring|].
    apply is_lim_seq_minus'; (unfold Rdiv; apply is_lim_seq_mult'; [|apply is_lim_seq_const]).
    + apply cross_lim; assumption.
    + apply (ent_lim _ _ _ SX).
Qed.
Print Assumptions C117_kld.

(** ** Jensen-Shannon divergence of several streams *)
Lemma mix_on_U {A} `{EqDec A} (U : list A) (ds : list (list A)) : NoDup U -> (forall d v, In d ds -> In v d -> In v U) ->
  sumf (fun v => mixprob ds v * ln (mixprob ds v)) (distinct (concat ds)) = sumf (fun v => mixprob ds v * ln (mixprob ds v)) U.
Proof.
  intros ND IN. symmetry. apply sumf_support; [apply NoDup_nodup|exact ND| |].
  - intros v Hv. apply (proj1 (distinct_In _ _)) in Hv. apply in_concat in Hv. destruct Hv as (d & Hd & Hv). exact (IN d v Hd Hv).
  - intros v _ N. assert (E : mixprob ds v = 0); [|rewrite E; ring]. unfold mixprob. rewrite (sumf_ext _ (fun _ => 0)); [rewrite sumf_zero; unfold Rdiv; ring|].
    intros d Hd. apply prob_notin. intros C. apply N. apply distinct_In, in_concat. exists d. split; assumption.
Qed.

Lemma lim_over_streams {A B} (F : list A -> R) (G : B -> R) (ps : list B) (xs : list (nat -> list A)) :
  Forall2 (fun p x => is_lim_seq (fun m => F (x m)) (G p)) ps xs -> is_lim_seq (fun m => sumf F (map (fun x => x m) xs)) (sumf G ps).
Proof.
  induction 1 as [|p x ps xs Hp F2 IH]; cbn [map sumf]; [apply is_lim_seq_const|]. apply is_lim_seq_plus'; assumption.
Qed.

Theorem C117_jsd b U (ps : list (Z -> R)) (xs : list (nat -> list Z)) : valid_base b -> xs <> [] ->
  Forall2 (fun p x => settles U p x /\ forall m, x m <> []) ps xs ->
  exists h, (forall m, jsd_discrete b (map (fun x => A1 (x m)) xs) = Ok (h m)) /\ Un_cv h (limit_js U ps / unit_of b).
Proof.
  intros V NE F2. exists (fun m => JSD (map (fun x => x m) xs) / unit_of b).
  assert (LN : length xs = length ps) by (symmetry; exact (F2_length _ _ _ F2)).
  assert (P : 0 < INR (length xs)) by (apply INR_pos; destruct xs; [congruence|simpl; lia]).
  assert (ALL : forall x, In x xs -> exists p, settles U p x /\ forall m, x m <> []).
  { clear - F2. induction F2 as [|p x ps xs Hx F2 IH]; [intros ? []|]. intros z [->|Hz]; [exists p; exact Hx|apply IH, Hz]. }
  split.
  - intros m. rewrite <- (map_map (fun x => x m) A1). apply C28_jsd_discrete; [exact V| |].
    + intros C. apply map_eq_nil in C. congruence.
    + apply List.Forall_forall. intros c Hc. apply in_map_iff in Hc. destruct Hc as (z & <- & Hz). destruct (ALL z Hz) as (p & _ & N). apply N.
  - apply is_lim_seq_Reals. unfold Rdiv at 1. apply (is_lim_seq_ext (fun m => JSD (map (fun x => x m) xs) * / unit_of b)); [reflexivity|].
    apply is_lim_seq_mult'; [|apply is_lim_seq_const].
    destruct xs as [|x0 xr] eqn:EX; [congruence|]. destruct (ALL x0 (or_introl eq_refl)) as (p0 & S0 & _). rewrite <- EX in *. clear EX.
    apply (is_lim_seq_ext (fun m => - sumf (fun u => mixprob (map (fun x => x m) xs) u * ln (mixprob (map (fun x => x m) xs) u)) U
             - sumf Ent (map (fun x => x m) xs) / INR (length xs))).
    { intros m. unfold JSD. rewrite (mix_on_U U); [rewrite map_length; reflexivity|apply S0|].
      intros d v Hd Hv. apply in_map_iff in Hd. destruct Hd as (z & <- & Hz). destruct (ALL z Hz) as (p & (_ & IN & _) & _). apply (IN m), Hv. }
    unfold limit_js. apply is_lim_seq_minus'.
    + unfold limit_entropy. apply lim_opp.
      apply (lim_sumf (fun m u => mixprob (map (fun x => x m) xs) u * ln (mixprob (map (fun x => x m) xs) u))). intros u Hu. rewrite plnp_ln.
      apply lim_xl.
      * apply Rmult_le_pos; [|left; apply Rinv_0_lt_compat; rewrite <- LN; exact P]. clear - F2 Hu.
        induction F2 as [|p x ps xs Hx F2 IH]; cbn [sumf]; [lra|]. pose proof (p_nonneg U p x (proj1 Hx) u Hu). lra.
      * apply (is_lim_seq_ext (fun m => sumf (fun d => prob d u) (map (fun x => x m) xs) * / INR (length ps))).
        { intros m. unfold mixprob. rewrite map_length, LN. reflexivity. }
        unfold Rdiv. apply is_lim_seq_mult'; [|apply is_lim_seq_const]. apply lim_over_streams.
        clear - F2 Hu. induction F2 as [|p x ps xs Hx F2 IH]; constructor; [apply (st_freq U p x (proj1 Hx) u Hu)|exact IH].
    + rewrite LN. unfold Rdiv. apply is_lim_seq_mult'; [|apply is_lim_seq_const]. apply lim_over_streams.
      clear - F2. induction F2 as [|p x ps xs Hx F2 IH]; constructor; [apply (ent_lim _ _ _ (proj1 Hx))|exact IH].
Qed.
Print Assumptions C117_jsd.

(** ** conditional mutual information and conditional transfer entropy *)
Lemma cmi_lim {A B C} `{EqDec A} `{EqDec B} `{EqDec C} (U : list (A * B * C)) p (x : nat -> list (A * B * C)) : settles U p x ->
  is_lim_seq (fun m => CMI (map (fun t => fst (fst t)) (x m)) (map (fun t => snd (fst t)) (x m)) (map snd (x m))) (limit_cmi U p).
Proof.
  intros SET. unfold CMI, limit_cmi. cbv zeta.
  pose proof (ent_lim _ _ _ SET) as T0.
  pose proof (ent_lim _ _ _ (settles_map (fun t : A * B * C => (fst (fst t), snd t)) _ _ _ SET)) as T1.
  pose proof (ent_lim _ _ _ (settles_map (fun t : A * B * C => (snd (fst t), snd t)) _ _ _ SET)) as T2.
  pose proof (ent_lim _ _ _ (settles_map snd _ _ _ SET)) as T3.
  apply is_lim_seq_minus'; [apply is_lim_seq_minus'; [apply is_lim_seq_plus'|]|].
  - eapply is_lim_seq_ext; [|exact T1]. intros m. cbv beta. rewrite !combine_map. reflexivity.
  - eapply is_lim_seq_ext; [|exact T2]. intros m. cbv beta. rewrite !combine_map. reflexivity.
  - eapply is_lim_seq_ext; [|exact T0]. intros m. cbv beta. rewrite !combine_map. f_equal.
    rewrite (map_ext _ (fun t => t)), map_id; [reflexivity|]. intros [[a c] d]. reflexivity.
  - exact T3.
Qed.

Theorem C117_cmi_discrete b U p (x : nat -> list (Z * Z * Z)) : valid_base b -> settles U p x -> (forall m, x m <> []) ->
  exists v, (forall m, small2 (length (x m)) ->
      cmi_discrete b [A1 (map (fun t => fst (fst t)) (x m)); A1 (map (fun t => snd (fst t)) (x m))] (RArr (A1 (map snd (x m)))) = Ok (v m)) /\
    Un_cv v (limit_cmi U p / unit_of b).
Proof.
  intros V SET NE. exists (fun m => CMI (map (fun t => fst (fst t)) (x m)) (map (fun t => snd (fst t)) (x m)) (map snd (x m)) / unit_of b). split.
  - intros m SM. apply (fun a c d e f => proj1 (PMI5.cmi2_api b _ _ _ a c d e f)); rewrite ?map_length; try reflexivity; try assumption. intros C. apply map_eq_nil in C. exact (NE m C).
  - apply is_lim_seq_Reals. unfold Rdiv. apply is_lim_seq_mult'; [|apply is_lim_seq_const]. apply cmi_lim. exact SET.
Qed.
Print Assumptions C117_cmi_discrete.

(** the windows (present, source past, (destination past, condition past)) settle *)
Theorem C117_cte_discrete b U p (xs ys zs : nat -> list Z) l k c s : valid_base b -> (1 <= l)%nat -> (1 <= k)%nat -> (1 <= c)%nat -> (1 <= s)%nat ->
  (forall m, length (xs m) = length (ys m)) -> (forall m, length (zs m) = length (ys m)) ->
  (forall m, (Nat.max (Nat.max k l) c * s < length (ys m))%nat) ->
  settles U p (fun m => let ts := base_times (length (ys m)) (Nat.max (Nat.max k l) c * s) s in
    combine (combine (presents 0%Z (ys m) ts) (pasts 0%Z (xs m) s l ts))
            (combine (pasts 0%Z (ys m) s k ts) (pasts 0%Z (zs m) s c ts))) ->
  exists v, (forall m, small2 (length (ys m)) -> cte_discrete b (A1 (xs m)) (A1 (ys m)) (RArr (A1 (zs m))) (cte_kw l k c s) = Ok (v m)) /\
    Un_cv v (limit_cmi U p / unit_of b).
Proof.
  intros V Hl Hk Hc Hs LX LZ Hd SET.
  exists (fun m => let ts := base_times (length (ys m)) (Nat.max (Nat.max k l) c * s) s in
     CMI (presents 0%Z (ys m) ts) (pasts 0%Z (xs m) s l ts) (combine (pasts 0%Z (ys m) s k ts) (pasts 0%Z (zs m) s c ts)) / unit_of b). split.
  - intros m SM. apply C24_cte_is_conditional_mi; auto.
  - apply is_lim_seq_Reals. unfold Rdiv. apply is_lim_seq_mult'; [|apply is_lim_seq_const].
    eapply is_lim_seq_ext; [|exact (cmi_lim _ _ _ SET)]. intros m. cbv zeta. unfold presents, pasts. rewrite !combine_map, !map_map. reflexivity.
Qed.
Print Assumptions C117_cte_discrete.

(** ** records that repeat a word each *)
Lemma settles_widen {A} `{EqDec A} (U W : list A) p x : NoDup W -> incl U W -> (forall v, ~ In v U -> p v = 0) -> settles U p x -> settles W p x.
Proof.
  intros ND IC Z0 (_ & IN & LONG & FREQ). split; [exact ND|]. split; [intros m v Hv; apply IC, (IN m v Hv)|]. split; [exact LONG|].
  intros v _. destruct (in_dec eq_dec v U) as [Hv|N]; [apply FREQ, Hv|]. rewrite (Z0 v N). apply is_lim_seq_Reals.
  apply (is_lim_seq_ext (fun _ => 0)); [|apply is_lim_seq_const]. intros m. replace (count (x m) v) with 0%nat; [simpl; unfold Rdiv; ring|].
  symmetry. apply count_occ_not_In. intros C. apply N, (IN m v C).
Qed.

Lemma settles_later {A} `{EqDec A} (U : list A) p x : settles U p x -> settles U p (fun m => x (S m)).
Proof.
  intros (ND & IN & LONG & FREQ). split; [exact ND|]. split; [intros m; apply (IN (S m))|]. split.
  - intros L. destruct (LONG L) as [m0 M]. exists m0. intros m Hm. apply M. lia.
  - intros u Hu. pose proof (FREQ u Hu) as F. apply is_lim_seq_Reals in F. apply is_lim_seq_Reals. apply is_lim_seq_incr_1 in F. exact F.
Qed.

Lemma periodic_in {A} `{EqDec A} (d : A) (w W : list A) : w <> [] -> NoDup W -> incl w W ->
  settles W (prob w) (fun m => prefix (periodic d w) (S m)).
Proof.
  intros NE ND IC. apply (settles_widen (distinct w)); [exact ND| | |].
  - intros v Hv. apply IC, (proj1 (distinct_In w v)), Hv.
  - intros v N. apply prob_notin. intros C. apply N, distinct_In, C.
  - apply settles_later. apply C117_periodic_settles, NE.
Qed.
Lemma prefix_ne {A} (s : nat -> A) n : prefix s (S n) <> [].
Proof. intros C. apply (f_equal (@length A)) in C. rewrite prefix_len in C. discriminate C. Qed.

(** two records repeating a word each: the divergence converges to that of the words *)
Theorem C117_periodic_kld b (d : Z) (w v : list Z) : valid_base b -> w <> [] -> incl w v ->
  exists h, (forall m, kld_disc b (A1 (prefix (periodic d w) (S m))) (A1 (prefix (periodic d v) (S m))) = Ok (h m)) /\
    Un_cv h (KL w v / unit_of b).
Proof.
  intros V NW IC. assert (NV : v <> []) by (destruct w as [|a w]; [congruence|intros ->; destruct (IC a (or_introl eq_refl))]).
  assert (ND : NoDup (distinct v)) by apply NoDup_nodup.
  assert (IC' : incl w (distinct v)) by (intros u Hu; apply distinct_In, IC, Hu).
  assert (PV : forall u, In u (distinct v) -> 0 < prob v u) by (intros u Hu; apply prob_pos, (proj1 (distinct_In v u)), Hu).
  replace (KL w v) with (limit_kl (distinct v) (prob w) (prob v)).
  - apply C117_kld; [exact V|apply periodic_in; assumption|apply periodic_in; [exact NV|exact ND|intros u Hu; apply distinct_In, Hu]|exact PV|].
    intros m. split; apply prefix_ne.
  - unfold limit_kl, KL. rewrite <- (sumf_support (distinct w) (distinct v)).
    + apply sumf_ext. intros u Hu. destruct (Req_EM_T _ _) as [->|_]; [ring|reflexivity].
    + apply NoDup_nodup.
    + exact ND.
    + intros u Hu. apply IC', (proj1 (distinct_In w u)), Hu.
    + intros u Hu N. rewrite prob_notin; [ring|]. intros C. apply N, distinct_In, C.
Qed.
Print Assumptions C117_periodic_kld.

(** any number of records repeating a word each: the Jensen-Shannon divergence converges to that of the words *)
Theorem C117_periodic_jsd b (d : Z) (ws : list (list Z)) : valid_base b -> ws <> [] -> List.Forall (fun w => w <> []) ws ->
  exists h, (forall m, jsd_discrete b (map (fun w => A1 (prefix (periodic d w) (S m))) ws) = Ok (h m)) /\
    Un_cv h (JSD ws / unit_of b).
Proof.
  intros V NE F. set (U := distinct (concat ws)).
  destruct (C117_jsd b U (map prob ws) (map (fun w m => prefix (periodic d w) (S m)) ws) V) as (h & E & L).
  - intros C. apply map_eq_nil in C. congruence.
  - assert (IC : forall w, In w ws -> incl w U) by (intros w Hw u Hu; apply distinct_In, in_concat; exists w; split; assumption).
    assert (ND : NoDup U) by apply NoDup_nodup. clearbody U. clear NE. induction F as [|w ws NW F IH]; cbn [map]; constructor.
    + split; [apply periodic_in; [exact NW|exact ND|apply IC; left; reflexivity]|]. intros m. apply prefix_ne.
    + apply IH. intros z Hz. apply IC. right. exact Hz.
  - exists h. split; [intros m; rewrite <- E, map_map; reflexivity|].
    replace (JSD ws) with (limit_js U (map prob ws)); [exact L|]. unfold limit_js, JSD, limit_entropy. rewrite map_length. f_equal.
    + f_equal. apply sumf_ext. intros u _. rewrite plnp_ln, sumf_map. reflexivity.
    + f_equal. rewrite sumf_map. apply sumf_ext. intros w Hw. unfold Ent. f_equal. symmetry.
      rewrite (sumf_ext (fun u => plnp (prob w u)) (fun u => prob w u * ln (prob w u)) U) by (intros; apply plnp_ln). symmetry.
      apply sumf_support; [apply NoDup_nodup|apply NoDup_nodup| |].
      * intros u Hu. apply distinct_In, in_concat. exists w. split; [exact Hw|apply (proj1 (distinct_In w u)), Hu].
      * intros u _ N. rewrite prob_notin; [ring|]. intros C. apply N, distinct_In, C.
Qed.
Print Assumptions C117_periodic_jsd.

(** concrete cases: 0 0 0 ... against 0 1 0 1 ... has divergence ln 2 nats, and the Jensen-Shannon divergence of 0 0 ... and 1 1 ... is ln 2 *)
Example C117_example2 : KL [0]%Z [0; 1]%Z = ln 2 /\ JSD [[0]; [1]]%Z = ln 2 /\
  settles [0; 1]%Z (prob [0]%Z) (fun m => prefix (periodic 0%Z [0]%Z) (S m)).
Proof.
  split; [|split].
  - unfold KL, prob, count. simpl. replace (1 / 1 / (1 / (1 + 1))) with 2 by field. lra.
  - unfold JSD, mixprob, Ent, prob, count. simpl. replace (1 / 1 + (0 / 1 + 0)) with 1 by field. replace (0 / 1 + (1 / 1 + 0)) with 1 by field.
    replace (1 / (1 + 1)) with (/ 2) by field. rewrite ln_Rinv by lra. replace (1 / 1) with 1 by field. rewrite ln_1. field.
  - apply periodic_in; [discriminate|repeat constructor; simpl; intuition discriminate|intros u [<-|[]]; left; reflexivity].
Qed.
