(** Property theorems: the estimates converge as a record grows and its frequencies settle (C117). *)
From Coq Require Import Reals Lra Lia List ZArith Arith Bool Permutation.
From Coquelicot Require Import Rbar Lim_seq.
From Verif Require Import Res RSum Spec SpecGamma SpecEst SpecInput SpecRepl SpecTE SpecCons Info Info2 MBase MData MEntropy MMI MTE MGeneric MEst SpecBase PBase PEntropy PCoo PMI PMI2 PMI3 PMI4 PMI5 PGeneric PGeneric2 PropsGeneric PLog PEst PEst2 PEst3 PEst4 PEst5 PEst6 PropsEst PropsInv PRepl PropsRepl PCons PTE PTE2 PropsTE PropsStab.
Import ListNotations.
Local Open Scope R_scope.

(** ** images of settling records *)
Lemma count_image {A B} `{EqDec A} `{EqDec B} (f : A -> B) (U : list A) (xs : list A) b : NoDup U -> (forall v, In v xs -> In v U) ->
  INR (count (map f xs) b) = sumf (fun u => if eq_dec (f u) b then INR (count xs u) else 0) U.
Proof.
  intros ND. induction xs as [|x xs IH]; intros IN.
  - rewrite (sumf_ext _ (fun _ => 0)); [rewrite sumf_zero; reflexivity|]. intros u _. destruct (eq_dec _ _); reflexivity.
  - cbn [map]. assert (IH' := IH (fun v Hv => IN v (or_intror Hv))). clear IH.
    assert (Ux : In x U) by (apply IN; left; reflexivity).
    transitivity ((if eq_dec (f x) b then 1 else 0) + INR (count (map f xs) b)).
    { unfold count. simpl. destruct (eq_dec (f x) b); [rewrite S_INR; ring|ring]. }
    rewrite IH'. clear IH'.
    transitivity (sumf (fun u => (if eq_dec u x then (if eq_dec (f x) b then 1 else 0) else 0) + (if eq_dec (f u) b then INR (count xs u) else 0)) U).
    + rewrite sumf_plus. f_equal. symmetry.
      clear IN. revert Ux ND. induction U as [|u U IHU]; [intros []|]. intros [->|Ux] ND; inversion ND; subst; cbn [sumf].
      * destruct (eq_dec x x) as [_|C]; [|congruence]. rewrite (sumf_ext _ (fun _ => 0)); [rewrite sumf_zero; ring|].
        intros u Hu. destruct (eq_dec u x) as [->|]; [contradiction|reflexivity].
      * destruct (eq_dec u x) as [->|]; [contradiction|]. rewrite IHU; [ring|exact Ux|assumption].
    + apply sumf_ext. intros u _. unfold count. simpl. destruct (eq_dec u x) as [->|N].
      * destruct (eq_dec x x) as [_|C]; [|congruence]. destruct (eq_dec (f x) b); [rewrite S_INR; ring|ring].
      * destruct (eq_dec x u) as [->|]; [congruence|]. destruct (eq_dec (f u) b); ring.
Qed.

Lemma settles_map {A B} `{EqDec A} `{EqDec B} (f : A -> B) U p x : settles U p x ->
  settles (image f U) (push f U p) (fun m => map f (x m)).
Proof.
  intros (ND & IN & LONG & FREQ). split; [apply NoDup_nodup|]. split; [|split].
  - intros m v Hv. apply in_map_iff in Hv. destruct Hv as (u & <- & Hu). apply nodup_In, in_map, (IN m), Hu.
  - intros L. destruct (LONG L) as [m0 M]. exists m0. intros m Hm. rewrite map_length. apply M, Hm.
  - intros b _. apply is_lim_seq_Reals.
    apply (is_lim_seq_ext (fun m => sumf (fun u => if eq_dec (f u) b then INR (count (x m) u) / INR (length (x m)) else 0) U)).
    + intros m. rewrite map_length, (count_image f U (x m) b ND (IN m)). unfold Rdiv. rewrite <- sumf_scal_r.
      apply sumf_ext. intros u _. destruct (eq_dec _ _); ring.
    + apply (lim_sumf (fun m u => if eq_dec (f u) b then INR (count (x m) u) / INR (length (x m)) else 0)).
      intros u Hu. destruct (eq_dec (f u) b); [apply is_lim_seq_Reals, FREQ, Hu|apply is_lim_seq_const].
Qed.

Lemma image_inj {A B} `{EqDec A} `{EqDec B} (f : A -> B) U : NoDup U -> (forall u v, In u U -> In v U -> f u = f v -> u = v) ->
  image f U = map f U.
Proof.
  intros ND INJ. unfold image. apply nodup_fixed_point. revert INJ.
  induction ND as [|u U N ND IH]; intros INJ; [constructor|]. cbn. constructor.
  - intros C. apply in_map_iff in C. destruct C as (v & E & Hv). apply N. rewrite (INJ u v); [exact Hv|left; reflexivity|right; exact Hv|congruence].
  - apply IH. intros a c Ha Hc. apply INJ; right; assumption.
Qed.

Lemma push_inj {A B} `{EqDec A} `{EqDec B} (f : A -> B) U p u : NoDup U -> (forall u v, In u U -> In v U -> f u = f v -> u = v) ->
  In u U -> push f U p (f u) = p u.
Proof.
  intros ND INJ Hu. unfold push. rewrite (sumf_ext _ (fun v => if eq_dec v u then p u else 0)).
  - clear INJ. revert Hu. induction ND as [|v U N ND IH]; [intros []|]. intros [Q|Hu]; cbn [sumf].
    + subst v. destruct (eq_dec u u) as [_|C]; [|congruence]. rewrite (sumf_ext _ (fun _ => 0)); [rewrite sumf_zero; ring|].
      intros w Hw. destruct (eq_dec w u) as [->|]; [contradiction|reflexivity].
    + destruct (eq_dec v u) as [->|]; [contradiction|]. rewrite IH by exact Hu. ring.
  - intros v Hv. destruct (eq_dec (f v) (f u)) as [E|E]; destruct (eq_dec v u) as [E'|E']; subst; try reflexivity; [|congruence].
    exfalso. apply E'. apply INJ; assumption.
Qed.

(** renaming the symbols does not change the limit *)
Lemma limit_entropy_inj {A B} `{EqDec A} `{EqDec B} (f : A -> B) U p : NoDup U -> (forall u v, In u U -> In v U -> f u = f v -> u = v) ->
  limit_entropy (image f U) (push f U p) = limit_entropy U p.
Proof.
  intros ND INJ. unfold limit_entropy. rewrite image_inj by assumption. rewrite sumf_map. f_equal.
  apply sumf_ext. intros u Hu. rewrite push_inj by assumption. reflexivity.
Qed.

(** ** entropies *)
Definition converges (e : est) (b : base) (i : nat -> einput) (v : R) : Prop :=
  exists h, (forall m, entropy_of e b (i m) = Ok (h m)) /\ Un_cv h v.

Lemma converges_from e b i (F : list (list Z) -> R) (v : R) : (forall m, SpecInput.usable (i m)) ->
  (forall j, SpecInput.usable j -> entropy_of e b j = Ok (F (sample j) / unit_of b)) ->
  is_lim_seq (fun m => F (sample (i m))) v -> converges e b i (v / unit_of b).
Proof.
  intros U C L. exists (fun m => F (sample (i m)) / unit_of b). split; [intros m; apply C, U|].
  apply is_lim_seq_Reals. unfold Rdiv. apply is_lim_seq_mult'; [exact L|apply is_lim_seq_const].
Qed.

Theorem C117_entropy_consistent b a U p (i : nat -> einput) : valid_base b -> 0 < a -> (forall m, SpecInput.usable (i m)) ->
  settles U p (fun m => SpecInput.sample (i m)) ->
  List.Forall (fun e => exists h, (forall m, entropy_of e b (i m) = Ok (h m)) /\ Un_cv h (limit_entropy U p / unit_of b))
    [est_discrete; est_mm; est_shrink; est_zhang; est_chao_shen; est_cwj; est_bonachela; est_grassberger; est_bayes (AlphaNum a) None].
Proof.
  intros V Ha W SET. repeat apply List.Forall_cons; [| | | | | | | | |apply List.Forall_nil].
  - apply (converges_from _ _ _ Ent); [exact W|intros j X; apply discrete_closed; assumption|apply (ent_lim _ _ _ SET)].
  - apply (converges_from _ _ _ (fun xs => Ent xs + (INR (nvals xs) - 1) / (2 * INR (length xs)))); [exact W| |apply (mm_settle _ _ _ SET)].
    intros j X. rewrite est_mm_closed by assumption. rewrite (sample_length j X). reflexivity.
  - apply (converges_from _ _ _ ShrinkH); [exact W|intros j X; apply C43_shrink_closed_form; assumption|apply (shrink_settle _ _ _ SET)].
  - apply (converges_from _ _ _ ZhangH); [exact W|intros j X; apply C46_zhang_closed_form; assumption|apply (zhang_settle _ _ _ SET)].
  - apply (converges_from _ _ _ ChaoShenH); [exact W|intros j X; apply C47_chao_shen_closed_form; assumption|apply (chao_shen_settle _ _ _ SET)].
  - apply (converges_from _ _ _ ChaoWangJostH); [exact W|intros j X; apply C48_cwj_closed_form; assumption|apply (cwj_settle _ _ _ SET)].
  - apply (converges_from _ _ _ BonachelaH); [exact W|intros j X; apply C49_bonachela_closed_form; assumption|apply (bonachela_settle _ _ _ SET)].
  - apply (converges_from _ _ _ GrassbergerH); [exact W|intros j X; apply C49_grassberger_closed_form; assumption|apply (grassberger_settle _ _ _ SET)].
  - apply (converges_from _ _ _ (fun xs => BayesH a (INR (nvals xs)) xs)); [exact W|intros j X; apply C45_bayes_closed_form; assumption|apply (bayes_settle _ _ _ SET); exact Ha].
Qed.
Print Assumptions C117_entropy_consistent.

Lemma sample_1d xs : sample (EArr (A1 xs)) = map (fun z => [z]) xs.
Proof. reflexivity. Qed.
Lemma prefix_len {A} (s : nat -> A) n : length (prefix s n) = n.
Proof. unfold prefix. rewrite map_length, seq_length. reflexivity. Qed.

(** a stream of integer symbols, recorded for longer and longer *)
Theorem C117_entropy_stream b a U p (s : nat -> Z) : valid_base b -> 0 < a -> settles U p (prefix s) ->
  List.Forall (fun e => exists h, (forall m, (0 < m)%nat -> entropy_of e b (EArr (A1 (prefix s m))) = Ok (h m)) /\
      Un_cv h (limit_entropy U p / unit_of b))
    [est_discrete; est_mm; est_shrink; est_zhang; est_chao_shen; est_cwj; est_bonachela; est_grassberger; est_bayes (AlphaNum a) None].
Proof.
  intros V Ha SET. pose proof (settles_map (fun z : Z => [z]) U p (prefix s) SET) as S1.
  assert (S2 : settles (image (fun z : Z => [z]) U) (push (fun z : Z => [z]) U p) (fun m => sample (EArr (A1 (prefix s (S m)))))).
  { destruct S1 as (ND & IN & LONG & FREQ). split; [exact ND|]. split; [intros m; apply (IN (S m))|]. split.
    - intros L. destruct (LONG L) as [m0 M]. exists m0. intros m Hm. apply (M (S m)). lia.
    - intros u Hu. pose proof (FREQ u Hu) as F. apply is_lim_seq_Reals in F. apply is_lim_seq_Reals.
      apply (is_lim_seq_incr_1 (fun m => INR (count (map (fun z => [z]) (prefix s m)) u) / INR (length (map (fun z => [z]) (prefix s m))))). exact F. }
  assert (W : forall m, SpecInput.usable (EArr (A1 (prefix s (S m))))).
  { intros m. apply usable_arr. cbn [arr_len]. rewrite prefix_len. lia. }
  pose proof (C117_entropy_consistent b a _ _ _ V Ha W S2) as X.
  rewrite limit_entropy_inj in X; [|destruct SET; assumption|intros u v _ _ E; congruence].
  eapply List.Forall_impl; [|exact X]. intros e (h & E & L). exists (fun m => h (pred m)). split.
  - intros [|m] Hm; [lia|]. exact (E m).
  - apply is_lim_seq_Reals. apply is_lim_seq_Reals in L. apply (is_lim_seq_incr_1 (fun m => h (pred m))). exact L.
Qed.
Print Assumptions C117_entropy_stream.

(** ** mutual information *)
Lemma sample_pair (l : list (Z * Z)) : sample (ETuple [A1 (map fst l); A1 (map snd l)]) = map (fun t => [fst t; snd t]) l.
Proof.
  unfold sample, input_size. cbn [arr_len arr_rows map]. rewrite !map_length. induction l as [|[u v] l IH]; [reflexivity|].
  cbn [length]. rewrite <- cons_seq, <- seq_shift. cbn [map concat nth app fst snd]. f_equal. rewrite map_map. exact IH.
Qed.

Section Pairs.
Variables (U : list (Z * Z)) (p : Z * Z -> R) (x : nat -> list (Z * Z)).
Hypothesis SET : settles U p x.
Hypothesis NEx : forall m, x m <> [].

Let fx (m : nat) := EArr (A1 (map fst (x m))).
Let fy (m : nat) := EArr (A1 (map snd (x m))).
Let fj (m : nat) := ETuple [A1 (map fst (x m)); A1 (map snd (x m))].

Lemma pairs_len m : (0 < length (x m))%nat.
Proof using NEx. pose proof (NEx m). destruct (x m); [congruence|simpl; lia]. Qed.

Lemma pairs_first b a : valid_base b -> 0 < a -> List.Forall (fun e => converges e b fx (limit_entropy (image fst U) (push fst U p) / unit_of b)) (approaches a).
Proof using SET NEx.
  intros V Ha. pose proof (settles_map (fun z : Z => [z]) _ _ _ (settles_map fst U p x SET)) as S1.
  assert (W : forall m, SpecInput.usable (fx m)) by (intros m; apply usable_arr; cbn [arr_len]; rewrite map_length; apply pairs_len).
  pose proof (C117_entropy_consistent b a _ _ fx V Ha W S1) as X.
  rewrite limit_entropy_inj in X; [|apply NoDup_nodup|intros u v _ _ E; congruence].
  rewrite Forall_forall in *. intros e He. apply X. unfold approaches in He. simpl in *. tauto.
Qed.
Lemma pairs_second b a : valid_base b -> 0 < a -> List.Forall (fun e => converges e b fy (limit_entropy (image snd U) (push snd U p) / unit_of b)) (approaches a).
Proof using SET NEx.
  intros V Ha. pose proof (settles_map (fun z : Z => [z]) _ _ _ (settles_map snd U p x SET)) as S1.
  assert (W : forall m, SpecInput.usable (fy m)) by (intros m; apply usable_arr; cbn [arr_len]; rewrite map_length; apply pairs_len).
  pose proof (C117_entropy_consistent b a _ _ fy V Ha W S1) as X.
  rewrite limit_entropy_inj in X; [|apply NoDup_nodup|intros u v _ _ E; congruence].
  rewrite Forall_forall in *. intros e He. apply X. unfold approaches in He. simpl in *. tauto.
Qed.
Lemma pairs_joint b a : valid_base b -> 0 < a -> List.Forall (fun e => converges e b fj (limit_entropy U p / unit_of b)) (approaches a).
Proof using SET NEx.
  intros V Ha. pose proof (settles_map (fun t : Z * Z => [fst t; snd t]) _ _ _ SET) as S1.
  assert (S2 : settles (image (fun t : Z * Z => [fst t; snd t]) U) (push (fun t : Z * Z => [fst t; snd t]) U p) (fun m => sample (fj m))).
  { unfold fj. destruct S1 as (ND & IN & LONG & FREQ). split; [exact ND|]. split; [|split].
    - intros m v Hv. rewrite sample_pair in Hv. apply (IN m), Hv.
    - intros L. destruct (LONG L) as [m0 M]. exists m0. intros m Hm. rewrite sample_pair. apply M, Hm.
    - intros u Hu. apply is_lim_seq_Reals. pose proof (FREQ u Hu) as F. apply is_lim_seq_Reals in F.
      eapply is_lim_seq_ext; [|exact F]. intros m. cbv beta. rewrite sample_pair. reflexivity. }
  assert (W : forall m, SpecInput.usable (fj m)).
  { intros m. apply (usable_tup (length (x m))); [apply pairs_len|discriminate|]. repeat constructor; cbn [arr_len]; apply map_length. }
  pose proof (C117_entropy_consistent b a _ _ fj V Ha W S2) as X.
  rewrite limit_entropy_inj in X; [|destruct SET; assumption|intros [u1 u2] [v1 v2] _ _ E; cbn in E; congruence].
  rewrite Forall_forall in *. intros e He. apply X. unfold approaches in He. simpl in *. tauto.
Qed.
End Pairs.

Theorem C117_mi_consistent b a U p (x : nat -> list (Z * Z)) : valid_base b -> 0 < a -> settles U p x -> (forall m, x m <> []) ->
  List.Forall (fun e => exists v, (forall m, gen_mi e b (Some 0%Z) [A1 (map fst (x m)); A1 (map snd (x m))] = Ok (v m)) /\
     Un_cv (fun m => value_global (v m)) (limit_mi U p / unit_of b)) (approaches a).
Proof.
  intros V Ha SET NE. pose proof (approaches_good b a V Ha) as G.
  pose proof (pairs_first U p x SET NE b a V Ha) as P1. pose proof (pairs_second U p x SET NE b a V Ha) as P2.
  pose proof (pairs_joint U p x SET NE b a V Ha) as P3. rewrite Forall_forall in *. intros e He.
  destruct (G e He) as [HL _]. destruct (P1 e He) as (h1 & E1 & L1). destruct (P2 e He) as (h2 & E2 & L2). destruct (P3 e He) as (h3 & E3 & L3).
  assert (X : forall m, exists v, gen_mi e b (Some 0%Z) [A1 (map fst (x m)); A1 (map snd (x m))] = Ok v /\ value_global v = h1 m + h2 m - h3 m).
  { intros m. destruct (C25_mi_from_entropies e b [A1 (map fst (x m)); A1 (map snd (x m))] (length (x m))) as (H & v & A1' & A2' & A3' & A4' & _);
      [exact HL|simpl; lia| |exact (pairs_len x NE m)|].
    - repeat constructor; cbn [arr_len]; apply map_length.
    - exists v. split; [exact A3'|]. rewrite A4'. cbn [sumf].
      pose proof (A1' _ (or_introl eq_refl)) as B1. pose proof (A1' _ (or_intror (or_introl eq_refl))) as B2.
      rewrite E1 in B1. rewrite E2 in B2. rewrite E3 in A2'. apply Ok_eq in B1, B2, A2'. rewrite <- B1, <- B2, <- A2'. ring. }
  exists (fun m => match gen_mi e b (Some 0%Z) [A1 (map fst (x m)); A1 (map snd (x m))] with Ok v => v | _ => VNum 0 end).
  split; [intros m; destruct (X m) as (v & -> & _); reflexivity|].
  apply is_lim_seq_Reals. apply (is_lim_seq_ext (fun m => h1 m + h2 m - h3 m)).
  - intros m. destruct (X m) as (v & -> & ->). reflexivity.
  - unfold limit_mi. apply (lim_eq _ (limit_entropy (image fst U) (push fst U p) / unit_of b + limit_entropy (image snd U) (push snd U p) / unit_of b
       - limit_entropy U p / unit_of b)); [unfold Rdiv; ring|].
    apply is_lim_seq_minus'; [apply is_lim_seq_plus'|]; apply is_lim_seq_Reals; assumption.
Qed.
Print Assumptions C117_mi_consistent.

Lemma combine_fst_snd {A B} (l : list (A * B)) : combine (map fst l) (map snd l) = l.
Proof. induction l as [|[u v] l IH]; [reflexivity|]. cbn. rewrite IH. reflexivity. Qed.

(** the dedicated discrete estimator: as long as its integer codes do not overflow, it follows a converging sequence *)
Theorem C117_mi_discrete b U p (x : nat -> list (Z * Z)) : big_base b -> settles U p x -> (forall m, x m <> []) ->
  exists v, (forall m, small2 (length (x m)) -> mi_discrete b (Some 0%Z) [A1 (map fst (x m)); A1 (map snd (x m))] = Ok (v m)) /\
    Un_cv v (limit_mi U p / unit_of b).
Proof.
  intros B SET NE. exists (fun m => MI (map fst (x m)) (map snd (x m)) / unit_of b). split.
  - intros m SM. apply mi2_api; [exact B|rewrite !map_length; reflexivity|intros C; apply map_eq_nil in C; exact (NE m C)|rewrite map_length; exact SM].
  - apply is_lim_seq_Reals. unfold Rdiv. apply is_lim_seq_mult'; [|apply is_lim_seq_const].
    unfold MI, limit_mi. apply (is_lim_seq_ext (fun m => Ent (map fst (x m)) + Ent (map snd (x m)) - Ent (x m))).
    { intros m. rewrite combine_fst_snd. reflexivity. }
    apply is_lim_seq_minus'; [apply is_lim_seq_plus'|].
    + apply (ent_lim _ _ _ (settles_map fst U p x SET)).
    + apply (ent_lim _ _ _ (settles_map snd U p x SET)).
    + apply (ent_lim _ _ _ SET).
Qed.
Print Assumptions C117_mi_discrete.

(** ** transfer entropy: the (present, source past, destination past) windows settle *)
Theorem C117_te_discrete b U p (xs ys : nat -> list Z) l k s : valid_base b -> (1 <= l)%nat -> (1 <= k)%nat -> (1 <= s)%nat ->
  (forall m, length (xs m) = length (ys m)) -> (forall m, (Nat.max k l * s < length (ys m))%nat) ->
  settles U p (fun m => let ts := base_times (length (ys m)) (Nat.max k l * s) s in
    combine (combine (presents 0%Z (ys m) ts) (pasts 0%Z (xs m) s l ts)) (pasts 0%Z (ys m) s k ts)) ->
  exists v, (forall m, small2 (length (ys m)) -> te_discrete b (A1 (xs m)) (A1 (ys m)) (te_kw l k s) = Ok (v m)) /\
    Un_cv v (limit_cmi U p / unit_of b).
Proof.
  intros V Hl Hk Hs LE Hd SET.
  exists (fun m => let ts := base_times (length (ys m)) (Nat.max k l * s) s in
     CMI (presents 0%Z (ys m) ts) (pasts 0%Z (xs m) s l ts) (pasts 0%Z (ys m) s k ts) / unit_of b). split.
  - intros m SM. apply C19_te_is_conditional_mi; auto.
  - apply is_lim_seq_Reals. unfold Rdiv. apply is_lim_seq_mult'; [|apply is_lim_seq_const].
    unfold CMI, limit_cmi, presents, pasts. cbv zeta in *.
    pose proof (ent_lim _ _ _ SET) as T0.
    pose proof (ent_lim _ _ _ (settles_map (fun t : Z * list Z * list Z => (fst (fst t), snd t)) _ _ _ SET)) as T1.
    pose proof (ent_lim _ _ _ (settles_map (fun t : Z * list Z * list Z => (snd (fst t), snd t)) _ _ _ SET)) as T2.
    pose proof (ent_lim _ _ _ (settles_map snd _ _ _ SET)) as T3.
    apply is_lim_seq_minus'; [apply is_lim_seq_minus'; [apply is_lim_seq_plus'|]|].
    + eapply is_lim_seq_ext; [|exact T1]. intros m. cbv beta. unfold presents, pasts. rewrite !combine_map, !map_map. reflexivity.
    + eapply is_lim_seq_ext; [|exact T2]. intros m. cbv beta. unfold presents, pasts. rewrite !combine_map, !map_map. reflexivity.
    + exact T0.
    + eapply is_lim_seq_ext; [|exact T3]. intros m. cbv beta. unfold presents, pasts. rewrite !combine_map, !map_map. reflexivity.
Qed.
Print Assumptions C117_te_discrete.

(** ** a family of records that settle: every periodic stream, whatever the word it repeats *)
Definition periodic {A} (d : A) (w : list A) (n : nat) : A := nth (n mod length w) w d.

Lemma prefix_periodic_add {A} (d : A) w n : w <> [] -> prefix (periodic d w) (length w + n) = w ++ prefix (periodic d w) n.
Proof.
  intros NE. assert (P : (0 < length w)%nat) by (destruct w; [congruence|simpl; lia]). unfold prefix. rewrite seq_app, map_app. f_equal.
  - apply (nth_ext _ _ d d); [rewrite map_length, seq_length; reflexivity|]. intros k Hk. rewrite map_length, seq_length in Hk.
    rewrite (nth_indep _ d (periodic d w 0)) by (rewrite map_length, seq_length; exact Hk).
    rewrite map_nth, seq_nth by exact Hk. unfold periodic. cbn [Nat.add]. rewrite Nat.mod_small by exact Hk. reflexivity.
  - cbn [Nat.add]. assert (SH : forall k a, seq (length w + a) k = map (fun t => (length w + t)%nat) (seq a k)).
    { induction k as [|k IHk]; intros a; simpl; [reflexivity|]. f_equal. rewrite <- IHk. f_equal. lia. }
    replace (length w) with (length w + 0)%nat at 1 by lia. rewrite SH, map_map. apply map_ext. intros t. unfold periodic. f_equal.
    replace (length w + t)%nat with (t + 1 * length w)%nat by lia. apply Nat.mod_add. lia.
Qed.

Lemma prefix_periodic_count {A} `{EqDec A} (d : A) w u n : w <> [] ->
  Rabs (INR (count (prefix (periodic d w) n) u) * INR (length w) - INR n * INR (count w u)) <= INR (length w) * INR (length w).
Proof.
  intros NE. assert (P : (0 < length w)%nat) by (destruct w; [congruence|simpl; lia]).
  induction n as [n IH] using lt_wf_ind. destruct (le_lt_dec (length w) n) as [G|G].
  - replace n with (length w + (n - length w))%nat by lia. rewrite prefix_periodic_add by exact NE.
    unfold count at 1. rewrite count_occ_app. fold (count w u). fold (count (prefix (periodic d w) (n - length w)) u).
    rewrite !plus_INR. specialize (IH (n - length w)%nat ltac:(lia)).
    match type of IH with Rabs ?a <= _ => match goal with |- Rabs ?c <= _ => replace c with a by ring end end. exact IH.
  - assert (C1 : (count (prefix (periodic d w) n) u <= n)%nat).
    { pose proof (count_occ_bound eq_dec u (prefix (periodic d w) n)) as B. rewrite prefix_len in B. exact B. }
    assert (C2 : (count w u <= length w)%nat) by apply count_occ_bound.
    apply le_INR in C1, C2. apply lt_INR in G. pose proof (pos_INR (count (prefix (periodic d w) n) u)). pose proof (pos_INR (count w u)). pose proof (pos_INR n).
    apply Rabs_le. split; nra.
Qed.

Theorem C117_periodic_settles {A} `{EqDec A} (d : A) (w : list A) : w <> [] ->
  settles (distinct w) (prob w) (prefix (periodic d w)).
Proof.
  intros NE. assert (P : (0 < length w)%nat) by (destruct w; [congruence|simpl; lia]).
  split; [apply NoDup_nodup|]. split; [|split].
  - intros m v Hv. apply distinct_In. unfold prefix in Hv. apply in_map_iff in Hv. destruct Hv as (t & <- & _).
    apply nth_In. apply Nat.mod_upper_bound. lia.
  - intros L. exists L. intros m Hm. rewrite prefix_len. exact Hm.
  - intros u _. apply is_lim_seq_Reals.
    assert (PL : 0 < INR (length w)) by (apply lt_0_INR; exact P).
    apply (is_lim_seq_ext (fun m => prob w u + (INR (count (prefix (periodic d w) m) u) / INR m - prob w u))).
    { intros m. rewrite prefix_len. ring. }
    apply (lim_eq _ (prob w u + 0)); [ring|]. apply is_lim_seq_plus'; [apply is_lim_seq_const|].
    apply (lim_squeeze0 _ (fun m => INR (length w) * / INR m)).
    + exists 1%nat. intros m Hm. assert (Pm : 0 < INR m) by (apply lt_0_INR; lia).
      pose proof (prefix_periodic_count d w u m NE) as B. unfold prob.
      replace (INR (count (prefix (periodic d w) m) u) / INR m - INR (count w u) / INR (length w))
        with ((INR (count (prefix (periodic d w) m) u) * INR (length w) - INR m * INR (count w u)) * / (INR m * INR (length w))) by (field; lra).
      rewrite Rabs_mult, (Rabs_pos_eq (/ _)) by (left; apply Rinv_0_lt_compat, Rmult_lt_0_compat; assumption).
      apply Rle_trans with (INR (length w) * INR (length w) * / (INR m * INR (length w))); [|right; field; lra].
      apply Rmult_le_compat_r; [left; apply Rinv_0_lt_compat, Rmult_lt_0_compat; assumption|exact B].
    + apply (lim_eq _ (INR (length w) * 0)); [ring|]. apply is_lim_seq_mult'; [apply is_lim_seq_const|].
      apply (is_lim_seq_inv _ p_infty); [apply is_lim_seq_INR|discriminate].
Qed.
Print Assumptions C117_periodic_settles.

(** whatever pattern a record repeats, and wherever it is cut off, the estimates converge to the plug-in value of one period *)
Theorem C117_periodic_entropy b a (d : Z) (w : list Z) : valid_base b -> 0 < a -> w <> [] ->
  List.Forall (fun e => exists h, (forall m, (0 < m)%nat -> entropy_of e b (EArr (A1 (prefix (periodic d w) m))) = Ok (h m)) /\
      Un_cv h (Ent w / unit_of b))
    [est_discrete; est_mm; est_shrink; est_zhang; est_chao_shen; est_cwj; est_bonachela; est_grassberger; est_bayes (AlphaNum a) None].
Proof.
  intros V Ha NE. replace (Ent w) with (limit_entropy (distinct w) (prob w)); [apply C117_entropy_stream; try assumption; apply C117_periodic_settles; exact NE|].
  unfold limit_entropy, Ent. f_equal. apply sumf_ext. intros u _. unfold plnp. destruct (Req_EM_T _ _) as [->|_]; [ring|reflexivity].
Qed.
Print Assumptions C117_periodic_entropy.

(** a concrete case: the record 0 1 1 0 1 1 ... of pairs with its own shift; one third of the symbols are 0 *)
Example C117_example :
  prefix (periodic 0%Z [0; 1; 1]%Z) 5 = [0; 1; 1; 0; 1]%Z /\ prob [0; 1; 1]%Z 0%Z = 1 / 3 /\
  settles (distinct [(0, 1); (1, 1); (1, 0)]%Z) (prob [(0, 1); (1, 1); (1, 0)]%Z) (fun m => prefix (periodic (0, 1)%Z [(0, 1); (1, 1); (1, 0)]%Z) (S m)).
Proof.
  split; [reflexivity|]. split; [unfold prob; cbn; lra|].
  destruct (C117_periodic_settles (0, 1)%Z [(0, 1); (1, 1); (1, 0)]%Z ltac:(discriminate)) as (ND & IN & LONG & FREQ).
  split; [exact ND|]. split; [intros m; apply IN|]. split.
  - intros L. destruct (LONG L) as [m0 M]. exists m0. intros m Hm. apply M. lia.
  - intros u Hu. pose proof (FREQ u Hu) as F. apply is_lim_seq_Reals in F. apply is_lim_seq_Reals. apply is_lim_seq_incr_1 in F. exact F.
Qed.
