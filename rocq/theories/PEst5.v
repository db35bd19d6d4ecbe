(** Proofs: estimators on general inputs, invariance, lawfulness. *)
From Coq Require Import Reals Lra Lia List ZArith Arith Bool Permutation Sorted.
From Verif Require Import Res RSum Spec SpecGamma SpecEst SpecInput Info Info2 Gibbs Ord MBase MData MEntropy MMI MTE MGeneric MEst SpecBase PBase PEntropy PCoo PMI PMI2 PMI3 PCMI PMI4 PCMI2 PMI5 PMI6 PTE PTE2 PGeneric PLog PEst PEst2 PEst3 PEst4.
Import ListNotations.
Local Open Scope R_scope.

Lemma same_partition_sym {A B} (xs : list A) (ys : list B) : same_partition xs ys -> same_partition ys xs.
Proof.
  intros [L P]. split; [congruence|]. intros i j dy dx Hi Hj. rewrite (P i j dx dy) by congruence. tauto.
Qed.

(** same multiset of counts *)
Definition equi {A B} `{EqDec A} `{EqDec B} (xs : list A) (ys : list B) : Prop :=
  length xs = length ys /\ forall f, bycount f xs = bycount f ys.

Lemma equi_partition {A B} `{EqDec A} `{EqDec B} (xs : list A) (ys : list B) : same_partition xs ys -> equi xs ys.
Proof. intros P. split; [apply P|]. intros f. apply bycount_partition. exact P. Qed.

Lemma equi_perm {A} `{EqDec A} (xs ys : list A) : Permutation xs ys -> equi xs ys.
Proof. intros P. split; [apply Permutation_length; exact P|]. intros f. apply bycount_perm. exact P. Qed.

Lemma equi_trans {A B C} `{EqDec A} `{EqDec B} `{EqDec C} (xs : list A) (ys : list B) (zs : list C) :
  equi xs ys -> equi ys zs -> equi xs zs.
Proof. intros [L1 E1] [L2 E2]. split; [congruence|]. intros f. rewrite E1. apply E2. Qed.

Lemma equi_sym {A B} `{EqDec A} `{EqDec B} (xs : list A) (ys : list B) : equi xs ys -> equi ys xs.
Proof. intros [L1 E1]. split; [congruence|]. intros f. symmetry. apply E1. Qed.

Section Equi.
Context {A B : Type} `{EqDec A} `{EqDec B} (xs : list A) (ys : list B).
Hypothesis E : equi xs ys.

Lemma equi_len : length xs = length ys. Proof using E. apply E. Qed.
Lemma equi_nvals : nvals xs = nvals ys.
Proof using E. apply INR_eq. rewrite !nvals_bycount. apply E. Qed.
Lemma equi_freq r : freq r xs = freq r ys.
Proof using E. apply INR_eq. rewrite !freq_bycount. apply E. Qed.
Lemma equi_by f g : f = g -> bycount f xs = bycount g ys.
Proof using E. intros ->. apply E. Qed.

Lemma equi_zhang : ZhangH xs = ZhangH ys.
Proof using E. unfold ZhangH. rewrite equi_len. apply E. Qed.
Lemma equi_bonachela : BonachelaH xs = BonachelaH ys.
Proof using E. unfold BonachelaH. rewrite equi_len. f_equal. apply E. Qed.
Lemma equi_cs : ChaoShenH xs = ChaoShenH ys.
Proof using E.
  unfold ChaoShenH. assert (C : cs_coverage xs = cs_coverage ys) by (unfold cs_coverage; rewrite equi_len, equi_freq; reflexivity).
  rewrite C, equi_len. f_equal. apply E.
Qed.
Lemma equi_cwj : ChaoWangJostH xs = ChaoWangJostH ys.
Proof using E.
  unfold ChaoWangJostH.
  assert (C : cwj_coverage xs = cwj_coverage ys) by (unfold cwj_coverage; rewrite equi_len, !equi_freq; reflexivity).
  rewrite C, equi_len, equi_freq. f_equal. apply E.
Qed.
Lemma equi_ansb : AnsbH xs = AnsbH ys.
Proof using E. unfold AnsbH. rewrite equi_len, equi_nvals. reflexivity. Qed.

Lemma grassberger_bycount {C} `{EqDec C} (zs : list C) : GrassbergerH zs =
  bycount (fun n => INR n * (ln (INR (length zs)) - psi n - (-1) ^ n / INR (n + 1))) zs / INR (length zs).
Proof using. unfold GrassbergerH. rewrite (sum_samples zs (grassberger_local zs)). reflexivity. Qed.
Lemma equi_grassberger : GrassbergerH xs = GrassbergerH ys.
Proof using E. rewrite !grassberger_bycount, equi_len. f_equal. apply E. Qed.

Lemma equi_intensity : shrink_intensity xs = shrink_intensity ys.
Proof using E.
  unfold shrink_intensity. rewrite equi_len, equi_nvals.
  change (sumf (fun v => (prob xs v - / INR (nvals ys)) * (prob xs v - / INR (nvals ys))) (distinct xs))
    with (bycount (fun n => (INR n / INR (length xs) - / INR (nvals ys)) * (INR n / INR (length xs) - / INR (nvals ys))) xs).
  change (sumf (fun v => (prob ys v - / INR (nvals ys)) * (prob ys v - / INR (nvals ys))) (distinct ys))
    with (bycount (fun n => (INR n / INR (length ys) - / INR (nvals ys)) * (INR n / INR (length ys) - / INR (nvals ys))) ys).
  change (sumf (fun v => prob xs v * (1 - prob xs v) / (INR (length ys) - 1)) (distinct xs))
    with (bycount (fun n => INR n / INR (length xs) * (1 - INR n / INR (length xs)) / (INR (length ys) - 1)) xs).
  change (sumf (fun v => prob ys v * (1 - prob ys v) / (INR (length ys) - 1)) (distinct ys))
    with (bycount (fun n => INR n / INR (length ys) * (1 - INR n / INR (length ys)) / (INR (length ys) - 1)) ys).
  destruct E as [L F]. rewrite !F, L. reflexivity.
Qed.

Lemma shrink_bycount {C} `{EqDec C} (zs : list C) : ShrinkH zs =
  - bycount (fun n => let q := shrink_intensity zs * / INR (nvals zs) + (1 - shrink_intensity zs) * (INR n / INR (length zs)) in q * ln q) zs.
Proof using. reflexivity. Qed.
Lemma equi_shrink : ShrinkH xs = ShrinkH ys.
Proof using E. rewrite !shrink_bycount, equi_len, equi_nvals, equi_intensity. f_equal. apply E. Qed.

Lemma shrink_lm_bycount {C} `{EqDec C} (zs : list C) : shrink_local_mean zs =
  - bycount (fun n => (INR n / INR (length zs)) * ln (shrink_intensity zs * / INR (nvals zs) + (1 - shrink_intensity zs) * (INR n / INR (length zs)))) zs.
Proof using. reflexivity. Qed.
Lemma equi_shrink_lm : shrink_local_mean xs = shrink_local_mean ys.
Proof using E. rewrite !shrink_lm_bycount, equi_len, equi_nvals, equi_intensity. f_equal. apply E. Qed.

Lemma bayes_bycount {C} `{EqDec C} a K (zs : list C) : BayesH a K zs =
  - bycount (fun n => let q := (INR n + a) / (INR (length zs) + K * a) in q * ln q) zs.
Proof using. reflexivity. Qed.
Lemma equi_bayes a K : BayesH a K xs = BayesH a K ys.
Proof using E. rewrite !bayes_bycount, equi_len. f_equal. apply E. Qed.

Lemma equi_Ent : xs <> [] -> Ent xs = Ent ys.
Proof using E.
  intros NE. assert (NE' : ys <> []) by (intros ->; apply NE; destruct xs; [reflexivity|destruct E; discriminate]).
  rewrite !Ent_bycount by assumption. rewrite equi_len. apply E.
Qed.
End Equi.

(** the data object of a usable input *)
Lemma usable_data i : usable i -> exists xs, make_data i = Ok (dd_of xs) /\ xs <> [] /\
  same_partition (sample i) xs /\ length xs = input_size i.
Proof.
  intros [Hn Hu]. destruct i as [[xs|rs]|cols].
  - simpl in Hn. exists xs. assert (NE : xs <> []) by (destruct xs; [simpl in Hn; lia|discriminate]).
    split; [apply from_data_dd; exact NE|]. split; [exact NE|]. split; [apply singletons_partition|reflexivity].
  - simpl in Hn. exists (reduce_rows rs). assert (NE : rs <> []) by (destruct rs; [simpl in Hn; lia|discriminate]).
    assert (NE' : reduce_rows rs <> []) by (rewrite reduce_rows_nil; exact NE).
    split; [apply from_data_dd; exact NE'|]. split; [exact NE'|]. split; [apply reduce_rows_partition|apply reduce_rows_length].
  - set (n := input_size (ETuple cols)) in *.
    assert (NE : cols <> []) by (intros ->; unfold n in Hn; simpl in Hn; lia).
    exists (reduce_rows (joint_rows n cols)).
    assert (L : length (joint_rows n cols) = n) by (unfold joint_rows; rewrite map_length, seq_length; reflexivity).
    split; [apply make_data_tuple_gen; assumption|]. split; [|split].
    + rewrite reduce_rows_nil. intros Q. rewrite Q in L. simpl in L. lia.
    + apply (reduce_rows_partition (joint_rows n cols)).
    + rewrite reduce_rows_length. exact L.
Qed.

Lemma sample_length i : usable i -> length (sample i) = input_size i.
Proof. intros U. destruct (usable_data i U) as (xs & _ & _ & [L _] & E). congruence. Qed.

Lemma sample_ne i : usable i -> sample i <> [].
Proof. intros U E. pose proof (sample_length i U) as L. rewrite E in L. destruct U as [P _]. simpl in L. lia. Qed.

(** conversely, everything else is rejected *)
Lemma make_data_usable i d : make_data i = Ok d -> usable i.
Proof.
  intros E. destruct (make_data_inv i d E) as (xs & NE & ->).
  destruct i as [[ys|rs]|cols]; simpl in E.
  - split; [|exact Logic.I]. simpl. destruct ys; [discriminate|simpl; lia].
  - split; [|exact Logic.I]. simpl. destruct rs as [|r rs]; [discriminate|simpl; lia].
  - destruct cols as [|a r]; [discriminate|].
    destruct (existsb _ (a :: r)) eqn:X; [discriminate|].
    assert (F : Forall (fun c => arr_len c = arr_len a) (a :: r)).
    { apply Forall_forall. intros c Hc. destruct (Nat.eq_dec (arr_len c) (arr_len a)) as [|N]; [assumption|exfalso].
      assert (Y : existsb (fun c => negb (Nat.eqb (arr_len c) (arr_len a))) (a :: r) = true).
      { apply existsb_exists. exists c. split; [exact Hc|]. apply negb_true_iff, Nat.eqb_neq. exact N. }
      congruence. }
    split; [|exact F]. simpl. destruct (arr_len a) as [|n] eqn:Ea; [|lia]. exfalso.
    assert (Q : column_stack (a :: r) = Ok (map (fun t => concat (map (fun c => nth t (arr_rows c) []) (a :: r))) (seq 0 0))).
    { apply column_stack_gen; [discriminate|exact F]. }
    unfold rmap in E. rewrite Q in E. simpl in E. discriminate.
Qed.

(** global value from the closed form on 1-D data *)
Lemma entropy_of_closed (e : est) b (H : list Z -> R) (H' : list (list Z) -> R) i :
  (forall xs, xs <> [] -> e_global e b (dd_of xs) = Ok (H xs / unit_of b)) ->
  (forall xs, same_partition (sample i) xs -> H' (sample i) = H xs) ->
  usable i -> entropy_of e b i = Ok (H' (sample i) / unit_of b).
Proof.
  intros C P U. destruct (usable_data i U) as (xs & E & NE & SP & _). unfold entropy_of. rewrite E. cbn [bind].
  rewrite C by exact NE. rewrite (P xs SP). reflexivity.
Qed.

Lemma e_global_num (f : base -> ddata -> res R) g b d r : f b d = Ok r ->
  e_global (mkEst (fun b d => rmap VNum (f b d)) g) b d = Ok r.
Proof. intros E. unfold e_global. cbn [e_calc]. rewrite E. reflexivity. Qed.

Lemma zhang_global b xs : valid_base b -> xs <> [] -> e_global est_zhang b (dd_of xs) = Ok (ZhangH xs / unit_of b).
Proof. intros. apply e_global_num, zhang_ok; assumption. Qed.
Lemma bonachela_global b xs : valid_base b -> xs <> [] -> e_global est_bonachela b (dd_of xs) = Ok (BonachelaH xs / unit_of b).
Proof. intros. apply e_global_num, bonachela_ok; assumption. Qed.
Lemma cs_global b xs : valid_base b -> xs <> [] -> e_global est_chao_shen b (dd_of xs) = Ok (ChaoShenH xs / unit_of b).
Proof. intros. apply e_global_num, chao_shen_ok; assumption. Qed.
Lemma cwj_global b xs : valid_base b -> xs <> [] -> e_global est_cwj b (dd_of xs) = Ok (ChaoWangJostH xs / unit_of b).
Proof. intros. apply e_global_num, cwj_ok; assumption. Qed.
Lemma shrink_global b xs : valid_base b -> xs <> [] -> e_global est_shrink b (dd_of xs) = Ok (ShrinkH xs / unit_of b).
Proof. intros. apply e_global_num, shrink_ok; assumption. Qed.
Lemma grassberger_global b xs : valid_base b -> xs <> [] -> e_global est_grassberger b (dd_of xs) = Ok (GrassbergerH xs / unit_of b).
Proof.
  intros V NE. unfold e_global. cbn [e_calc est_grassberger]. rewrite grassberger_ok by assumption. unfold rmap. cbn [bind value_global].
  rewrite mean_scaled. reflexivity.
Qed.

(** lawfulness *)
Lemma lawful_num (f : base -> ddata -> res R) g b xs r x : f b (dd_of xs) = Ok r ->
  g b (dd_of xs) = Raise x -> x = NotImplementedError \/ x = TheoreticalInconsistencyError ->
  lawful_on (mkEst (fun b d => rmap VNum (f b d)) g) b xs r.
Proof.
  intros E1 E2 Hx. split; [apply e_global_num; exact E1|]. right.
  unfold e_local. cbn [e_calc e_extract]. rewrite E1. unfold rmap. cbn [bind]. rewrite E2.
  destruct Hx as [-> | ->]; tauto.
Qed.

Lemma zhang_lawful_on b xs : valid_base b -> xs <> [] -> lawful_on est_zhang b xs (ZhangH xs / unit_of b).
Proof.
  intros V NE. split; [apply zhang_global; assumption|]. left.
  unfold e_local. cbn [e_calc e_extract est_zhang]. rewrite zhang_ok by assumption. unfold rmap. cbn [bind].
  rewrite zhang_local_ok by assumption. eexists. split; [reflexivity|]. split; [apply map_length|].
  rewrite (mean_scaled (fun x => zloc (length xs) (count xs x))). rewrite zhang_mean. reflexivity.
Qed.

Lemma grassberger_lawful_on b xs : valid_base b -> xs <> [] -> lawful_on est_grassberger b xs (GrassbergerH xs / unit_of b).
Proof.
  intros V NE. split; [apply grassberger_global; assumption|]. left.
  unfold e_local. cbn [e_calc est_grassberger]. rewrite grassberger_ok by assumption. cbn [bind].
  eexists. split; [reflexivity|]. split; [apply map_length|]. apply mean_scaled.
Qed.

Lemma bonachela_lawful_on b xs : valid_base b -> xs <> [] -> lawful_on est_bonachela b xs (BonachelaH xs / unit_of b).
Proof. intros. eapply lawful_num; [apply bonachela_ok; assumption|reflexivity|auto]. Qed.
Lemma cs_lawful_on b xs : valid_base b -> xs <> [] -> lawful_on est_chao_shen b xs (ChaoShenH xs / unit_of b).
Proof. intros. eapply lawful_num; [apply chao_shen_ok; assumption|reflexivity|auto]. Qed.
Lemma cwj_lawful_on b xs : valid_base b -> xs <> [] -> lawful_on est_cwj b xs (ChaoWangJostH xs / unit_of b).
Proof. intros. eapply lawful_num; [apply cwj_ok; assumption|reflexivity|auto]. Qed.
Lemma bayes_lawful_on b a xs : valid_base b -> 0 < a -> xs <> [] ->
  lawful_on (est_bayes (AlphaNum a) None) b xs (BayesH a (INR (nvals xs)) xs / unit_of b).
Proof.
  intros V Ha NE. unfold est_bayes. eapply lawful_num; [|reflexivity|auto].
  rewrite (bayes_ok b xs (AlphaNum a) None a) by (try assumption; try reflexivity; simpl; lia).
  cbn [bayes_K]. rewrite dd_K_of, <- INR_IZR_INZ. reflexivity.
Qed.
