(** Proofs connecting the divergence model (MDiv) with the specification. *)
From Coq Require Import Reals Lra Lia List ZArith Arith Bool Permutation.
From Verif Require Import Res RSum Spec SpecDiv SpecBase Info Info2 Gibbs Ord MBase MData MEntropy MMI MTE MGeneric MEst SpecOrd MOrd MDiv PBase PEntropy PEst PEst2 PEst4 PDiv.
Import ListNotations.
Local Open Scope R_scope.

Section Dict.
Context {K : Type} `{EqDec K}.

(** the dictionary [dict] tabulates the distribution [(U, f)] *)
Definition dict_of (dict : list (K * R)) (d : list K * (K -> R)) : Prop :=
  NoDup (map fst dict) /\ forall k v, In (k, v) dict <-> In k (fst d) /\ v = snd d k.

Lemma dict_combine U (f : K -> R) : NoDup U -> dict_of (combine U (map f U)) (U, f).
Proof.
  intros N. split.
  - replace (map fst (combine U (map f U))) with U; [exact N|]. clear. induction U as [|u U IH]; simpl; congruence.
  - intros k v. cbn [fst snd]. clear. induction U as [|u U IH]; simpl; [tauto|]. rewrite IH. split.
    + intros [E|[I E]]; [injection E as <- <-; auto|auto].
    + intros [[->|I] ->]; auto.
Qed.

Lemma dict_keys dict d k : dict_of dict d -> (In k (map fst dict) <-> In k (fst d)).
Proof.
  intros [_ E]. rewrite in_map_iff. split.
  - intros ([a v] & <- & I). apply E in I. apply I.
  - intros I. exists (k, snd d k). split; [reflexivity|]. apply E. auto.
Qed.

Lemma dict_get0 dict d k : dict_of dict d -> is_pmf (fst d) (snd d) -> get0 dict k = snd d k.
Proof.
  intros D P.
  destruct (in_dec eq_dec k (fst d)) as [I|N].
  - destruct D as [ND E]. assert (G : In (k, snd d k) dict) by (apply E; auto).
    assert (U : forall v, In (k, v) dict -> v = snd d k) by (intros v Hv; apply E in Hv; apply Hv).
    clear E. induction dict as [|[a v] r IH]; [destruct G|]. simpl. destruct (eq_dec a k) as [->|Na].
    + apply U. left. reflexivity.
    + destruct G as [G|G]; [congruence|]. inversion ND; subst. apply IH; auto. intros w Hw. apply U. right. exact Hw.
  - rewrite (proj1 (proj2 (proj2 P)) k N).
    assert (N' : ~ In k (map fst dict)) by (rewrite (dict_keys dict d k D); exact N). clear -N'.
    induction dict as [|[a v] r IH]; [reflexivity|]. simpl in *. destruct (eq_dec a k) as [->|]; [tauto|]. apply IH. tauto.
Qed.

Lemma jsd_of_ok b (dicts : list (list (K * R))) ds : valid_base b -> ds <> [] -> Forall2 dict_of dicts ds ->
  (forall d, In d ds -> is_pmf (fst d) (snd d)) ->
  jsd_of b dicts (map (fun d => PEnt (fst d) (snd d) / unit_of b) ds) = Ok (PJSD ds / unit_of b).
Proof.
  intros V NE F2 PM. unfold jsd_of. destruct (map _ ds) as [|h hs] eqn:Eh; [destruct ds; [congruence|discriminate]|].
  rewrite <- Eh. clear Eh h hs.
  assert (L : length dicts = length ds) by (clear -F2; induction F2; simpl; congruence).
  assert (G : forall k, sumR (map (fun d => get0 d k) dicts) / INR (length dicts) = pmix ds k).
  { intros k. rewrite L. unfold pmix. f_equal. clear NE L. induction F2 as [|d e ds' es D F IH]; [reflexivity|].
    simpl. unfold sumR in *. simpl. rewrite IH by (intros x Hx; apply PM; right; exact Hx).
    rewrite (dict_get0 d e k D) by (apply PM; left; reflexivity). reflexivity. }
  rewrite (map_ext _ _ G).
  set (keys := nodup eq_dec (concat (map (map fst) dicts))).
  assert (PK : Permutation keys (distinct (concat (map fst ds)))).
  { apply NoDup_Permutation; [apply NoDup_nodup|apply NoDup_nodup|]. intros x. unfold keys, distinct. rewrite !nodup_In.
    clear -F2. induction F2 as [|d e ds' es D F IH]; simpl; [tauto|]. rewrite !in_app_iff, IH, (dict_keys d e x D). tauto. }
  rewrite plogp_ok; [|exact V|].
  - cbn [bind]. f_equal. unfold PJSD.
    assert (E1 : EntVec (map (pmix ds) keys) = PEnt (distinct (concat (map fst ds))) (pmix ds)).
    { unfold EntVec, PEnt. f_equal. rewrite sumf_map. apply sumf_perm. exact PK. }
    rewrite E1. unfold sumR at 1. rewrite map_length, sumf_map, sumf_div.
    assert (0 < INR (length ds)) by (apply INR_pos; destruct ds; [congruence|simpl; lia]).
    pose proof (unit_neq0 b V). field. split; lra.
  - apply Forall_forall. intros y Hy. apply in_map_iff in Hy. destruct Hy as (k & <- & Hk).
    apply (proj1 (proj2 (mix_pmf ds NE PM))). eapply Permutation_in; [exact PK|exact Hk].
Qed.
End Dict.

(** empirical distributions *)
Lemma prob_pmf_distinct {A} `{EqDec A} (xs : list A) : xs <> [] -> is_pmf (distinct xs) (prob xs).
Proof.
  intros NE. split; [apply NoDup_nodup|]. split; [intros v Hv; apply prob_pos; apply (nodup_In eq_dec); exact Hv|]. split.
  - intros v N. unfold prob. replace (count xs v) with 0%nat; [simpl; unfold Rdiv; ring|].
    symmetry. unfold count. apply count_occ_not_In. intros I. apply N. apply nodup_In. exact I.
  - apply prob_sum_distinct. exact NE.
Qed.

Lemma prob_pmf (xs : list Z) : xs <> [] -> is_pmf (unique xs) (prob xs).
Proof.
  intros NE. destruct (prob_pmf_distinct xs NE) as (_ & P & Z & S). split; [apply unique_NoDup|].
  split; [intros v Hv; apply prob_pos; apply unique_In; exact Hv|]. split.
  - intros v N. apply Z. intros I. apply N. apply unique_In. unfold distinct in I. rewrite nodup_In in I. exact I.
  - apply prob_sum1. exact NE.
Qed.

Lemma JSD_PJSD {A} `{EqDec A} (ds : list (list A)) : JSD ds = PJSD (map (fun d => (distinct d, prob d)) ds).
Proof.
  unfold JSD, PJSD, Rminus. rewrite map_map. cbn [fst]. rewrite sumf_map, map_length. cbn [fst snd]. f_equal.
  unfold PEnt. f_equal.
  assert (M : forall v, mixprob ds v = pmix (map (fun d => (distinct d, prob d)) ds) v).
  { intros v. unfold mixprob, pmix. rewrite sumf_map, map_length. reflexivity. }
  rewrite (sumf_ext _ (fun v => pmix (map (fun d => (distinct d, prob d)) ds) v * ln (pmix (map (fun d => (distinct d, prob d)) ds) v))) by (intros v _; rewrite M; reflexivity).
  apply sumf_perm. apply NoDup_Permutation; [apply NoDup_nodup|apply NoDup_nodup|]. intros x. unfold distinct. rewrite !nodup_In, !in_concat.
  split.
  - intros (l & Hl & Hx). exists (nodup eq_dec l). split; [apply (in_map (nodup eq_dec)); exact Hl|apply nodup_In; exact Hx].
  - intros (l & Hl & Hx). apply in_map_iff in Hl. destruct Hl as (m & <- & Hm). exists m. split; [exact Hm|]. apply nodup_In in Hx. exact Hx.
Qed.

(** the cross-entropy sum *)
Lemma common_In u v x : In x (common u v) <-> In x u /\ In x v.
Proof.
  unfold common. rewrite filter_In, nodup_In. destruct (in_dec Z.eq_dec x v); split; intros [P Q]; split; auto; discriminate.
Qed.

Lemma common_NoDup u v : NoDup (common u v).
Proof. apply NoDup_filter, NoDup_nodup. Qed.

Lemma cross_sum_ok b up uq (p q : Z -> R) : valid_base b -> (forall v, In v uq -> 0 < q v) ->
  cross_sum b up uq (combine up (map p up)) (combine uq (map q uq)) =
  Ok (- sumf (fun v => p v * ln (q v)) (common up uq) / unit_of b).
Proof.
  intros V Q. unfold cross_sum.
  rewrite (mapM_ok _ (fun v => p v * (ln (q v) / unit_of b))).
  - cbn [bind]. f_equal. unfold sumR. rewrite sumf_map. pose proof (unit_neq0 b V).
    rewrite (sumf_ext _ (fun v => p v * ln (q v) / unit_of b)) by (intros; field; assumption). rewrite sumf_div. field. assumption.
  - intros v Hv. apply common_In in Hv. destruct Hv as [H1 H2]. unfold dget_exn.
    rewrite (dget_combine p up v H1), (dget_combine q uq v H2). cbn [bind].
    rewrite log_base_ok by (auto; apply Q; exact H2). reflexivity.
Qed.

(** [discrete_cross]-like functions: when nothing is common the sum is 0 anyway *)
Lemma common_case {A} (l : list A) (r : res R) : (l = [] -> r = Ok 0) -> match l with [] => Ok 0 | _ => r end = r.
Proof. destruct l; [intros E; symmetry; apply E; reflexivity|reflexivity]. Qed.

Lemma discrete_cross_ok b (xs ys : list Z) : valid_base b -> xs <> [] -> ys <> [] ->
  discrete_cross b (dd_of xs) (dd_of ys) = Ok (- sumf (fun v => prob xs v * ln (prob ys v)) (common (unique xs) (unique ys)) / unit_of b).
Proof.
  intros V NX NY. unfold discrete_cross. cbn [dd_uniq dd_of].
  rewrite common_case.
  - unfold distribution_dict. rewrite !probs_dd_of. cbn [dd_uniq dd_of]. apply cross_sum_ok; [exact V|].
    intros v Hv. apply prob_pos, unique_In, Hv.
  - intros E. unfold cross_sum. rewrite E. cbn. f_equal. unfold sumR. simpl. lra.
Qed.

(** splitting a sum over a support at another support *)
Lemma sumf_split_common (f : Z -> R) u v : NoDup u ->
  sumf f u = sumf f (common u v) + sumf f (filter (fun x => if in_dec Z.eq_dec x v then false else true) u).
Proof.
  intros N. unfold common. rewrite nodup_fixed_point by exact N. clear N. induction u as [|x u IH]; simpl; [lra|].
  destruct (in_dec Z.eq_dec x v); simpl; rewrite IH; lra.
Qed.

(** KLD of the code for a pair of tabulated distributions *)
Definition CodeKL (U V : list Z) (p q : Z -> R) : R :=
  PKL (common U V) p q + sumf (fun v => p v * ln (p v)) (filter (fun x => if in_dec Z.eq_dec x V then false else true) U).

Lemma code_kl U V p q : NoDup U -> (forall v, In v U -> 0 < p v) -> (forall v, In v V -> 0 < q v) ->
  - sumf (fun v => p v * ln (q v)) (common U V) - PEnt U p = CodeKL U V p q.
Proof.
  intros N P Q. unfold PEnt, CodeKL, PKL.
  rewrite (sumf_split_common (fun v => p v * ln (p v)) U V N).
  rewrite (sumf_ext (fun v => p v * ln (p v / q v)) (fun v => p v * ln (p v) - p v * ln (q v))).
  - rewrite sumf_minus. lra.
  - intros v Hv. apply common_In in Hv. rewrite ln_div by (apply P || apply Q; apply Hv). ring.
Qed.

Lemma code_kl_incl U V p q : NoDup U -> incl U V -> CodeKL U V p q = PKL U p q.
Proof.
  intros N I. unfold CodeKL.
  replace (filter (fun x => if in_dec Z.eq_dec x V then false else true) U) with (@nil Z).
  - simpl. rewrite Rplus_0_r. unfold PKL. apply sumf_perm. apply NoDup_Permutation; [apply common_NoDup|exact N|].
    intros x. rewrite common_In. split; [tauto|]. intros Hx. split; [exact Hx|apply I; exact Hx].
  - clear N. induction U as [|u U IH]; [reflexivity|]. simpl. destruct (in_dec Z.eq_dec u V) as [_|C]; [apply IH; intros x Hx; apply I; right; exact Hx|].
    destruct C. apply I. left. reflexivity.
Qed.

Lemma Ent_PEnt_unique (xs : list Z) : PEnt (unique xs) (prob xs) = Ent xs.
Proof.
  unfold PEnt, Ent. f_equal. apply sumf_perm. apply NoDup_Permutation; [apply unique_NoDup|apply NoDup_nodup|].
  intros x. rewrite unique_In. unfold distinct. rewrite nodup_In. tauto.
Qed.

Lemma KL_PKL_unique (xs ys : list Z) : PKL (unique xs) (prob xs) (prob ys) = KL xs ys.
Proof.
  unfold PKL, KL. apply sumf_perm. apply NoDup_Permutation; [apply unique_NoDup|apply NoDup_nodup|].
  intros x. rewrite unique_In. unfold distinct. rewrite nodup_In. tauto.
Qed.

Lemma discrete_simple_ok b (xs : list Z) : valid_base b -> xs <> [] -> discrete_simple b (dd_of xs) = Ok (PEnt (unique xs) (prob xs) / unit_of b).
Proof.
  intros V NE. unfold discrete_simple. rewrite probs_dd_of, plogp_ok by (auto using probs_pos). unfold EntVec, PEnt. rewrite sumf_map. reflexivity.
Qed.
