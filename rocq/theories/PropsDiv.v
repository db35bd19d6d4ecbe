(** Property theorems: Kullback-Leibler (C27) and Jensen-Shannon divergence (C28). *)
From Coq Require Import Reals Lra Lia List ZArith Arith Bool Permutation.
From Verif Require Import Res RSum Spec SpecDiv SpecBase SpecEst Info Info2 Gibbs Ord MBase MData MEntropy MMI MTE MGeneric MEst SpecOrd MOrd MDiv PBase PEntropy PEst PEst2 PEst4 PMI5 POrd POrd2 POrd3 PDiv PDiv2 PropsOrd.
Import ListNotations.
Local Open Scope R_scope.

Lemma make_1d (xs : list Z) : xs <> [] -> make_data (EArr (A1 xs)) = Ok (dd_of xs).
Proof. exact (from_data_dd xs). Qed.

(** ** C27 *)

(** What the code computes for any two non-empty arrays: values of [p] outside the support of [q]
    contribute p ln p (the cross-entropy sum skips them) *)
Lemma kld_disc_gen b (ps qs : list Z) : valid_base b -> ps <> [] -> qs <> [] ->
  kld_disc b (A1 ps) (A1 qs) = Ok (CodeKL (unique ps) (unique qs) (prob ps) (prob qs) / unit_of b).
Proof.
  intros V NP NQ. unfold kld_disc, kld_of, cross_of, simple_of. rewrite !make_1d by assumption. cbn [bind].
  rewrite discrete_cross_ok, discrete_simple_ok by assumption. cbn [bind]. f_equal.
  rewrite <- code_kl.
  - pose proof (unit_neq0 b V). field. assumption.
  - apply unique_NoDup.
  - intros v Hv. apply prob_pos, unique_In, Hv.
  - intros v Hv. apply prob_pos, unique_In, Hv.
Qed.

Lemma incl_unique (ps qs : list Z) : incl ps qs -> incl (unique ps) (unique qs).
Proof. intros I x Hx. apply unique_In, I, unique_In, Hx. Qed.

(** when every value of [p] occurs in [q], the result is the KL divergence; it is non-negative and zero
    exactly for equal empirical distributions *)
Theorem C27_kld_discrete b (ps qs : list Z) : valid_base b -> ps <> [] -> incl ps qs ->
  kld_disc b (A1 ps) (A1 qs) = Ok (KL ps qs / unit_of b) /\
  (big_base b -> 0 <= KL ps qs / unit_of b) /\
  (KL ps qs / unit_of b = 0 <-> forall v, prob ps v = prob qs v).
Proof.
  intros V NP I. assert (NQ : qs <> []) by (destruct ps as [|x ps]; [congruence|intros ->; destruct (I x (or_introl eq_refl))]).
  pose proof (incl_unique ps qs I) as IU.
  rewrite kld_disc_gen, (code_kl_incl _ _ _ _ (unique_NoDup ps) IU), KL_PKL_unique by assumption. split; [reflexivity|].
  rewrite <- KL_PKL_unique. split.
  - intros B. apply big_div_nonneg; [exact B|]. apply (PKL_nonneg _ (unique qs)); [apply prob_pmf; exact NP|apply prob_pmf; exact NQ|exact IU].
  - rewrite <- (PKL_zero _ _ _ _ (prob_pmf ps NP) (prob_pmf qs NQ) IU). pose proof (unit_neq0 b V). split; intros E.
    + apply (Rmult_eq_reg_r (/ unit_of b)); [unfold Rdiv in E; rewrite E; ring|apply Rinv_neq_0_compat; assumption].
    + rewrite E. unfold Rdiv. ring.
Qed.
Print Assumptions C27_kld_discrete.

(** a different support: if [p] and [q] share no value the result is minus the entropy of [p] - neither
    infinite nor an error *)
Theorem C27_kld_disjoint b (ps qs : list Z) : valid_base b -> ps <> [] -> qs <> [] -> (forall v, In v ps -> ~ In v qs) ->
  kld_disc b (A1 ps) (A1 qs) = Ok (- (Ent ps / unit_of b)).
Proof.
  intros V NP NQ D. rewrite kld_disc_gen by assumption. f_equal. unfold CodeKL.
  replace (common (unique ps) (unique qs)) with (@nil Z).
  - unfold PKL. simpl sumf at 1.
    replace (filter _ (unique ps)) with (unique ps).
    + rewrite <- Ent_PEnt_unique. unfold PEnt. field. apply unit_neq0. exact V.
    + assert (G : forall l, (forall v, In v l -> ~ In v (unique qs)) -> l = filter (fun x => if in_dec Z.eq_dec x (unique qs) then false else true) l).
      { clear. induction l as [|x l IH]; intros G; [reflexivity|]. simpl. destruct (in_dec Z.eq_dec x (unique qs)) as [I|_].
        - destruct (G x (or_introl eq_refl) I).
        - f_equal. apply IH. intros v Hv. apply G. right. exact Hv. }
      apply G. intros v Hv Hq. apply (D v); apply unique_In; assumption.
  - destruct (common (unique ps) (unique qs)) as [|x l] eqn:E; [reflexivity|].
    assert (Hx : In x (common (unique ps) (unique qs))) by (rewrite E; left; reflexivity).
    apply common_In in Hx. destruct Hx as [H1 H2]. rewrite unique_In in H1, H2. destruct (D x H1 H2).
Qed.

Lemma Ent_01 : Ent [0; 1]%Z = ln 2.
Proof.
  unfold Ent, prob, count, distinct. change (nodup eq_dec [0; 1]%Z) with [0; 1]%Z. unfold sumf. simpl.
  replace (1 / (1 + 1)) with (/ 2) by lra. rewrite ln_Rinv by lra. lra.
Qed.

(** so the claim fails: mass of [p] where [q] has none gives a negative number (-ln 2) *)
Theorem C27_kld_negative_refuted :
  kld_disc BE (A1 [0; 1]%Z) (A1 [0]%Z) = Ok (- ln 2) /\ - ln 2 < 0 /\
  kld_disc BE (A1 [0; 1]%Z) (A1 [2]%Z) = Ok (- ln 2).
Proof.
  pose proof (ln_pos 2 ltac:(lra)). split; [|split; [lra|]].
  - rewrite kld_disc_gen by (exact Logic.I || discriminate). f_equal. unfold CodeKL, PKL.
    change (unique [0; 1]%Z) with [0; 1]%Z. change (unique [0]%Z) with [0]%Z.
    change (common [0; 1]%Z [0]%Z) with [0]%Z.
    change (filter (fun x : Z => if in_dec Z.eq_dec x [0]%Z then false else true) [0; 1]%Z) with [1]%Z.
    unfold sumf, prob, count. simpl.
    replace (1 / (1 + 1) / (1 / 1)) with (/ 2) by lra. replace (1 / (1 + 1)) with (/ 2) by lra. rewrite ln_Rinv by lra. lra.
  - rewrite C27_kld_disjoint; [|exact Logic.I|discriminate|discriminate|].
    + rewrite Ent_01. simpl. f_equal. lra.
    + intros v Hv Hq. simpl in *. lia.
Qed.

(** two-dimensional arrays are numbered separately, so divergences between them compare arbitrary labels:
    disjoint distributions get divergence 0 *)
Theorem C27_kld_2d_refuted : let p := A2 [[0; 0]; [1; 1]]%Z in let q := A2 [[5; 5]; [7; 7]]%Z in
  kld_disc BE p q = Ok 0 /\ forall r, In r (arr_rows p) -> ~ In r (arr_rows q).
Proof.
  cbv zeta. split.
  - change (kld_disc BE (A2 [[0; 0]; [1; 1]]%Z) (A2 [[5; 5]; [7; 7]]%Z)) with (kld_disc BE (A1 [0; 1]%Z) (A1 [0; 1]%Z)).
    destruct (C27_kld_discrete BE [0; 1]%Z [0; 1]%Z Logic.I ltac:(discriminate) (incl_refl _)) as (E & _ & Z).
    rewrite E. f_equal. apply Z. reflexivity.
  - simpl. intros r [<-|[<-|[]]] [E|[E|[]]]; discriminate.
Qed.

(** Miller-Madow: the two corrections do not cancel unless the samples agree in size and alphabet *)
Theorem C27_kld_mm b (ps qs : list Z) : valid_base b -> ps <> [] -> incl ps qs ->
  let Kp := INR (nvals ps) in let Kq := INR (nvals qs) in
  let Np := INR (length ps) in let Nq := INR (length qs) in
  kld_mm b (A1 ps) (A1 qs) = Ok ((KL ps qs + ((Kp + Kq) / 2 - 1) / (Np + Nq) - (Kp - 1) / (2 * Np)) / unit_of b).
Proof.
  intros V NP I Kp Kq Np Nq. assert (NQ : qs <> []) by (destruct ps as [|x r]; [congruence|intros ->; destruct (I x (or_introl eq_refl))]).
  pose proof (incl_unique ps qs I) as IU. pose proof (unit_neq0 b V) as UN.
  assert (HP : 0 < Np) by (apply inr_len_pos; exact NP). assert (HQ : 0 < Nq) by (apply inr_len_pos; exact NQ).
  unfold kld_mm, kld_of, cross_of, simple_of. rewrite !make_1d by assumption. cbn [bind].
  unfold mm_cross. cbn [dd_uniq dd_of]. rewrite !dd_N_of, !dd_K_of. fold Kp Kq.
  assert (C : common (unique ps) (unique qs) <> []).
  { intros E. destruct ps as [|x r]; [congruence|]. assert (Hx : In x (common (unique (x :: r)) (unique qs))).
    { apply common_In. split; apply unique_In; [left; reflexivity|apply I; left; reflexivity]. } rewrite E in Hx. destruct Hx. }
  destruct (common (unique ps) (unique qs)) as [|c cs] eqn:EC; [congruence|]. clear C.
  assert (CO : match b with
     | BE => np_div ((Kp + Kq) / 2 - 1) (IZR (Z.of_nat (length ps) + Z.of_nat (length qs)))
     | BNum r => if Req_EM_T r 0 then Ok 0 else
        let* lb := np_log r in np_div ((Kp + Kq) / 2 - 1) (IZR (Z.of_nat (length ps) + Z.of_nat (length qs)) * lb) end
     = Ok (((Kp + Kq) / 2 - 1) / (Np + Nq) / unit_of b)).
  { rewrite plus_IZR, <- !INR_IZR_INZ. fold Np Nq. destruct b as [|r].
    - rewrite np_div_ok by lra. simpl. f_equal. field. lra.
    - destruct V as [V1 V2]. destruct (Req_EM_T r 0); [lra|]. rewrite np_log_ok by exact V1. cbn [bind].
      simpl in UN. rewrite np_div_ok by (apply Rmult_integral_contrapositive; split; lra). simpl. f_equal. field. lra. }
  rewrite CO. cbn [bind]. unfold distribution_dict. rewrite !probs_dd_of. cbn [dd_uniq dd_of].
  rewrite cross_sum_ok; [|exact V|intros v Hv; apply prob_pos, unique_In, Hv]. cbn [bind].
  unfold mm_simple, mm_factor. rewrite dd_N_of, dd_K_of. fold Kp. rewrite np_div_ok by (rewrite <- INR_IZR_INZ; fold Np; lra).
  cbn [bind]. rewrite to_base_ok by exact V. cbn [bind]. fold (discrete_simple b (dd_of ps)). rewrite discrete_simple_ok by assumption.
  cbn [bind]. f_equal. rewrite <- INR_IZR_INZ. fold Np.
  assert (E : - sumf (fun v => prob ps v * ln (prob qs v)) (common (unique ps) (unique qs)) - PEnt (unique ps) (prob ps) = KL ps qs).
  { rewrite code_kl; [|apply unique_NoDup|intros v Hv; apply prob_pos, unique_In, Hv|intros v Hv; apply prob_pos, unique_In, Hv].
    rewrite (code_kl_incl _ _ _ _ (unique_NoDup ps) IU). apply KL_PKL_unique. }
  rewrite <- E. field. repeat split; lra.
Qed.

(** a sample against itself gives 0; against a larger sample with the same distribution it is negative *)
Theorem C27_kld_mm_self b (ps : list Z) : valid_base b -> ps <> [] -> kld_mm b (A1 ps) (A1 ps) = Ok 0.
Proof.
  intros V NE. rewrite (C27_kld_mm b ps ps V NE (incl_refl _)). f_equal.
  pose proof (inr_len_pos ps NE). pose proof (unit_neq0 b V).
  assert (E : KL ps ps = 0) by (rewrite <- KL_PKL_unique; apply (PKL_zero _ (unique ps)); auto using prob_pmf, incl_refl).
  rewrite E. field. split; lra.
Qed.

Lemma KL_0101 : KL [0; 1]%Z [0; 1; 0; 1]%Z = 0.
Proof.
  rewrite <- KL_PKL_unique. apply (PKL_zero _ (unique [0; 1; 0; 1]%Z)); try (apply prob_pmf; discriminate).
  - intros x Hx. exact Hx.
  - intros v. unfold prob, count, count_occ. cbn [length].
    destruct (eq_dec 0%Z v), (eq_dec 1%Z v); simpl; try lra; congruence.
Qed.

Theorem C27_kld_mm_negative_refuted : kld_mm BE (A1 [0; 1]%Z) (A1 [0; 1; 0; 1]%Z) = Ok (- (1 / 12)).
Proof.
  rewrite C27_kld_mm; [|exact Logic.I|discriminate|intros x Hx; simpl in *; tauto].
  f_equal. rewrite KL_0101. unfold nvals. change (distinct [0; 1]%Z) with [0; 1]%Z. change (distinct [0; 1; 0; 1]%Z) with [0; 1]%Z.
  simpl. field.
Qed.

(** non-vacuous: different distributions on the same values *)
Example C27_example : exists v, kld_disc (BNum 2) (A1 [0; 0; 1]%Z) (A1 [0; 1; 1; 2]%Z) = Ok v /\ 0 < v.
Proof.
  assert (V : valid_base (BNum 2)) by (simpl; lra). assert (B : big_base (BNum 2)) by (simpl; lra).
  destruct (C27_kld_discrete (BNum 2) [0; 0; 1]%Z [0; 1; 1; 2]%Z V ltac:(discriminate)) as (E & P & Z).
  - intros x Hx. simpl in *. intuition.
  - eexists. split; [exact E|]. destruct (P B) as [L|L]; [exact L|]. exfalso. symmetry in L. pose proof (proj1 Z L 0%Z) as L0. clear L; rename L0 into L.
    unfold prob, count in L. simpl in L. lra.
Qed.

(** ** C28 *)
Lemma mapM_make (cols : list (list Z)) : Forall (fun c => c <> []) cols ->
  mapM (fun a => make_data (EArr a)) (map A1 cols) = Ok (map dd_of cols).
Proof.
  intros F. induction F as [|c cols N F IH]; [reflexivity|]. cbn [map mapM]. rewrite make_1d by exact N. cbn [bind]. rewrite IH. reflexivity.
Qed.

Lemma JSD_facts {A} `{EqDec A} (ds : list (list A)) : ds <> [] -> Forall (fun c => c <> []) ds ->
  0 <= JSD ds <= ln (INR (length ds)) /\
  (JSD ds = 0 <-> forall d e v, In d ds -> In e ds -> prob d v = prob e v).
Proof.
  intros NE F. rewrite JSD_PJSD.
  set (ps := map (fun d => (distinct d, prob d)) ds).
  assert (N : ps <> []) by (unfold ps; destruct ds; [congruence|discriminate]).
  assert (P : forall d, In d ps -> is_pmf (fst d) (snd d)).
  { intros d Hd. apply in_map_iff in Hd. destruct Hd as (e & <- & He). cbn [fst snd]. apply prob_pmf_distinct. rewrite Forall_forall in F. auto. }
  split.
  - split; [apply js_nonneg; assumption|]. replace (INR (length ds)) with (INR (length ps)) by (unfold ps; rewrite map_length; reflexivity). apply js_le; assumption.
  - rewrite (js_zero ps N P). split; intros E.
    + intros d e v Hd He. apply (E (distinct d, prob d) (distinct e, prob e) v); apply (in_map (fun d => (distinct d, prob d))); assumption.
    + intros d e v Hd He. apply in_map_iff in Hd, He. destruct Hd as (d' & <- & Hd), He as (e' & <- & He). apply E; assumption.
Qed.

Theorem C28_jsd_discrete b (ds : list (list Z)) : valid_base b -> ds <> [] -> Forall (fun c => c <> []) ds ->
  jsd_discrete b (map A1 ds) = Ok (JSD ds / unit_of b) /\
  (big_base b -> 0 <= JSD ds / unit_of b <= ln (INR (length ds)) / unit_of b) /\
  (JSD ds / unit_of b = 0 <-> forall d e v, In d ds -> In e ds -> prob d v = prob e v).
Proof.
  intros V NE F. destruct (JSD_facts ds NE F) as [[J0 J1] JZ]. split; [|split].
  - unfold jsd_discrete. rewrite mapM_make by exact F. cbn [bind].
    rewrite (mapM_map_ok _ _ (fun c => PEnt (unique c) (prob c) / unit_of b)).
    2:{ intros c Hc. rewrite Forall_forall in F. apply discrete_simple_ok; auto. }
    cbn [bind]. rewrite JSD_PJSD.
    replace (map (fun c => PEnt (unique c) (prob c) / unit_of b) ds) with
      (map (fun d => PEnt (fst d) (snd d) / unit_of b) (map (fun c : list Z => (distinct c, prob c)) ds)).
    2:{ rewrite map_map. apply map_ext. intros c. cbn [fst snd]. rewrite Ent_PEnt_unique. reflexivity. }
    apply jsd_of_ok; [exact V|destruct ds; [congruence|discriminate]| |].
    + clear -F. induction F as [|c ds N F IH]; [constructor|]. cbn [map]. constructor; [|exact IH].
      unfold distribution_dict. rewrite probs_dd_of. cbn [dd_uniq dd_of].
      destruct (dict_combine (unique c) (prob c) (unique_NoDup c)) as [D1 D2]. split; [exact D1|]. intros k v. rewrite D2. cbn [fst snd].
      rewrite unique_In. unfold distinct. rewrite nodup_In. tauto.
    + intros d Hd. apply in_map_iff in Hd. destruct Hd as (c & <- & Hc). cbn [fst snd]. apply prob_pmf_distinct.
      rewrite Forall_forall in F. auto.
  - intros B. split; [apply big_div_nonneg|apply big_div_le]; assumption.
  - rewrite <- JZ. pose proof (unit_neq0 b V). split; intros E; [|rewrite E; unfold Rdiv; ring].
    apply (Rmult_eq_reg_r (/ unit_of b)); [unfold Rdiv in E; rewrite E; ring|apply Rinv_neq_0_compat; assumption].
Qed.
Print Assumptions C28_jsd_discrete.

(** the order of the arguments is irrelevant *)
Theorem C28_jsd_symmetric b (ds es : list (list Z)) : valid_base b -> ds <> [] -> Forall (fun c => c <> []) ds -> Permutation ds es ->
  jsd_discrete b (map A1 es) = jsd_discrete b (map A1 ds).
Proof.
  intros V NE F P. rewrite (proj1 (C28_jsd_discrete b ds V NE F)).
  assert (NE' : es <> []) by (intros ->; apply NE, Permutation_nil; symmetry; exact P).
  rewrite (proj1 (C28_jsd_discrete b es V NE' (Permutation_Forall P F))).
  rewrite !JSD_PJSD. f_equal. f_equal. apply js_perm. apply Permutation_map. symmetry. exact P.
Qed.

(** no data: ZeroDivisionError; an empty array: ValueError *)
Theorem C28_jsd_rejects b (vars : list arr) :
  jsd_discrete b [] = Raise ZeroDivisionError /\ jsd_discrete b (A1 [] :: vars) = Raise ValueError.
Proof. split; reflexivity. Qed.

(** two-dimensional arrays are numbered separately: disjoint distributions get divergence 0 *)
Theorem C28_jsd_2d_refuted : jsd_discrete BE [A2 [[0; 0]; [1; 1]]; A2 [[5; 5]; [7; 7]]]%Z = Ok 0.
Proof.
  change (jsd_discrete BE [A2 [[0; 0]; [1; 1]]; A2 [[5; 5]; [7; 7]]]%Z) with (jsd_discrete BE (map A1 [[0; 1]; [0; 1]]%Z)).
  destruct (C28_jsd_discrete BE [[0; 1]; [0; 1]]%Z Logic.I ltac:(discriminate) ltac:(repeat constructor; discriminate)) as (E & _ & Z).
  rewrite E. f_equal. apply Z. intros d e v [<-|[<-|[]]] [<-|[<-|[]]]; reflexivity.
Qed.

(** shrinkage and Bayes: the Jensen-Shannon divergence of the estimated distributions *)
Lemma restrict_pmf (xs : list Z) f : xs <> [] -> (forall v, In v xs -> 0 < f v) -> sumf f (distinct xs) = 1 ->
  is_pmf (unique xs) (restrict (unique xs) f).
Proof.
  intros NE P S. split; [apply unique_NoDup|]. unfold restrict. split; [|split].
  - intros v Hv. destruct (in_dec eq_dec v (unique xs)); [|contradiction]. apply P, unique_In, Hv.
  - intros v N. destruct (in_dec eq_dec v (unique xs)); [contradiction|reflexivity].
  - rewrite <- S, <- sum_unique. apply sumf_ext. intros v Hv. destruct (in_dec eq_dec v (unique xs)); [reflexivity|contradiction].
Qed.

Lemma restrict_map (U : list Z) f : map (restrict U f) U = map f U.
Proof.
  assert (G : forall V W, incl V W -> map (restrict W f) V = map f V).
  { clear. intros V W I. apply map_ext_in. intros v Hv. unfold restrict. destruct (in_dec eq_dec v W) as [|N]; [reflexivity|destruct N; apply I; exact Hv]. }
  apply G, incl_refl.
Qed.

Lemma PEnt_restrict (U : list Z) f : PEnt U (restrict U f) = - sumf (fun v => f v * ln (f v)) U.
Proof.
  unfold PEnt. f_equal. apply sumf_ext. intros v Hv. unfold restrict. destruct (in_dec eq_dec v U); [reflexivity|contradiction].
Qed.

Lemma jsd_probs_ok b probs (f : list Z -> Z -> R) (ds : list (list Z)) : valid_base b -> ds <> [] -> Forall (fun c => c <> []) ds ->
  (forall c, In c ds -> probs (dd_of c) = Ok (map (f c) (unique c)) /\ (forall v, In v c -> 0 < f c v) /\ sumf (f c) (distinct c) = 1) ->
  let ps := map (fun c => (unique c, restrict (unique c) (f c))) ds in
  jsd_probs probs b (map A1 ds) = Ok (PJSD ps / unit_of b) /\
  (big_base b -> 0 <= PJSD ps / unit_of b <= ln (INR (length ds)) / unit_of b) /\
  (PJSD ps = 0 <-> forall d e v, In d ps -> In e ps -> snd d v = snd e v).
Proof.
  intros V NE F P ps. pose proof F as F'. rewrite Forall_forall in F'.
  assert (PM : forall d, In d ps -> is_pmf (fst d) (snd d)).
  { intros d Hd. apply in_map_iff in Hd. destruct Hd as (c & <- & Hc). destruct (P c Hc) as (_ & P1 & P2). apply restrict_pmf; auto. }
  assert (N : ps <> []) by (unfold ps; destruct ds; [congruence|discriminate]).
  split; [|split].
  - unfold jsd_probs. rewrite mapM_make by exact F. cbn [bind].
    rewrite (mapM_map_ok _ _ (fun c => PEnt (unique c) (restrict (unique c) (f c)) / unit_of b)).
    2:{ intros c Hc. destruct (P c Hc) as (E & P1 & P2). rewrite E. cbn [bind]. rewrite plogp_ok; [|exact V|].
        - f_equal. f_equal. rewrite PEnt_restrict. unfold EntVec. rewrite sumf_map. reflexivity.
        - apply Forall_forall. intros y Hy. apply in_map_iff in Hy. destruct Hy as (v & <- & Hv). apply P1, unique_In, Hv. }
    cbn [bind]. rewrite (mapM_map_ok _ _ (fun c => map (f c) (unique c))) by (intros c Hc; apply (P c Hc)). cbn [bind].
    replace (map (fun c => PEnt (unique c) (restrict (unique c) (f c)) / unit_of b) ds) with
      (map (fun d => PEnt (fst d) (snd d) / unit_of b) ps) by (unfold ps; rewrite map_map; reflexivity).
    apply jsd_of_ok; [exact V|exact N| |exact PM].
    unfold ps. clear. induction ds as [|c ds IH]; [constructor|]. cbn [map combine fst snd dd_uniq dd_of]. constructor; [|exact IH].
    rewrite <- (restrict_map (unique c) (f c)). apply dict_combine, unique_NoDup.
  - intros B. replace (INR (length ds)) with (INR (length ps)) by (unfold ps; rewrite map_length; reflexivity).
    split; [apply big_div_nonneg|apply big_div_le]; try exact B; [apply js_nonneg|apply js_le]; assumption.
  - apply js_zero; assumption.
Qed.

Theorem C28_jsd_shrink b (ds : list (list Z)) : valid_base b -> ds <> [] -> Forall (fun c => c <> []) ds ->
  let ps := map (fun c => (unique c, restrict (unique c) (shrunk c))) ds in
  jsd_shrink b (map A1 ds) = Ok (PJSD ps / unit_of b) /\
  (big_base b -> 0 <= PJSD ps / unit_of b <= ln (INR (length ds)) / unit_of b) /\
  (PJSD ps = 0 <-> forall d e v, In d ps -> In e ps -> snd d v = snd e v).
Proof.
  intros V NE F. apply jsd_probs_ok; try assumption. intros c Hc. rewrite Forall_forall in F.
  split; [apply shrink_probs_ok; auto|]. split; [intros v Hv; apply shrunk_pos; auto|apply shrunk_sum; auto].
Qed.

Lemma bayes_probs_ok a (xs : list Z) : 0 < a -> xs <> [] ->
  bayes_probs (AlphaNum a) None (dd_of xs) = Ok (map (posterior a (INR (nvals xs)) xs) (unique xs)).
Proof.
  intros Ha NE. unfold bayes_probs. cbn [bayes_K get_alpha bind]. rewrite dd_counts_of, dd_N_of, dd_K_of.
  apply mapM_map_ok. intros v _. rewrite <- !INR_IZR_INZ. apply np_div_ok.
  pose proof (inr_len_pos xs NE). pose proof (pos_INR (nvals xs)).
  assert (0 <= INR (nvals xs) * a) by (apply Rmult_le_pos; lra). lra.
Qed.

Theorem C28_jsd_bayes b a (ds : list (list Z)) : valid_base b -> 0 < a -> ds <> [] -> Forall (fun c => c <> []) ds ->
  let ps := map (fun c => (unique c, restrict (unique c) (posterior a (INR (nvals c)) c))) ds in
  jsd_bayes (AlphaNum a) None b (map A1 ds) = Ok (PJSD ps / unit_of b) /\
  (big_base b -> 0 <= PJSD ps / unit_of b <= ln (INR (length ds)) / unit_of b) /\
  (PJSD ps = 0 <-> forall d e v, In d ps -> In e ps -> snd d v = snd e v).
Proof.
  intros V Ha NE F.
  apply (jsd_probs_ok b (bayes_probs (AlphaNum a) None) (fun c => posterior a (INR (nvals c)) c)); try assumption. intros c Hc. rewrite Forall_forall in F.
  split; [apply bayes_probs_ok; auto|]. split; [intros v Hv; apply posterior_pos; auto; apply pos_INR|].
  apply posterior_sum1; auto. apply pos_INR.
Qed.

Example C28_example : exists v, jsd_discrete (BNum 2) (map A1 [[0; 1]; [1; 1; 2]; [5]]%Z) = Ok v /\ 0 < v <= ln 3 / ln 2.
Proof.
  destruct (C28_jsd_discrete (BNum 2) [[0; 1]; [1; 1; 2]; [5]]%Z ltac:(simpl; lra) ltac:(discriminate) ltac:(repeat constructor; discriminate)) as (E & P & Z).
  eexists. split; [exact E|]. specialize (P ltac:(simpl; lra)). cbn [length] in P.
  replace (INR 3) with 3 in P by (simpl; lra). split; [|apply P].
  destruct P as [[L|L] _]; [exact L|]. exfalso. symmetry in L. pose proof (proj1 Z L [0; 1]%Z [5]%Z 5%Z ltac:(simpl; auto) ltac:(simpl; auto)) as X.
  unfold prob, count in X. simpl in X. lra.
Qed.
