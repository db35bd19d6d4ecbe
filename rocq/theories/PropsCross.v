(** Property theorems: cross-entropy of symbols (C99). *)
From Coq Require Import Reals Lra Lia List ZArith Arith Bool Permutation.
From Verif Require Import Res RSum Spec SpecDiv SpecCross SpecBase SpecEst Info Info2 Gibbs Ord MBase MData MEntropy MMI MTE MGeneric MEst SpecOrd MOrd MDiv PBase PEntropy PEst PEst2 PEst4 PMI5 POrd POrd2 POrd3 PDiv PDiv2 PropsOrd PropsDiv PropsDiv2.
Import ListNotations.
Local Open Scope R_scope.

(** [entropy(p, q, approach=...)] for two arrays (base.py 366-388) *)
Definition cross_discrete := cross_of discrete_cross.
Definition cross_mm := cross_of mm_cross.
Definition cross_bayes (a : alpha_arg) (K : option Z) := cross_of (bayes_cross a K).

Section General.
Context {A : Type} `{EqDec A}.
Implicit Types ps qs : list A.
Lemma shared_In ps qs v : In v (shared ps qs) <-> In v ps /\ In v qs.
Proof.
  unfold shared. rewrite filter_In. rewrite (distinct_In ps v). destruct (in_dec eq_dec v qs); split; intros [X Y]; split; auto; discriminate.
Qed.
Lemma shared_NoDup ps qs : NoDup (shared ps qs).
Proof. apply NoDup_filter, NoDup_nodup. Qed.
Lemma shared_perm ps qs ps' qs' : Permutation ps ps' -> Permutation qs qs' -> Permutation (shared ps qs) (shared ps' qs').
Proof.
  intros P Q. apply NoDup_Permutation; [apply shared_NoDup..|]. intros v. rewrite !shared_In.
  split; intros [X Y]; split.
  - apply (Permutation_in _ P X).
  - apply (Permutation_in _ Q Y).
  - apply (Permutation_in _ (Permutation_sym P) X).
  - apply (Permutation_in _ (Permutation_sym Q) Y).
Qed.
Lemma shared_incl ps qs : incl ps qs -> Permutation (shared ps qs) (distinct ps).
Proof.
  intros I. apply NoDup_Permutation; [apply shared_NoDup|apply NoDup_nodup|]. intros v. rewrite shared_In, (distinct_In ps v). split; [tauto|]. intros X; split; [exact X|apply I, X].
Qed.
Lemma prob_le1 ps v : 0 <= prob ps v <= 1.
Proof.
  destruct ps as [|x ps]; [unfold prob; cbn; unfold Rdiv; rewrite Rmult_0_l; lra|].
  unfold prob. assert (0 < INR (length (x :: ps))) by (apply lt_0_INR; cbn; lia). split.
  - apply Rmult_le_pos; [apply pos_INR|left; apply Rinv_0_lt_compat; assumption].
  - apply (Rmult_le_reg_r (INR (length (x :: ps)))); [assumption|]. unfold Rdiv. rewrite Rmult_assoc, Rinv_l, Rmult_1_r, Rmult_1_l by lra. apply le_INR. unfold count. apply count_occ_bound.
Qed.
Lemma cross_nonneg ps qs : 0 <= CrossEnt ps qs.
Proof.
  unfold CrossEnt, shared_sum. rewrite <- sumf_opp. apply sumf_nonneg. intros v Hv. apply shared_In in Hv.
  pose proof (prob_le1 ps v) as P. pose proof (prob_le1 qs v) as Q. pose proof (prob_pos qs v (proj2 Hv)) as Q0.
  assert (ln (prob qs v) <= 0) by (rewrite <- ln_1; apply ln_monotone; lra).
  assert (0 <= prob ps v * - ln (prob qs v)) by (apply Rmult_le_pos; lra). lra.
Qed.
Lemma cross_incl ps qs : incl ps qs -> CrossEnt ps qs = FullCross ps qs.
Proof. intros I. unfold CrossEnt, shared_sum, FullCross. f_equal. apply sumf_perm, shared_incl, I. Qed.
Lemma cross_KL ps qs : incl ps qs -> FullCross ps qs = Ent ps + KL ps qs.
Proof.
  intros I. unfold FullCross, Ent, KL.
  rewrite (sumf_ext (fun v => prob ps v * ln (prob ps v / prob qs v)) (fun v => prob ps v * ln (prob ps v) - prob ps v * ln (prob qs v))).
  - rewrite sumf_minus. lra.
  - intros v Hv. rewrite (distinct_In ps v) in Hv. rewrite ln_div; [ring|apply prob_pos, Hv|apply prob_pos, I, Hv].
Qed.
End General.

Lemma common_shared (ps qs : list Z) : Permutation (common (unique ps) (unique qs)) (shared ps qs).
Proof.
  apply NoDup_Permutation; [apply common_NoDup|apply shared_NoDup|]. intros v. rewrite common_In, shared_In, !unique_In. reflexivity.
Qed.
Lemma common_sum (p q : Z -> R) ps qs : - sumf (fun v => p v * ln (q v)) (common (unique ps) (unique qs)) = shared_sum p q ps qs.
Proof. unfold shared_sum. f_equal. apply sumf_perm, common_shared. Qed.

(** ** C99: what is computed *)
(** for any two non-empty arrays the sum runs over the values that occur in both *)
Theorem C99_discrete_value b (ps qs : list Z) : valid_base b -> ps <> [] -> qs <> [] ->
  cross_discrete b (A1 ps) (A1 qs) = Ok (CrossEnt ps qs / unit_of b).
Proof.
  intros V NP NQ. unfold cross_discrete, cross_of. rewrite !make_1d by assumption. cbn [bind].
  rewrite discrete_cross_ok by assumption. rewrite common_sum. reflexivity.
Qed.
Theorem C99_empty_refused b (ps qs : list Z) : ps = [] \/ qs = [] -> exists e, cross_discrete b (A1 ps) (A1 qs) = Raise e /\ cross_mm b (A1 ps) (A1 qs) = Raise e.
Proof.
  intros [->| ->].
  - eexists. split; reflexivity.
  - destruct ps as [|x ps]; [eexists; split; reflexivity|]. unfold cross_discrete, cross_mm, cross_of. rewrite !make_1d by discriminate. cbn [bind]. eexists. split; reflexivity.
Qed.

(** Miller-Madow adds a correction unless no value is shared *)
Theorem C99_mm_value b (ps qs : list Z) : valid_base b -> ps <> [] -> qs <> [] ->
  let Kp := INR (nvals ps) in let Kq := INR (nvals qs) in
  let Np := INR (length ps) in let Nq := INR (length qs) in
  cross_mm b (A1 ps) (A1 qs) = Ok (match shared ps qs with [] => 0 | _ => (CrossEnt ps qs + ((Kp + Kq) / 2 - 1) / (Np + Nq)) / unit_of b end).
Proof.
  intros V NP NQ Kp Kq Np Nq. pose proof (unit_neq0 b V) as UN.
  assert (HP : 0 < Np) by (apply inr_len_pos; exact NP). assert (HQ : 0 < Nq) by (apply inr_len_pos; exact NQ).
  unfold cross_mm, cross_of. rewrite !make_1d by assumption. cbn [bind].
  unfold mm_cross. cbn [dd_uniq dd_of]. rewrite !dd_N_of, !dd_K_of. fold Kp Kq.
  pose proof (common_shared ps qs) as PS.
  assert (CO : match b with
     | BE => np_div ((Kp + Kq) / 2 - 1) (IZR (Z.of_nat (length ps) + Z.of_nat (length qs)))
     | BNum r => if Req_EM_T r 0 then Ok 0 else
        let* lb := np_log r in np_div ((Kp + Kq) / 2 - 1) (IZR (Z.of_nat (length ps) + Z.of_nat (length qs)) * lb) end
     = Ok (((Kp + Kq) / 2 - 1) / (Np + Nq) / unit_of b)).
  { rewrite plus_IZR, <- !INR_IZR_INZ. fold Np Nq. destruct b as [|r].
    - rewrite np_div_ok by lra. simpl. f_equal. field. lra.
    - destruct V as [V1 V2]. destruct (Req_EM_T r 0); [lra|]. rewrite np_log_ok by exact V1. cbn [bind].
      simpl in UN. rewrite np_div_ok by (apply Rmult_integral_contrapositive; split; lra). simpl. f_equal. field. lra. }
  rewrite CO. clear CO. cbn [bind].
  assert (CS : cross_sum b (unique ps) (unique qs) (distribution_dict (dd_of ps)) (distribution_dict (dd_of qs)) = Ok (CrossEnt ps qs / unit_of b)).
  { unfold distribution_dict. rewrite !probs_dd_of. cbn [dd_uniq dd_of]. rewrite cross_sum_ok; [|exact V|intros v Hv; apply prob_pos, unique_In, Hv]. rewrite common_sum. reflexivity. }
  rewrite CS. clear CS. cbn [bind].
  destruct (common (unique ps) (unique qs)) as [|c cs]; destruct (shared ps qs) as [|d ds].
  - reflexivity.
  - apply Permutation_nil in PS. discriminate.
  - apply Permutation_sym, Permutation_nil in PS. discriminate.
  - f_equal. field. split; [lra|exact UN].
Qed.
(** Bayes: the same sum with the posterior weights of each sample *)
Theorem C99_bayes_value b a (ps qs : list Z) : valid_base b -> 0 < a -> ps <> [] -> qs <> [] ->
  cross_bayes (AlphaNum a) None b (A1 ps) (A1 qs) =
  Ok (shared_sum (posterior a (INR (nvals ps)) ps) (posterior a (INR (nvals qs)) qs) ps qs / unit_of b).
Proof.
  intros V Ha NP NQ. unfold cross_bayes, cross_of. rewrite !make_1d by assumption. cbn [bind]. unfold bayes_cross. cbn [get_alpha bind bayes_K dd_uniq dd_of].
  pose proof (bayes_probs_ok a ps Ha NP) as B1. pose proof (bayes_probs_ok a qs Ha NQ) as B2.
  unfold bayes_probs in B1, B2. cbn [get_alpha bind bayes_K] in B1, B2. rewrite B1, B2. cbn [bind].
  rewrite common_case.
  2:{ intros E. unfold cross_sum. rewrite E. cbn. f_equal. unfold sumR. simpl. lra. }
  rewrite cross_sum_ok; [|exact V|intros v Hv; apply posterior_pos; auto; try apply pos_INR].
  rewrite common_sum. reflexivity.
Qed.

(** ** C99: Gibbs' inequality *)
(** When every value of [p] occurs in [q], the cross-entropy is -sum p ln q; it is never below the entropy of [p] and
    equals it exactly for equal distributions. *)
Theorem C99_gibbs b (ps qs : list Z) : big_base b -> ps <> [] -> incl ps qs ->
  cross_discrete b (A1 ps) (A1 qs) = Ok (FullCross ps qs / unit_of b) /\
  exists h, entropy_discrete b (EArr (A1 ps)) = Ok h /\ h <= FullCross ps qs / unit_of b /\
    (FullCross ps qs / unit_of b = h <-> forall v, prob ps v = prob qs v).
Proof.
  intros B NP I. assert (V : valid_base b) by (apply big_valid; exact B).
  assert (NQ : qs <> []) by (destruct ps as [|x r]; [congruence|intros ->; destruct (I x (or_introl eq_refl))]).
  rewrite C99_discrete_value, cross_incl by assumption. split; [reflexivity|].
  exists (Ent ps / unit_of b). destruct (C27_kld_discrete b ps qs V NP I) as (_ & K0 & KZ). specialize (K0 B). pose proof (unit_neq0 b V) as UN.
  rewrite (cross_KL ps qs I). unfold Rdiv in *. rewrite Rmult_plus_distr_r. split; [|split; [lra|]].
  - unfold entropy_discrete. rewrite make_1d by exact NP. cbn [bind]. rewrite discrete_simple_ok by assumption. rewrite Ent_PEnt_unique. reflexivity.
  - rewrite <- KZ. split; lra.
Qed.
Print Assumptions C99_gibbs.
(** in particular the cross-entropy of two samples with equal frequencies is the entropy of either *)
Theorem C99_equal_distributions b (ps qs : list Z) : valid_base b -> ps <> [] -> qs <> [] -> (forall v, prob ps v = prob qs v) ->
  cross_discrete b (A1 ps) (A1 qs) = entropy_discrete b (EArr (A1 ps)).
Proof.
  intros V NP NQ E.
  assert (I : incl ps qs).
  { intros v Hv. destruct (in_dec Z.eq_dec v qs) as [Y|N]; [exact Y|]. pose proof (prob_pos ps v Hv) as P. rewrite E in P. unfold prob, count in P.
    rewrite (proj1 (count_occ_not_In eq_dec qs v) N) in P. cbn [INR] in P. unfold Rdiv in P. rewrite Rmult_0_l in P. lra. }
  rewrite C99_discrete_value, cross_incl by assumption. unfold entropy_discrete. rewrite make_1d by exact NP. cbn [bind].
  rewrite discrete_simple_ok by assumption. rewrite Ent_PEnt_unique. f_equal. f_equal. unfold FullCross, Ent. f_equal. apply sumf_ext. intros v _. rewrite E. reflexivity.
Qed.
(** never negative, and always finite *)
Theorem C99_nonneg b (ps qs : list Z) : big_base b -> ps <> [] -> qs <> [] -> exists h, cross_discrete b (A1 ps) (A1 qs) = Ok h /\ 0 <= h.
Proof.
  intros B NP NQ. assert (V : valid_base b) by (apply big_valid; exact B). exists (CrossEnt ps qs / unit_of b). split; [apply C99_discrete_value; assumption|].
  apply big_div_nonneg; [exact B|apply cross_nonneg].
Qed.
(** Bayes: Gibbs' inequality for the posterior distributions *)
Theorem C99_gibbs_bayes b a (ps qs : list Z) : big_base b -> 0 < a -> ps <> [] -> incl ps qs ->
  exists c h, cross_bayes (AlphaNum a) None b (A1 ps) (A1 qs) = Ok c /\ e_global (est_bayes (AlphaNum a) None) b (dd_of ps) = Ok h /\ h <= c.
Proof.
  intros B Ha NP I. assert (V : valid_base b) by (apply big_valid; exact B).
  assert (NQ : qs <> []) by (destruct ps as [|x r]; [congruence|intros ->; destruct (I x (or_introl eq_refl))]).
  destruct (C27_kld_bayes b a ps qs V Ha NP I) as (E & _ & _ & K0 & _). specialize (K0 B).
  unfold kld_bayes, kld_of in E. fold (cross_bayes (AlphaNum a) None) in E. rewrite C99_bayes_value in * by assumption. cbn [bind] in E.
  unfold simple_of in E. rewrite make_1d in E by exact NP. cbn [bind] in E. unfold e_global, est_bayes. cbn [e_calc].
  destruct (bayes_simple (AlphaNum a) None b (dd_of ps)) as [h| |]; [|discriminate E|discriminate E]. cbn [bind rmap] in *. injection E as E.
  eexists _, h. split; [reflexivity|]. split; [reflexivity|]. lra.
Qed.

(** ** C99: invariances *)
Section Inv.
Context {A B : Type} `{EqDec A} `{EqDec B}.
Lemma shared_relabel (f : A -> B) ps qs : (forall x y, In x (ps ++ qs) -> In y (ps ++ qs) -> f x = f y -> x = y) ->
  Permutation (shared (map f ps) (map f qs)) (map f (shared ps qs)).
Proof.
  intros I. apply NoDup_Permutation; [apply shared_NoDup| |].
  - assert (G : forall l, incl l ps -> NoDup l -> NoDup (map f l)).
    { induction l as [|k l IH]; intros J ND; [constructor|]. inversion ND; subst. cbn [map]. constructor.
      - intros Hk. apply in_map_iff in Hk. destruct Hk as (k' & E & Hk'). apply I in E; [subst; contradiction|apply in_or_app; left; apply J; right; exact Hk'|apply in_or_app; left; apply J; left; reflexivity].
      - apply IH; [intros y Hy; apply J; right; exact Hy|assumption]. }
    apply G; [intros v Hv; apply shared_In in Hv; tauto|apply shared_NoDup].
  - intros y. rewrite shared_In, !in_map_iff. split.
    + intros [(x & E & Hx) (x' & E' & Hx')]. assert (x = x') by (apply I; [apply in_or_app; auto|apply in_or_app; auto|congruence]). subst x'.
      exists x. split; [exact E|]. apply shared_In. auto.
    + intros (x & E & Hx). apply shared_In in Hx. split; exists x; tauto.
Qed.
Lemma shared_sum_relabel (f : A -> B) p q p' q' ps qs : (forall x y, In x (ps ++ qs) -> In y (ps ++ qs) -> f x = f y -> x = y) ->
  (forall v, In v ps -> In v qs -> p' (f v) = p v /\ q' (f v) = q v) ->
  shared_sum p' q' (map f ps) (map f qs) = shared_sum p q ps qs.
Proof.
  intros I E. unfold shared_sum. f_equal. rewrite (sumf_perm _ _ _ (shared_relabel f ps qs I)), sumf_map. apply sumf_ext. intros v Hv. apply shared_In in Hv.
  destruct (E v (proj1 Hv) (proj2 Hv)) as [-> ->]. reflexivity.
Qed.
Lemma prob_relabel (f : A -> B) ps v : (forall x, In x ps -> f x = f v -> x = v) -> prob (map f ps) (f v) = prob ps v.
Proof. intros I. unfold prob. rewrite map_length, count_relabel by exact I. reflexivity. Qed.
Lemma nvals_relabel (f : A -> B) ps : (forall x y, In x ps -> In y ps -> f x = f y -> x = y) -> nvals (map f ps) = nvals ps.
Proof. intros I. unfold nvals. rewrite (Permutation_length (distinct_relabel f ps I)), map_length. reflexivity. Qed.
End Inv.

(** order of the samples and names of the values do not matter (the same renaming for both) *)
Theorem C99_reorder b a (ps qs ps' qs' : list Z) : valid_base b -> 0 < a -> ps <> [] -> qs <> [] -> Permutation ps ps' -> Permutation qs qs' ->
  cross_discrete b (A1 ps') (A1 qs') = cross_discrete b (A1 ps) (A1 qs) /\
  cross_mm b (A1 ps') (A1 qs') = cross_mm b (A1 ps) (A1 qs) /\
  cross_bayes (AlphaNum a) None b (A1 ps') (A1 qs') = cross_bayes (AlphaNum a) None b (A1 ps) (A1 qs).
Proof.
  intros V Ha NP NQ P Q.
  assert (NP' : ps' <> []) by (intros ->; apply NP, Permutation_nil, Permutation_sym, P).
  assert (NQ' : qs' <> []) by (intros ->; apply NQ, Permutation_nil, Permutation_sym, Q).
  assert (SP := shared_perm _ _ _ _ P Q).
  assert (NV : forall l l' : list Z, Permutation l l' -> nvals l = nvals l').
  { intros l l' X. unfold nvals. apply Permutation_length, NoDup_Permutation; [apply NoDup_nodup..|]. intros v. rewrite !distinct_In. split; apply Permutation_in; [exact X|apply Permutation_sym, X]. }
  assert (CE : CrossEnt ps' qs' = CrossEnt ps qs).
  { unfold CrossEnt, shared_sum. f_equal. rewrite (sumf_perm _ _ _ SP). apply sumf_ext. intros v _. rewrite (prob_perm _ _ v P), (prob_perm _ _ v Q). reflexivity. }
  rewrite !C99_discrete_value, !C99_mm_value, !C99_bayes_value, CE by assumption. split; [reflexivity|]. split.
  - f_equal. rewrite (NV _ _ P), (NV _ _ Q), (Permutation_length P), (Permutation_length Q).
    destruct (shared ps qs) as [|c cs]; destruct (shared ps' qs') as [|d ds]; try reflexivity; apply Permutation_length in SP; discriminate.
  - f_equal. f_equal. unfold shared_sum. f_equal. rewrite (sumf_perm _ _ _ SP). apply sumf_ext. intros v _. unfold posterior.
    rewrite (count_perm _ _ v P), (count_perm _ _ v Q), (Permutation_length P), (Permutation_length Q), (NV _ _ P), (NV _ _ Q). reflexivity.
Qed.
Theorem C99_rename b a (f : Z -> Z) (ps qs : list Z) : valid_base b -> 0 < a -> ps <> [] -> qs <> [] ->
  (forall x y, In x (ps ++ qs) -> In y (ps ++ qs) -> f x = f y -> x = y) ->
  cross_discrete b (A1 (map f ps)) (A1 (map f qs)) = cross_discrete b (A1 ps) (A1 qs) /\
  cross_mm b (A1 (map f ps)) (A1 (map f qs)) = cross_mm b (A1 ps) (A1 qs) /\
  cross_bayes (AlphaNum a) None b (A1 (map f ps)) (A1 (map f qs)) = cross_bayes (AlphaNum a) None b (A1 ps) (A1 qs).
Proof.
  intros V Ha NP NQ I.
  assert (NP' : map f ps <> []) by (destruct ps; [congruence|discriminate]). assert (NQ' : map f qs <> []) by (destruct qs; [congruence|discriminate]).
  assert (IP : forall x y, In x ps -> In y ps -> f x = f y -> x = y) by (intros; apply I; [apply in_or_app; auto|apply in_or_app; auto|assumption]).
  assert (IQ : forall x y, In x qs -> In y qs -> f x = f y -> x = y) by (intros; apply I; [apply in_or_app; auto|apply in_or_app; auto|assumption]).
  assert (CE : CrossEnt (map f ps) (map f qs) = CrossEnt ps qs).
  { unfold CrossEnt. apply shared_sum_relabel; [exact I|]. intros v Hp Hq. split; apply prob_relabel; intros; [apply IP|apply IQ]; assumption. }
  rewrite !C99_discrete_value, !C99_mm_value, !C99_bayes_value, CE by assumption. rewrite !(nvals_relabel f) by assumption. rewrite !map_length. split; [reflexivity|]. split.
  - f_equal. pose proof (Permutation_length (shared_relabel f ps qs I)) as L. rewrite map_length in L.
    destruct (shared ps qs); destruct (shared (map f ps) (map f qs)); try reflexivity; discriminate.
  - f_equal. f_equal. apply shared_sum_relabel; [exact I|]. intros v Hp Hq. unfold posterior. rewrite !map_length.
    rewrite !count_relabel; [split; reflexivity|intros; apply IQ; assumption|intros; apply IP; assumption].
Qed.
(** another base rescales *)
Theorem C99_base b b' (ps qs : list Z) h : valid_base b -> valid_base b' -> cross_discrete b (A1 ps) (A1 qs) = Ok h ->
  cross_discrete b' (A1 ps) (A1 qs) = Ok (h * (unit_of b / unit_of b')).
Proof.
  intros V V' E. destruct ps as [|p ps]; [discriminate|]. destruct qs as [|q qs].
  { unfold cross_discrete, cross_of in E. rewrite make_1d in E by discriminate. discriminate. }
  rewrite C99_discrete_value in * by (assumption || discriminate). injection E as <-. f_equal. pose proof (unit_neq0 b V). pose proof (unit_neq0 b' V'). field. split; assumption.
Qed.

(** ** C99: what does not hold *)
(** Samples without a common value get 0, the value of a perfect match of a constant, instead of an infinite cross-entropy
    (the code logs a warning); so the cross-entropy may lie below the entropy. *)
Theorem C99_disjoint_refuted b a (ps qs : list Z) : valid_base b -> 0 < a -> ps <> [] -> qs <> [] -> (forall v, In v ps -> ~ In v qs) ->
  cross_discrete b (A1 ps) (A1 qs) = Ok 0 /\ cross_mm b (A1 ps) (A1 qs) = Ok 0 /\ cross_bayes (AlphaNum a) None b (A1 ps) (A1 qs) = Ok 0.
Proof.
  intros V Ha NP NQ D. rewrite C99_discrete_value, C99_mm_value, C99_bayes_value by assumption.
  assert (S : shared ps qs = []) by (destruct (shared ps qs) as [|v l] eqn:E; [reflexivity|]; assert (X : In v (shared ps qs)) by (rewrite E; left; reflexivity); apply shared_In in X; destruct (D v); tauto).
  unfold CrossEnt, shared_sum. rewrite S. cbn [sumf fold_right]. split; [|split]; try reflexivity; f_equal; unfold Rdiv; lra.
Qed.
Example C99_below_entropy_refuted : exists h, cross_discrete BE (A1 [0; 1]%Z) (A1 [0; 0]%Z) = Ok 0 /\ entropy_discrete BE (EArr (A1 [0; 1]%Z)) = Ok h /\ 0 < h.
Proof.
  exists (ln 2). rewrite C99_discrete_value by (discriminate || exact Logic.I). split; [|split].
  - f_equal. unfold CrossEnt, shared_sum, shared, distinct, prob, count. cbn. replace (2 / (1 + 1)) with 1 by lra. replace ((1+1) / (1 + 1)) with 1 by lra. rewrite ln_1. lra.
  - unfold entropy_discrete. rewrite make_1d by discriminate. cbn [bind]. rewrite discrete_simple_ok by (discriminate || exact Logic.I). f_equal. rewrite Ent_PEnt_unique.
    unfold Ent, distinct, prob, count. cbn. replace (1 / (1 + 1)) with (/ 2) by lra. rewrite ln_Rinv by lra. lra.
  - rewrite <- ln_1. apply ln_increasing; lra.
Qed.

(** ** C99: ordinal approach: the cross-entropy of the ordinal patterns (of the default sort; [stable] is not passed on) *)
Section OrdCross.
Context {T : Type} `{Cmp T}.
Theorem C99_ordinal_value (k : kind T) b x0 (xs ys : list T) d s : legal_kind k -> valid_base b -> (1 <= d <= 20)%nat -> (1 <= s)%nat ->
  ((d - 1) * s < length xs)%nat -> ((d - 1) * s < length ys)%nat ->
  let px := patterns (k_df k) x0 xs d s in let py := patterns (k_df k) x0 ys d s in
  cross_entropy_ordinal k b xs ys (Z.of_nat d) (Z.of_nat s) = Ok (CrossEnt px py / unit_of b).
Proof.
  intros LK V Hd Hs LX LY px py.
  assert (LU : legal_kind (unstable k)) by (intros w; apply LK).
  assert (NX : px <> []) by (intros E; apply (f_equal (@length _)) in E; unfold px in E; rewrite patterns_length in E; simpl in E; lia).
  assert (NY : py <> []) by (intros E; apply (f_equal (@length _)) in E; unfold py in E; rewrite patterns_length in E; simpl in E; lia).
  assert (PX : forall zs, map (fun w => lehmer (argsort (unstable k) w)) (windows x0 zs d s) = map lehmer (patterns (k_df k) x0 zs d s))
    by (intros zs; unfold patterns; rewrite map_map; reflexivity).
  assert (PERM : forall zs p, In p (patterns (k_df k) x0 zs d s) -> is_perm d p).
  { intros zs p Hp. unfold patterns in Hp. apply in_map_iff in Hp. destruct Hp as (w & <- & Hw). pose proof (windows_In_length x0 zs d s w Hw) as <-. apply (LK w). }
  assert (INJ : forall p q, In p (px ++ py) -> In q (px ++ py) -> lehmer p = lehmer q -> p = q).
  { intros p q Hp Hq. apply lehmer_inj. apply in_app_or in Hp, Hq.
    assert (P1 : is_perm d p) by (destruct Hp as [Hp|Hp]; eapply PERM, Hp).
    assert (P2 : is_perm d q) by (destruct Hq as [Hq|Hq]; eapply PERM, Hq).
    unfold is_perm in P1, P2. rewrite P1, P2. reflexivity. }
  unfold cross_entropy_ordinal. rewrite ord_init_ok by lia. cbn [bind].
  rewrite (symbolize_int_ok (unstable k) x0) by assumption. cbn [bind].
  rewrite (symbolize_int_ok (unstable k) x0) by assumption. cbn [bind]. rewrite !PX. fold px. fold py.
  assert (MX : map lehmer px <> []) by (destruct px; [congruence|discriminate]).
  assert (MY : map lehmer py <> []) by (destruct py; [congruence|discriminate]).
  rewrite !from_data_dd by assumption. cbn [bind]. rewrite discrete_cross_ok by assumption. f_equal. rewrite common_sum. f_equal.
  unfold CrossEnt. apply shared_sum_relabel; [exact INJ|]. intros v Hp Hq. split; apply prob_relabel; intros z Hz E; apply INJ; try apply in_or_app; auto.
Qed.
End OrdCross.
