(** Proofs: the estimators on replicated data. *)
From Coq Require Import Reals Lra Lia List ZArith Arith Bool Permutation.
From Coquelicot Require Import Rbar Lim_seq Continuity Rcomplements Hierarchy ElemFct.
From Verif Require Import Res RSum Spec SpecGamma SpecEst SpecRepl Info Info2 PEst PEst2 PEst3 PEst5.
Import ListNotations.
Local Open Scope R_scope.

Section Rep.
Context {A : Type} `{EqDec A}.
Implicit Types xs : list A.

Lemma rep_S m xs : rep (S m) xs = xs ++ rep m xs. Proof. reflexivity. Qed.
Lemma rep_length m xs : length (rep m xs) = (m * length xs)%nat.
Proof. induction m as [|m IH]; [reflexivity|]. rewrite rep_S, app_length, IH. lia. Qed.
Lemma rep_count m xs v : count (rep m xs) v = (m * count xs v)%nat.
Proof.
  induction m as [|m IH]; [reflexivity|]. rewrite rep_S. unfold count in *. rewrite count_occ_app, IH. lia.
Qed.
Lemma rep_In m xs v : (0 < m)%nat -> (In v (rep m xs) <-> In v xs).
Proof.
  intros Hm. rewrite !count_pos, rep_count. split; nia.
Qed.
Lemma rep_distinct m xs : (0 < m)%nat -> Permutation (distinct (rep m xs)) (distinct xs).
Proof.
  intros Hm. apply NoDup_Permutation; [apply NoDup_nodup|apply NoDup_nodup|]. intros v.
  rewrite !distinct_In. apply rep_In, Hm.
Qed.
Lemma rep_nvals m xs : (0 < m)%nat -> nvals (rep m xs) = nvals xs.
Proof. intros Hm. unfold nvals. apply Permutation_length, rep_distinct, Hm. Qed.
Lemma sumf_permute {B} (f : B -> R) l l' : Permutation l l' -> sumf f l = sumf f l'.
Proof. induction 1; simpl; lra. Qed.
Lemma rep_bycount m f xs : (0 < m)%nat -> bycount f (rep m xs) = bycount (fun n => f (m * n)%nat) xs.
Proof.
  intros Hm. unfold bycount. rewrite (sumf_permute _ _ _ (rep_distinct m xs Hm)). apply sumf_ext. intros v _.
  rewrite rep_count. reflexivity.
Qed.
Lemma rep_prob m xs v : (0 < m)%nat -> prob (rep m xs) v = prob xs v.
Proof.
  intros Hm. unfold prob. rewrite rep_length, rep_count, !mult_INR. pose proof (INR_pos m Hm).
  destruct (Req_dec (INR (length xs)) 0) as [E|N]; [rewrite E, Rmult_0_r; unfold Rdiv; rewrite Rinv_0; ring|]. field. lra.
Qed.
Lemma rep_Ent m xs : (0 < m)%nat -> Ent (rep m xs) = Ent xs.
Proof.
  intros Hm. unfold Ent. f_equal. rewrite (sumf_permute _ _ _ (rep_distinct m xs Hm)). apply sumf_ext. intros v _.
  rewrite rep_prob by exact Hm. reflexivity.
Qed.
Lemma rep_freq r m xs : (r < m)%nat -> (0 < r)%nat -> freq r (rep m xs) = 0%nat.
Proof.
  intros Hr H0. unfold freq. assert (F : forall l, (forall v, In v l -> In v (rep m xs)) -> filter (fun v => Nat.eqb (count (rep m xs) v) r) l = []).
  { induction l as [|v l IH]; [reflexivity|]. intros Hl. simpl. rewrite rep_count.
    assert (P : (0 < count xs v)%nat). { apply count_pos. apply (rep_In m); [lia|]. apply Hl. left. reflexivity. }
    destruct (Nat.eqb_spec (m * count xs v) r); [nia|]. apply IH. intros w Hw. apply Hl. right. exact Hw. }
  rewrite F; [reflexivity|]. intros v. apply distinct_In.
Qed.
End Rep.

(** ** limits *)
Lemma lim_eq (u : nat -> R) (l l' : R) : l = l' -> is_lim_seq u l -> is_lim_seq u l'.
Proof. intros ->. auto. Qed.
Lemma lim_opp (u : nat -> R) (l : R) : is_lim_seq u l -> is_lim_seq (fun m => - u m) (- l).
Proof. intros L. apply (proj1 (is_lim_seq_opp u l)) in L. exact L. Qed.
Lemma lim_sumf {B} (u : nat -> B -> R) (l : B -> R) (vs : list B) :
  (forall v, In v vs -> is_lim_seq (fun m => u m v) (l v)) -> is_lim_seq (fun m => sumf (u m) vs) (sumf l vs).
Proof.
  induction vs as [|v vs IH]; intros Hv; cbn [sumf]; [apply is_lim_seq_const|].
  apply is_lim_seq_plus'; [apply Hv; left; reflexivity|]. apply IH. intros w Hw. apply Hv. right. exact Hw.
Qed.

Lemma lim_inv_S c : 0 < c -> is_lim_seq (fun m => / (INR (S m) * c)) 0.
Proof.
  intros Hc. assert (X : is_lim_seq (fun m => INR (S m) * c) p_infty).
  { apply (is_lim_seq_ext (fun m => c * INR (S m))); [intros; ring|].
    replace p_infty with (Rbar_mult (Finite c) p_infty).
    - apply is_lim_seq_scal_l. apply (is_lim_seq_incr_1 INR). apply is_lim_seq_INR.
    - simpl. destruct (Rle_dec 0 c) as [r|r]; [|exfalso; lra]. destruct (Rle_lt_or_eq_dec 0 c r) as [r0|r0]; [reflexivity|exfalso; lra]. }
  apply (is_lim_seq_inv _ p_infty) in X; [exact X|discriminate].
Qed.

(** (m a + c) / (m b + d) -> a / b *)
Lemma lim_ratio a b c d : 0 < b -> 0 <= d -> is_lim_seq (fun m => (INR (S m) * a + c) / (INR (S m) * b + d)) (a / b).
Proof.
  intros Hb Hd.
  apply (is_lim_seq_ext (fun m => (a + c * / (INR (S m) * 1)) / (b + d * / (INR (S m) * 1)))).
  - intros m. pose proof (INR_pos (S m) ltac:(lia)) as P. assert (0 < INR (S m) * b) by (apply Rmult_lt_0_compat; assumption).
    field. repeat split; try lra.
  - apply is_lim_seq_div'.
    + apply (lim_eq _ (a + c * 0)); [ring|]. apply is_lim_seq_plus'; [apply is_lim_seq_const|].
      apply is_lim_seq_mult'; [apply is_lim_seq_const|apply lim_inv_S; lra].
    + apply (lim_eq _ (b + d * 0)); [ring|]. apply is_lim_seq_plus'; [apply is_lim_seq_const|].
      apply is_lim_seq_mult'; [apply is_lim_seq_const|apply lim_inv_S; lra].
    + lra.
Qed.

Lemma lim_ln (u : nat -> R) l : 0 < l -> is_lim_seq u l -> is_lim_seq (fun m => ln (u m)) (ln l).
Proof.
  intros Hl Hu. apply (is_lim_seq_continuous ln); [|exact Hu].
  apply derivable_continuous_pt. exists (/ l). apply derivable_pt_lim_ln, Hl.
Qed.
Lemma lim_xlnx (u : nat -> R) l : 0 < l -> is_lim_seq u l -> is_lim_seq (fun m => u m * ln (u m)) (l * ln l).
Proof. intros Hl Hu. apply is_lim_seq_mult'; [exact Hu|apply lim_ln; assumption]. Qed.

(** psi (m n + c) - ln (m n) -> 0 *)
Lemma lim_psi n : (0 < n)%nat -> is_lim_seq (fun m => psi (S m * n) - ln (INR (S m * n))) 0.
Proof.
  intros Hn. pose proof (INR_pos n Hn) as Pn.
  apply (is_lim_seq_le_le (fun m => - / (INR (S m) * INR n)) _ (fun _ => 0)).
  - intros m. assert (P : (0 < S m * n)%nat) by lia. pose proof (psi_le_ln _ P). pose proof (psi_ge_ln _ P) as G.
    rewrite mult_INR in *. lra.
  - apply (lim_eq _ (- 0)); [ring|]. apply lim_opp. apply lim_inv_S, Pn.
  - apply is_lim_seq_const.
Qed.
Lemma lim_psi_plus n c : (0 < n)%nat -> is_lim_seq (fun m => psi (S m * n + c) - ln (INR (S m * n + c))) 0.
Proof.
  intros Hn. pose proof (INR_pos n Hn) as Pn.
  apply (is_lim_seq_le_le (fun m => - / (INR (S m) * INR n)) _ (fun _ => 0)).
  - intros m. assert (P : (0 < S m * n + c)%nat) by lia. pose proof (psi_le_ln _ P). pose proof (psi_ge_ln _ P) as G.
    assert (Q : / INR (S m * n + c) <= / (INR (S m) * INR n)).
    { rewrite <- mult_INR. apply Rinv_le_contravar; [apply INR_pos; lia|apply le_INR; lia]. }
    lra.
  - apply (lim_eq _ (- 0)); [ring|]. apply lim_opp. apply lim_inv_S, Pn.
  - apply is_lim_seq_const.
Qed.

Section Est.
Context {A : Type} `{EqDec A}.
Variable xs : list A.
Hypothesis NE : xs <> [].
Notation N := (length xs).

Local Lemma PN : (0 < N)%nat. Proof using NE. destruct xs; [congruence|simpl; lia]. Qed.
Local Lemma RN : 0 < INR N. Proof using NE. apply INR_pos, PN. Qed.
Local Lemma cpos v : In v (distinct xs) -> (0 < count xs v <= N)%nat.
Proof. intros Hv. apply (proj1 (distinct_In xs v)) in Hv. split; [apply count_pos, Hv|apply count_le]. Qed.
Local Lemma ppos v : In v (distinct xs) -> 0 < prob xs v <= 1.
Proof using NE.
  intros Hv. destruct (cpos v Hv) as [C1 C2]. unfold prob. pose proof RN. pose proof (INR_pos _ C1). split.
  - apply Rdiv_lt_0_compat; assumption.
  - apply Rle_div_l; [assumption|]. rewrite Rmult_1_l. apply le_INR, C2.
Qed.

Lemma Ent_bycount : Ent xs = bycount (fun n => INR n / INR N * (ln (INR N) - ln (INR n))) xs.
Proof using NE.
  unfold Ent, bycount. rewrite <- sumf_opp. apply sumf_ext. intros v Hv. destruct (cpos v Hv) as [C1 _].
  unfold prob. rewrite ln_div by (try apply RN; apply INR_pos, C1). ring.
Qed.

Lemma mm_lim : is_lim_seq (fun m => Ent (rep (S m) xs) + (INR (nvals (rep (S m) xs)) - 1) / (2 * INR (length (rep (S m) xs)))) (Ent xs).
Proof using NE.
  apply (is_lim_seq_ext (fun m => Ent xs + (INR (nvals xs) - 1) * / (INR (S m) * (2 * INR N)))).
  - intros m. rewrite rep_Ent, rep_nvals, rep_length, mult_INR by lia. unfold Rdiv. do 3 f_equal. ring.
  - apply (lim_eq _ (Ent xs + (INR (nvals xs) - 1) * 0)); [ring|].
    apply is_lim_seq_plus'; [apply is_lim_seq_const|]. apply is_lim_seq_mult'; [apply is_lim_seq_const|].
    apply lim_inv_S. pose proof RN. lra.
Qed.

Lemma zhang_lim : is_lim_seq (fun m => ZhangH (rep (S m) xs)) (Ent xs).
Proof using NE.
  rewrite Ent_bycount.
  apply (is_lim_seq_ext (fun m => sumf (fun v => let n := count xs v in INR n / INR N *
    (((psi (S m * N) - ln (INR (S m * N))) - (psi (S m * n) - ln (INR (S m * n)))) + (ln (INR N) - ln (INR n)))) (distinct xs))).
  - intros m. unfold ZhangH. rewrite rep_bycount by lia. unfold bycount. apply sumf_ext. intros v Hv. cbv zeta.
    destruct (cpos v Hv) as [C1 _]. rewrite rep_length. unfold psi. rewrite !mult_INR.
    pose proof (INR_pos (S m) ltac:(lia)). pose proof (INR_pos _ C1). pose proof RN.
    rewrite !ln_mult by assumption. field. lra.
  - apply lim_sumf. intros v Hv. cbv zeta. destruct (cpos v Hv) as [C1 _].
    apply is_lim_seq_mult'; [apply is_lim_seq_const|].
    apply (lim_eq _ ((0 - 0) + (ln (INR N) - ln (INR (count xs v))))); [ring|].
    apply is_lim_seq_plus'; [|apply is_lim_seq_const]. apply is_lim_seq_minus'; apply lim_psi; [apply PN|exact C1].
Qed.

Lemma cwj_lim : is_lim_seq (fun m => ChaoWangJostH (rep (S m) xs)) (Ent xs).
Proof using NE.
  apply (is_lim_seq_incr_n _ 2). apply (is_lim_seq_ext (fun m => ZhangH (rep (S (m + 2)) xs))).
  - intros m. unfold ChaoWangJostH. unfold cwj_coverage. rewrite !rep_freq by lia. cbn [Nat.ltb Nat.leb].
    destruct (Req_EM_T 1 1) as [_|N1]; [|congruence]. rewrite Rplus_0_r. unfold ZhangH. apply bycount_ext. intros v _.
    rewrite psi_diff. reflexivity.
  - apply (is_lim_seq_incr_n (fun m => ZhangH (rep (S m) xs)) 2). apply zhang_lim.
Qed.

Lemma grassberger_lim : is_lim_seq (fun m => GrassbergerH (rep (S m) xs)) (Ent xs).
Proof using NE.
  rewrite Ent_bycount.
  apply (is_lim_seq_ext (fun m => sumf (fun v => let n := count xs v in INR n / INR N *
    (- (psi (S m * n) - ln (INR (S m * n))) - (-1) ^ (S m * n) / INR (S m * n + 1) + (ln (INR N) - ln (INR n)))) (distinct xs))).
  - intros m. rewrite grassberger_bycount. rewrite rep_bycount by lia. unfold bycount. rewrite <- sumf_div.
    apply sumf_ext. intros v Hv. cbv zeta. destruct (cpos v Hv) as [C1 _]. rewrite rep_length. rewrite !mult_INR.
    pose proof (INR_pos (S m) ltac:(lia)) as P1. pose proof (INR_pos _ C1) as P2. pose proof RN as P3. rewrite !ln_mult by assumption.
    assert (INR (S m * count xs v + 1) <> 0) by (apply not_0_INR; lia).
    set (q := INR (S m * count xs v + 1)) in *. clearbody q. set (e := (-1) ^ (S m * count xs v)). clearbody e. field. repeat split; lra.
  - apply lim_sumf. intros v Hv. cbv zeta. destruct (cpos v Hv) as [C1 _]. set (n := count xs v) in *.
    apply is_lim_seq_mult'; [apply is_lim_seq_const|].
    apply (lim_eq _ ((- 0 - 0) + (ln (INR N) - ln (INR n)))); [ring|].
    apply is_lim_seq_plus'; [|apply is_lim_seq_const]. apply is_lim_seq_minus'; [apply lim_opp, lim_psi, C1|].
    pose proof (INR_pos n C1) as Pn.
    apply (is_lim_seq_le_le (fun m => - / (INR (S m) * INR n)) _ (fun m => / (INR (S m) * INR n))).
    + intros m. assert (Q : Rabs ((-1) ^ (S m * n) / INR (S m * n + 1)) <= / (INR (S m) * INR n)).
      { unfold Rdiv. rewrite Rabs_mult, <- RPow_abs. replace (Rabs (-1)) with 1 by (rewrite Rabs_left; lra). rewrite pow1, Rmult_1_l.
        rewrite Rabs_pos_eq by (left; apply Rinv_0_lt_compat, INR_pos; lia). rewrite <- mult_INR.
        apply Rinv_le_contravar; [apply INR_pos; lia|apply le_INR; lia]. }
      apply Rabs_le_between in Q. exact Q.
    + apply (lim_eq _ (- 0)); [ring|]. apply lim_opp. apply lim_inv_S, Pn.
    + apply lim_inv_S, Pn.
Qed.

Lemma bonachela_lim : is_lim_seq (fun m => BonachelaH (rep (S m) xs)) (Ent xs).
Proof using NE.
  rewrite Ent_bycount.
  apply (is_lim_seq_ext (fun m => sumf (fun v => let n := count xs v in (INR (S m) * INR n + 1) / (INR (S m) * INR N + 2) *
    (((psi (S m * N + 3) - ln (INR (S m * N + 3))) - (psi (S m * n + 2) - ln (INR (S m * n + 2)))) +
     ln ((INR (S m) * INR N + 3) / (INR (S m) * INR n + 2)))) (distinct xs))).
  - intros m. unfold BonachelaH. rewrite rep_bycount by lia. unfold bycount. rewrite <- sumf_div.
    apply sumf_ext. intros v Hv. cbv zeta. destruct (cpos v Hv) as [C1 _]. rewrite rep_length. set (n := count xs v) in *.
    pose proof (INR_pos (S m) ltac:(lia)) as P1. pose proof (INR_pos _ C1) as P2. pose proof RN as P3.
    assert (Q1 : 0 < INR (S m) * INR N) by (apply Rmult_lt_0_compat; assumption).
    assert (Q2 : 0 < INR (S m) * INR n) by (apply Rmult_lt_0_compat; assumption).
    rewrite ln_div by lra. unfold psi. replace (S m * N + 3 - 1)%nat with (S m * N + 2)%nat by lia.
    replace (S m * n + 2 - 1)%nat with (S m * n + 1)%nat by lia.
    rewrite !plus_INR, !mult_INR. change (INR 3) with (1 + 1 + 1). change (INR 2) with (1 + 1). change (INR 1) with 1.
    replace (INR (S m) * INR N + (1 + 1 + 1)) with (INR (S m) * INR N + 3) by ring.
    replace (INR (S m) * INR n + (1 + 1)) with (INR (S m) * INR n + 2) by ring.
    replace (INR (S m) * INR N + (1 + 1)) with (INR (S m) * INR N + 2) by ring. field. lra.
  - apply lim_sumf. intros v Hv. cbv zeta. destruct (cpos v Hv) as [C1 _]. set (n := count xs v) in *.
    pose proof (INR_pos n C1) as Pn. pose proof RN as PN'.
    apply is_lim_seq_mult'; [apply lim_ratio; lra|].
    apply (lim_eq _ ((0 - 0) + ln (INR N / INR n))); [(rewrite ln_div by assumption; ring)|].
    apply is_lim_seq_plus'; [apply is_lim_seq_minus'; apply lim_psi_plus; [apply PN|exact C1]|].
    apply lim_ln; [apply Rdiv_lt_0_compat; assumption|]. apply lim_ratio; lra.
Qed.

Lemma bayes_lim a : 0 < a -> is_lim_seq (fun m => BayesH a (INR (nvals (rep (S m) xs))) (rep (S m) xs)) (Ent xs).
Proof using NE.
  intros Ha. unfold BayesH, Ent. apply lim_opp.
  apply (is_lim_seq_ext (fun m => sumf (fun v => let p := (INR (S m) * INR (count xs v) + a) / (INR (S m) * INR N + INR (nvals xs) * a) in p * ln p) (distinct xs))).
  - intros m. rewrite (sumf_permute _ _ _ (rep_distinct (S m) xs ltac:(lia))). apply sumf_ext. intros v Hv. cbv zeta. unfold posterior.
    rewrite rep_nvals, rep_length, rep_count, !mult_INR by lia. reflexivity.
  - apply lim_sumf. intros v Hv. cbv zeta. apply lim_xlnx; [apply ppos, Hv|]. unfold prob. apply lim_ratio; [apply RN|].
    apply Rmult_le_pos; [apply pos_INR|lra].
Qed.

Lemma chao_shen_lim : is_lim_seq (fun m => ChaoShenH (rep (S m) xs)) (Ent xs).
Proof using NE.
  apply (is_lim_seq_incr_n _ 1).
  apply (is_lim_seq_ext (fun m => - sumf (fun v => prob xs v * ln (prob xs v) / (1 - ((1 - prob xs v) ^ N) ^ (S (m + 1)))) (distinct xs))).
  - intros m. assert (EC : cs_coverage (rep (S (m + 1)) xs) = 1).
    { unfold cs_coverage. rewrite rep_freq by lia. destruct (Nat.eqb 0 (length (rep (S (m + 1)) xs))); simpl; unfold Rdiv; ring. }
    unfold ChaoShenH. rewrite EC. f_equal. unfold bycount. rewrite (sumf_permute _ _ _ (rep_distinct (S (m + 1)) xs ltac:(lia))).
    apply sumf_ext. intros v Hv. cbv zeta.
    change (INR (count (rep (S (m + 1)) xs) v) / INR (length (rep (S (m + 1)) xs))) with (prob (rep (S (m + 1)) xs) v).
    rewrite rep_prob by lia. rewrite rep_length, Rmult_1_l, <- pow_mult. do 3 f_equal. lia.
  - unfold Ent. apply lim_opp. apply lim_sumf. intros v Hv. destruct (ppos v Hv) as [P0 P1].
    apply (lim_eq _ (prob xs v * ln (prob xs v) / (1 - 0))); [field|].
    apply is_lim_seq_div'; [apply is_lim_seq_const| |lra].
    apply is_lim_seq_minus'; [apply is_lim_seq_const|].
    assert (Q : Rabs ((1 - prob xs v) ^ N) < 1).
    { rewrite <- RPow_abs, Rabs_pos_eq by lra. pose proof PN as HN. destruct N as [|k]; [lia|]. simpl.
      apply Rle_lt_trans with ((1 - prob xs v) * 1); [|lra]. apply Rmult_le_compat_l; [lra|].
      apply Rle_trans with (1 ^ k); [apply pow_incr; lra|rewrite pow1; lra]. }
    apply (is_lim_seq_ext (fun m => ((1 - prob xs v) ^ N) ^ (m + 2))); [intros m; f_equal; lia|].
    apply (is_lim_seq_incr_n (fun m => ((1 - prob xs v) ^ N) ^ m) 2). apply is_lim_seq_geom, Q.
Qed.

Lemma intensity_lim : is_lim_seq (fun m => shrink_intensity (rep (S m) xs)) 0 \/ (forall v, In v (distinct xs) -> prob xs v = / INR (nvals xs)).
Proof using NE.
  set (d := sumf (fun v => (prob xs v - / INR (nvals xs)) * (prob xs v - / INR (nvals xs))) (distinct xs)).
  destruct (Req_EM_T d 0) as [E|D].
  - right. intros v Hv. assert (S0 : forall l, sumf (fun v => (prob xs v - / INR (nvals xs)) * (prob xs v - / INR (nvals xs))) l >= 0 /\
      (sumf (fun v => (prob xs v - / INR (nvals xs)) * (prob xs v - / INR (nvals xs))) l = 0 -> forall v, In v l -> prob xs v = / INR (nvals xs))).
    { induction l as [|w l [IH1 IH2]]; cbn [sumf]; [split; [lra|intros _ u []]|].
      pose proof (Rle_0_sqr (prob xs w - / INR (nvals xs))) as Q. unfold Rsqr in Q. split; [lra|].
      intros E0 u [<-|Hu]; [|apply IH2; [lra|exact Hu]].
      assert (Z0 : (prob xs w - / INR (nvals xs)) * (prob xs w - / INR (nvals xs)) = 0) by lra.
      apply Rmult_integral in Z0. lra. }
    apply (proj2 (S0 (distinct xs)) E v Hv).
  - left. assert (D0 : 0 < d).
    { assert (0 <= d); [|lra]. apply sumf_nonneg. intros v _. apply (Rle_0_sqr (prob xs v - / INR (nvals xs))). }
    set (c := sumf (fun v => prob xs v * (1 - prob xs v)) (distinct xs)).
    assert (C0 : 0 <= c). { apply sumf_nonneg. intros v Hv. destruct (ppos v Hv). apply Rmult_le_pos; lra. }
    apply (is_lim_seq_incr_n _ 1).
    apply (is_lim_seq_ext (fun m => Rmin 1 (c / (INR (S (m + 1)) * INR N - 1) / d))).
    + intros m. unfold shrink_intensity. rewrite rep_length, mult_INR.
      pose proof PN as HN. destruct (Nat.eqb_spec (S (m + 1) * N) 1) as [E1|_]; [nia|].
      rewrite rep_nvals by lia. rewrite !(sumf_permute _ _ _ (rep_distinct (S (m + 1)) xs ltac:(lia))).
      rewrite (sumf_ext (fun v => (prob (rep (S (m + 1)) xs) v - / INR (nvals xs)) * (prob (rep (S (m + 1)) xs) v - / INR (nvals xs)))
                        (fun v => (prob xs v - / INR (nvals xs)) * (prob xs v - / INR (nvals xs)))) by (intros v _; rewrite rep_prob by lia; reflexivity).
      fold d. destruct (Req_EM_T d 0) as [E|_]; [congruence|]. f_equal. f_equal. unfold c, Rdiv. rewrite <- sumf_scal_r. apply sumf_ext.
      intros v _. rewrite rep_prob by lia. reflexivity.
    + pose proof RN as HR. pose proof PN as HN. assert (R1 : 1 <= INR N) by (change 1 with (INR 1); apply le_INR; lia).
      assert (L0 : is_lim_seq (fun m => c / (INR (S (m + 1)) * INR N - 1) / d) 0).
      { apply (is_lim_seq_le_le (fun _ => 0) _ (fun m => (c / d) * / (INR (S m) * INR N))).
        - intros m. replace (S (m + 1)) with (S m + 1)%nat by lia. rewrite plus_INR. change (INR 1) with 1.
          pose proof (INR_pos (S m) ltac:(lia)) as P. assert (PP : 0 < INR (S m) * INR N) by (apply Rmult_lt_0_compat; assumption).
          assert (D1 : INR (S m) * INR N <= (INR (S m) + 1) * INR N - 1) by lra. split.
          + apply Rmult_le_pos; [apply Rmult_le_pos; [exact C0|]|left; apply Rinv_0_lt_compat; exact D0].
            left. apply Rinv_0_lt_compat. lra.
          + replace (c / ((INR (S m) + 1) * INR N - 1) / d) with ((c / d) * / ((INR (S m) + 1) * INR N - 1)) by (field; lra).
            apply Rmult_le_compat_l; [apply Rmult_le_pos; [exact C0|left; apply Rinv_0_lt_compat; exact D0]|].
            apply Rinv_le_contravar; lra.
        - apply is_lim_seq_const.
        - apply (lim_eq _ (c / d * 0)); [ring|]. apply is_lim_seq_mult'; [apply is_lim_seq_const|apply lim_inv_S; exact HR]. }
      apply (is_lim_seq_le_le (fun m => Rmin 0 (c / (INR (S (m + 1)) * INR N - 1) / d)) _ (fun m => c / (INR (S (m + 1)) * INR N - 1) / d)).
      * intros m. split; [unfold Rmin; repeat destruct Rle_dec; lra|apply Rmin_r].
      * apply (is_lim_seq_ext (fun _ => 0)); [|apply is_lim_seq_const]. intros m. symmetry. apply Rmin_left.
        pose proof (INR_pos (S m) ltac:(lia)) as P. assert (0 < INR (S m) * INR N) by (apply Rmult_lt_0_compat; assumption).
        assert (0 < INR (S (m + 1)) * INR N - 1).
        { replace (S (m + 1)) with (S m + 1)%nat by lia. rewrite plus_INR. change (INR 1) with 1. lra. }
        apply Rmult_le_pos; [apply Rmult_le_pos; [exact C0|]|left; apply Rinv_0_lt_compat; exact D0]. left. apply Rinv_0_lt_compat. lra.
      * exact L0.
Qed.

Lemma shrink_lim : is_lim_seq (fun m => ShrinkH (rep (S m) xs)) (Ent xs).
Proof using NE.
  destruct intensity_lim as [L|U].
  - unfold ShrinkH, Ent. apply lim_opp.
    apply (is_lim_seq_ext (fun m => sumf (fun v => let p := shrink_intensity (rep (S m) xs) * / INR (nvals xs) + (1 - shrink_intensity (rep (S m) xs)) * prob xs v in p * ln p) (distinct xs))).
    + intros m. rewrite (sumf_permute _ _ _ (rep_distinct (S m) xs ltac:(lia))). apply sumf_ext. intros v Hv. cbv zeta. unfold shrunk.
      rewrite rep_nvals, rep_prob by lia. reflexivity.
    + apply lim_sumf. intros v Hv. cbv zeta. apply lim_xlnx; [apply ppos, Hv|].
      apply (lim_eq _ (0 * / INR (nvals xs) + (1 - 0) * prob xs v)); [ring|].
      apply is_lim_seq_plus'; apply is_lim_seq_mult'; try apply is_lim_seq_const; [exact L|].
      apply is_lim_seq_minus'; [apply is_lim_seq_const|exact L].
  - apply (is_lim_seq_ext (fun _ => Ent xs)); [|apply is_lim_seq_const]. intros m. unfold ShrinkH, Ent. f_equal.
    rewrite (sumf_permute _ _ _ (rep_distinct (S m) xs ltac:(lia))). apply sumf_ext. intros v Hv. unfold shrunk.
    rewrite rep_nvals, rep_prob by lia. rewrite (U v Hv). set (t := shrink_intensity _). replace (t * / INR (nvals xs) + (1 - t) * / INR (nvals xs)) with (/ INR (nvals xs)) by ring.
    reflexivity.
Qed.

Lemma ansb_diverges : is_lim_seq (fun m => AnsbH (rep (S m) xs)) p_infty.
Proof using NE.
  assert (X : is_lim_seq (fun m => ln (INR (S m) * INR N)) p_infty).
  { apply (is_lim_comp_seq ln (fun m => INR (S m) * INR N) p_infty p_infty); [apply is_lim_ln_p| |].
    - exists 0%nat. intros n _. discriminate.
    - apply (is_lim_seq_ext (fun m => INR N * INR (S m))); [intros; ring|].
      replace p_infty with (Rbar_mult (Finite (INR N)) p_infty).
      + apply is_lim_seq_scal_l. apply (is_lim_seq_incr_1 INR). apply is_lim_seq_INR.
      + pose proof RN. simpl. destruct (Rle_dec 0 (INR N)) as [r|r]; [|exfalso; lra]. destruct (Rle_lt_or_eq_dec 0 (INR N) r); [reflexivity|exfalso; lra]. }
  apply (is_lim_seq_le_p_loc (fun m => (euler_gamma - ln 2) + ln (INR (S m) * INR N))).
  - exists 1%nat. intros m Hm. unfold AnsbH. rewrite rep_nvals, rep_length by lia.
    assert (KN : (nvals xs <= N)%nat). { unfold nvals, distinct. apply NoDup_incl_length; [apply NoDup_nodup|]. intros v Hv. apply nodup_In in Hv. exact Hv. }
    pose proof PN as HN. assert (D : (0 < S m * N - nvals xs)%nat) by nia.
    pose proof (psi_le_ln _ D) as P. assert (Q : ln (INR (S m * N - nvals xs)) <= ln (INR (S m * N))).
    { apply ln_le; [apply INR_pos, D|apply le_INR; lia]. }
    rewrite <- mult_INR. lra.
  - apply (is_lim_seq_plus (fun _ => euler_gamma - ln 2) _ (Finite (euler_gamma - ln 2)) p_infty); [apply is_lim_seq_const|exact X|reflexivity].
Qed.
End Est.
