(** Proofs about divergences. *)
From Coq Require Import Reals Lra Lia List ZArith Arith Bool Permutation.
From Verif Require Import Res RSum Spec SpecDiv SpecBase Info Info2 Gibbs Ord MBase MData MEntropy.
Import ListNotations.
Local Open Scope R_scope.

Section PMF.
Context {K : Type} `{EqDec K}.

Lemma pmf_nonneg (U : list K) p v : is_pmf U p -> 0 <= p v.
Proof.
  intros (_ & P & Z & _). destruct (in_dec eq_dec v U) as [I|N]; [left; apply P; exact I|rewrite (Z v N); lra].
Qed.

(** extending the support by points without mass *)
Lemma sumf_support (U V : list K) (f : K -> R) : NoDup U -> NoDup V -> incl U V -> (forall v, In v V -> ~ In v U -> f v = 0) ->
  sumf f V = sumf f U.
Proof.
  intros NU NV I Z.
  set (g := fun v => if in_dec eq_dec v U then true else false).
  assert (PM : Permutation V (filter g V ++ filter (fun v => negb (g v)) V)).
  { clear. induction V as [|v V IH]; simpl; [constructor|]. destruct (g v); simpl.
    - constructor. exact IH.
    - rewrite IH at 1. apply Permutation_middle. }
  rewrite (sumf_perm _ _ _ PM), sumf_app.
  replace (sumf f (filter (fun v => negb (g v)) V)) with 0.
  - rewrite Rplus_0_r. apply sumf_perm. apply NoDup_Permutation; [apply NoDup_filter; exact NV|exact NU|].
    intros x. rewrite filter_In. unfold g. split; [intros [_ E]; destruct (in_dec eq_dec x U); [assumption|discriminate]|].
    intros Hx. split; [apply I; exact Hx|]. destruct (in_dec eq_dec x U); [reflexivity|contradiction].
  - symmetry. rewrite (sumf_ext f (fun _ => 0)); [apply sumf_zero|].
    intros x Hx. apply filter_In in Hx. destruct Hx as [Hx E]. apply Z; [exact Hx|].
    unfold g in E. destruct (in_dec eq_dec x U); [discriminate|assumption].
Qed.

Lemma PKL_nonneg (U V : list K) p q : is_pmf U p -> is_pmf V q -> incl U V -> 0 <= PKL U p q.
Proof.
  intros P Q I. apply gibbs.
  - intros; eapply pmf_nonneg; exact P.
  - intros; eapply pmf_nonneg; exact Q.
  - intros x Hx E. pose proof (proj1 (proj2 Q) x (I x Hx)). lra.
  - destruct P as (NU & _ & _ & S1), Q as (NV & PQ & ZQ & S2). rewrite S1, <- S2.
    assert (E : sumf q V = sumf (fun v => ind (if in_dec eq_dec v U then true else false) * q v) V + sumf (fun v => ind (if in_dec eq_dec v U then false else true) * q v) V).
    { rewrite <- sumf_plus. apply sumf_ext. intros v _. destruct (in_dec eq_dec v U); simpl; unfold ind; lra. }
    rewrite E. replace (sumf q U) with (sumf (fun v => ind (if in_dec eq_dec v U then true else false) * q v) V).
    + assert (0 <= sumf (fun v => ind (if in_dec eq_dec v U then false else true) * q v) V); [|lra].
      apply sumf_nonneg. intros v Hv. apply Rmult_le_pos; [apply ind_bounds|left; apply PQ; exact Hv].
    + rewrite (sumf_support U V); [| assumption | assumption | assumption |].
      * apply sumf_ext. intros v Hv. destruct (in_dec eq_dec v U); [unfold ind; lra|contradiction].
      * intros v _ N. destruct (in_dec eq_dec v U); [contradiction|unfold ind; lra].
Qed.

Lemma PKL_zero (U V : list K) p q : is_pmf U p -> is_pmf V q -> incl U V -> (PKL U p q = 0 <-> forall v, p v = q v).
Proof.
  intros P Q I. split.
  - intros E.
    assert (E' : forall v, In v V -> p v = q v).
    { apply (gibbs_eq V p q).
      - intros; eapply pmf_nonneg; exact P.
      - intros; eapply pmf_nonneg; exact Q.
      - intros x Hx E0. pose proof (proj1 (proj2 Q) x Hx). lra.
      - destruct P as (NU & _ & ZP & S1), Q as (NV & PQ & ZQ & S2). rewrite S2, (sumf_support U V p NU NV I), S1; [lra|]. intros v _ N. apply ZP. exact N.
      - destruct P as (NU & _ & ZP & S1), Q as (NV & PQ & ZQ & S2). rewrite (sumf_support U V _ NU NV I); [exact E|]. intros v _ N. rewrite (ZP v N). ring. }
    intros v. destruct (in_dec eq_dec v V) as [Hv|N]; [apply E'; exact Hv|].
    rewrite (proj1 (proj2 (proj2 Q)) v N). apply (proj1 (proj2 (proj2 P))). intros Hv. apply N, I, Hv.
  - intros E. unfold PKL. rewrite (sumf_ext _ (fun _ => 0)); [apply sumf_zero|]. intros v Hv. rewrite <- E.
    pose proof (proj1 (proj2 P) v Hv). unfold Rdiv. rewrite Rinv_r by lra. rewrite ln_1. ring.
Qed.

Section JS.
Variable ps : list (list K * (K -> R)).
Hypothesis NE : ps <> [].
Hypothesis PM : forall d, In d ps -> is_pmf (fst d) (snd d).
Let U := distinct (concat (map fst ps)).
Let n := INR (length ps).

Lemma js_n : 0 < n.
Proof using H NE PM. apply INR_pos. destruct ps; [congruence|simpl; lia]. Qed.

Lemma js_incl d : In d ps -> incl (fst d) U.
Proof using H. intros Hd v Hv. unfold U, distinct. apply nodup_In, in_concat. exists (fst d). split; [apply in_map; exact Hd|exact Hv]. Qed.

Lemma js_NoDup : NoDup U.
Proof using H. unfold U, distinct. apply NoDup_nodup. Qed.

Lemma mix_ge d v : In d ps -> snd d v <= n * pmix ps v.
Proof using H NE PM.
  intros Hd. unfold pmix. fold n. pose proof js_n. replace (n * (sumf (fun d => snd d v) ps / n)) with (sumf (fun d => snd d v) ps) by (field; lra).
  apply (sumf_In_le (fun d => snd d v)); [|exact Hd]. intros e He. eapply pmf_nonneg. apply PM. exact He.
Qed.

Lemma mix_pmf : is_pmf U (pmix ps).
Proof using H NE PM.
  pose proof js_n as HN. split; [apply js_NoDup|]. split; [|split].
  - intros v Hv. unfold U, distinct in Hv. apply nodup_In, in_concat in Hv. destruct Hv as (l & Hl & Hv).
    apply in_map_iff in Hl. destruct Hl as (d & <- & Hd).
    pose proof (mix_ge d v Hd). pose proof (proj1 (proj2 (PM d Hd)) v Hv).
    apply (Rmult_lt_reg_l n); [exact HN|]. lra.
  - intros v N. unfold pmix. rewrite (sumf_ext _ (fun _ => 0)); [rewrite sumf_zero; unfold Rdiv; ring|].
    intros d Hd. apply (PM d Hd). intros Hv. apply N. apply (js_incl d Hd). exact Hv.
  - unfold pmix. rewrite sumf_div, sumf_swap. fold n.
    rewrite (sumf_ext _ (fun _ => 1)); [rewrite sumf_const; fold n; field; lra|].
    intros d Hd. destruct (PM d Hd) as (ND & _ & Z & S). rewrite (sumf_support (fst d) U); [exact S|exact ND|apply js_NoDup|apply js_incl; exact Hd|].
    intros v _ N. apply Z. exact N.
Qed.

Lemma js_kl : PJSD ps = sumf (fun d => PKL (fst d) (snd d) (pmix ps)) ps / n.
Proof using H NE PM.
  pose proof js_n as HN. unfold PJSD. fold U. fold n. pose proof mix_pmf as (_ & MP & _ & _).
  assert (E : sumf (fun v => pmix ps v * ln (pmix ps v)) U = sumf (fun d => sumf (fun v => snd d v * ln (pmix ps v)) U) ps / n).
  { rewrite <- (sumf_swap (fun v d => snd d v * ln (pmix ps v))), <- sumf_div. apply sumf_ext. intros v _.
    rewrite sumf_scal_r. unfold pmix at 1. fold n. field. lra. }
  unfold PEnt at 1. rewrite E.
  rewrite (sumf_ext (fun d => PKL (fst d) (snd d) (pmix ps)) (fun d => - sumf (fun v => snd d v * ln (pmix ps v)) U - PEnt (fst d) (snd d))).
  - rewrite sumf_minus, sumf_opp. field. lra.
  - intros d Hd. destruct (PM d Hd) as (ND & P & Z & S).
    rewrite (sumf_support (fst d) U); [|exact ND|apply js_NoDup|apply js_incl; exact Hd|intros v _ N; rewrite (Z v N); ring].
    unfold PKL, PEnt. rewrite <- sumf_opp. unfold Rminus. rewrite Ropp_involutive, <- sumf_plus. apply sumf_ext. intros v Hv.
    pose proof (P v Hv). pose proof (MP v (js_incl d Hd v Hv)). rewrite ln_div by assumption. ring.
Qed.

Lemma js_nonneg : 0 <= PJSD ps.
Proof using H NE PM.
  rewrite js_kl. apply Rmult_le_pos; [|left; apply Rinv_0_lt_compat, js_n].
  apply sumf_nonneg. intros d Hd. apply (PKL_nonneg _ U); [apply PM; exact Hd|apply mix_pmf|apply js_incl; exact Hd].
Qed.

Lemma js_le : PJSD ps <= ln n.
Proof using H NE PM.
  pose proof js_n as HN. rewrite js_kl. pose proof mix_pmf as (_ & MP & _ & _).
  apply (Rmult_le_reg_r n); [exact HN|]. unfold Rdiv. rewrite Rmult_assoc, Rinv_l, Rmult_1_r by lra.
  apply Rle_trans with (sumf (fun _ => ln n) ps); [|rewrite sumf_const; fold n; lra].
  apply sumf_le. intros d Hd. destruct (PM d Hd) as (ND & P & Z & S).
  apply Rle_trans with (sumf (fun v => snd d v * ln n) (fst d)); [|rewrite sumf_scal_r, S; lra].
  apply sumf_le. intros v Hv. pose proof (P v Hv). pose proof (MP v (js_incl d Hd v Hv)).
  apply Rmult_le_compat_l; [lra|]. apply ln_monotone; [apply Rdiv_lt_0_compat; assumption|].
  apply (Rmult_le_reg_r (pmix ps v)); [assumption|]. unfold Rdiv. rewrite Rmult_assoc, Rinv_l, Rmult_1_r by lra. apply mix_ge. exact Hd.
Qed.

Lemma js_zero : PJSD ps = 0 <-> forall d e v, In d ps -> In e ps -> snd d v = snd e v.
Proof using H NE PM.
  pose proof js_n as HN. rewrite js_kl. split.
  - intros E. assert (Z : sumf (fun d => PKL (fst d) (snd d) (pmix ps)) ps = 0).
    { apply (Rmult_eq_reg_r (/ n)); [|apply Rinv_neq_0_compat; lra]. unfold Rdiv in E. rewrite E. ring. }
    assert (G : forall d, In d ps -> forall v, snd d v = pmix ps v).
    { intros d Hd. apply (PKL_zero (fst d) U); [apply PM; exact Hd|apply mix_pmf|apply js_incl; exact Hd|].
      apply (sumf_zero_all (fun d => PKL (fst d) (snd d) (pmix ps)) ps); [|exact Z|exact Hd]. intros e He.
      apply (PKL_nonneg _ U); [apply PM; exact He|apply mix_pmf|apply js_incl; exact He]. }
    intros d e v Hd He. rewrite (G d Hd), (G e He). reflexivity.
  - intros E. rewrite (sumf_ext _ (fun _ => 0)); [rewrite sumf_zero; unfold Rdiv; ring|].
    intros d Hd. apply (PKL_zero (fst d) U); [apply PM; exact Hd|apply mix_pmf|apply js_incl; exact Hd|].
    intros v. unfold pmix. fold n. rewrite (sumf_ext _ (fun _ => snd d v)); [rewrite sumf_const; fold n; field; lra|].
    intros e He. apply E; assumption.
Qed.
End JS.

Lemma js_perm ps qs : Permutation ps qs -> PJSD ps = PJSD qs.
Proof.
  intros P. unfold PJSD. rewrite (sumf_perm _ _ _ P), (Permutation_length P). f_equal.
  unfold PEnt. f_equal.
  assert (M : forall v, pmix ps v = pmix qs v).
  { intros v. unfold pmix. rewrite (sumf_perm _ _ _ P), (Permutation_length P). reflexivity. }
  rewrite (sumf_ext _ (fun v => pmix qs v * ln (pmix qs v))) by (intros v _; rewrite M; reflexivity).
  apply sumf_perm. unfold distinct. apply NoDup_Permutation; [apply NoDup_nodup|apply NoDup_nodup|].
  intros x. rewrite !nodup_In, !in_concat. split; intros (l & Hl & Hx); exists l; split; try exact Hx.
  - eapply Permutation_in; [apply Permutation_map; exact P|exact Hl].
  - eapply Permutation_in; [apply Permutation_map; symmetry; exact P|exact Hl].
Qed.
End PMF.
