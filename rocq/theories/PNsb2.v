(** Proofs: the posterior mean entropy of the NSB estimator lies in [0, ln nvals], and the integrands are continuous. *)
From Coq Require Import Reals Lra Lia List ZArith Arith.
From Coquelicot Require Import Coquelicot.
From Verif Require Import RSum Spec SpecGamma SpecEst PEst SpecNsb PNsb.
Import ListNotations.
Local Open Scope R_scope.

(** tangent of x/(x+c) at a *)
Lemma tangent c a x : 0 < c -> 0 <= a -> 0 <= x -> x / (x + c) <= a / (a + c) + c * (x - a) / (a + c) ^ 2.
Proof.
  intros Hc Ha Hx.
  assert (E : a / (a + c) + c * (x - a) / (a + c) ^ 2 - x / (x + c) = c * (x - a) ^ 2 / ((a + c) ^ 2 * (x + c))) by (field; lra).
  assert (0 <= c * (x - a) ^ 2 / ((a + c) ^ 2 * (x + c))); [|lra].
  apply Rmult_le_pos; [apply Rmult_le_pos; [lra|apply pow2_ge_0]|]. left. apply Rinv_0_lt_compat, Rmult_lt_0_compat; [apply pow_lt; lra|lra].
Qed.

Section bound.
  Context {A : Type} (l : list A) (w : A -> R) (D : R -> R) (HD : is_digamma D).
  Let tot := sumf w l.
  Let L := length l.
  Context (Hw : forall v, In v l -> 0 < w v) (Hl : l <> []).
  Let HL : (1 <= L)%nat.
  Proof. unfold L. destruct l; [congruence|cbn; lia]. Qed.
  Let Ptot : 0 < tot.
  Proof. apply sumf_pos; assumption. Qed.
  Definition mean_ent : R := D (tot + 1) - sumf (fun v => w v / tot * D (w v + 1)) l.
  Lemma mean_ent_alt : mean_ent = sumf (fun v => w v / tot * (D (tot + 1) - D (w v + 1))) l.
  Proof.
    unfold mean_ent. rewrite (sumf_ext (fun v => w v / tot * (D (tot + 1) - D (w v + 1))) (fun v => D (tot + 1) / tot * w v - w v / tot * D (w v + 1))).
    - rewrite sumf_minus, sumf_scal. fold tot. f_equal. field. lra.
    - intros v _. field. lra.
  Qed.
  Lemma mean_ent_nonneg : 0 <= mean_ent.
  Proof.
    rewrite mean_ent_alt. apply sumf_nonneg. intros v Hv. pose proof (Hw v Hv). apply Rmult_le_pos.
    - left. apply Rdiv_lt_0_compat; lra.
    - assert (w v <= tot) by (apply (sumf_In_le w l v); [intros y Hy; left; auto|exact Hv]). apply (di_lip D HD (w v + 1) (tot + 1)); lra.
  Qed.
  Lemma jensen c : 0 < c -> sumf (fun v => w v / tot * / (w v + c)) l <= / (tot / INR L + c).
  Proof.
    intros Hc. assert (PL : 0 < INR L) by (apply lt_0_INR; lia). set (a := tot / INR L). assert (Pa : 0 < a) by (apply Rdiv_lt_0_compat; assumption).
    apply Rle_trans with (sumf (fun v => / tot * (a / (a + c)) + / tot * (c / (a + c) ^ 2) * (w v - a)) l).
    - apply sumf_le. intros v Hv. pose proof (Hw v Hv). pose proof (tangent c a (w v) Hc ltac:(lra) ltac:(lra)) as X.
      replace (w v / tot * / (w v + c)) with (/ tot * (w v / (w v + c))) by (field; lra).
      replace (/ tot * (a / (a + c)) + / tot * (c / (a + c) ^ 2) * (w v - a)) with (/ tot * (a / (a + c) + c * (w v - a) / (a + c) ^ 2)) by (field; lra).
      apply Rmult_le_compat_l; [left; apply Rinv_0_lt_compat; lra|exact X].
    - right. rewrite sumf_plus, sumf_const, sumf_scal, sumf_minus, sumf_const. fold tot L.
      replace (tot - INR L * a) with 0 by (unfold a; field; lra). replace tot with (INR L * a) at 1 by (unfold a; field; lra). field. lra.
  Qed.
  Lemma mean_ent_le : mean_ent <= ln (INR L).
  Proof.
    assert (PL : 1 <= INR L) by (apply (le_INR 1); lia). set (a := tot / INR L). assert (Pa : 0 < a) by (apply Rdiv_lt_0_compat; lra).
    assert (ET : tot = INR L * a) by (unfold a; field; lra).
    set (g := fun n => sumf (fun v => w v / tot * (/ (w v + 1 + INR n) - / (tot + 1 + INR n))) l).
    assert (C : Un_cv (ps g) mean_ent).
    { rewrite mean_ent_alt.
      assert (X : forall l', (forall v, In v l' -> 0 < w v) ->
        Un_cv (fun n => sumf (fun v => w v / tot * ps (fun k => / (w v + 1 + INR k) - / (tot + 1 + INR k)) n) l') (sumf (fun v => w v / tot * (D (tot + 1) - D (w v + 1))) l')).
      { induction l' as [|v l' IH]; intros P; cbn [sumf]; [apply cv_const|]. apply CV_plus.
        - apply cv_scal. apply di_diff_cv; [exact HD| |lra]. specialize (P v (or_introl eq_refl)). lra.
        - apply IH. intros u Hu. apply P. right; exact Hu. }
      intros eps He. destruct (X l Hw eps He) as (N & HN). exists N. intros n Hn. specialize (HN n Hn). unfold g.
      rewrite <- ps_sumf. rewrite (sumf_ext (fun a0 => ps (fun n0 => w a0 / tot * (/ (w a0 + 1 + INR n0) - / (tot + 1 + INR n0))) n)
        (fun v => w v / tot * ps (fun k => / (w v + 1 + INR k) - / (tot + 1 + INR k)) n)); [exact HN|]. intros v _. apply ps_scal. }
    apply (cv_le (ps g) (fun _ => ln (INR L)) _ _ 1); [exact C|apply cv_const|]. intros M HM.
    assert (B : forall n, g n <= / (a + INR n + 1) - / (tot + INR n + 1)).
    { intros n. assert (Pn : 0 <= INR n) by apply pos_INR. unfold g.
      rewrite (sumf_ext _ (fun v => w v / tot * / (w v + (INR n + 1)) - / (tot + INR n + 1) / tot * w v)).
      - rewrite sumf_minus, sumf_scal. fold tot. pose proof (jensen (INR n + 1) ltac:(lra)) as J. fold a in J.
        replace (a + INR n + 1) with (a + (INR n + 1)) by ring. replace (/ (tot + INR n + 1) / tot * tot) with (/ (tot + INR n + 1)) by (field; lra). lra.
      - intros v Hv. pose proof (Hw v Hv). field. lra. }
    apply Rle_trans with (ps (fun n => / (a + INR n + 1) - / (tot + INR n + 1)) M); [apply ps_le; intros; apply B|].
    rewrite ps_minus.
    assert (G : ps (fun n => / (a + INR n + 1)) M <= ps (fun k => / (tot + INR k + 1)) (L * M)).
    { rewrite ps_blocks. apply ps_le. intros n _. assert (Pn : 0 <= INR n) by apply pos_INR.
      replace (/ (a + INR n + 1)) with (INR L * / (INR L * (a + INR n + 1))) by (field; lra). rewrite <- ps_const. apply ps_le. intros j Hj.
      assert (Pj : 0 <= INR j) by apply pos_INR. assert (INR j + 1 <= INR L) by (rewrite <- S_INR; apply le_INR; lia).
      rewrite plus_INR, mult_INR, ET. assert (0 <= INR L * a) by (apply Rmult_le_pos; lra). assert (0 <= INR L * INR n) by (apply Rmult_le_pos; lra).
      apply Rinv_le_contravar; lra. }
    replace (L * M)%nat with (M + (L * M - M))%nat in G by nia. rewrite ps_app in G.
    assert (PM : 1 <= INR M) by (apply (le_INR 1); exact HM).
    pose proof (inv_sum_ln tot M (L * M - M) ltac:(lra)) as X.
    assert (EM : tot + INR M + INR (L * M - M) = tot + INR L * INR M) by (rewrite minus_INR by nia; rewrite mult_INR; ring). rewrite EM in X.
    assert (Y : ln ((tot + INR L * INR M) / (tot + INR M)) <= ln (INR L)).
    { apply ln_monotone; [apply Rdiv_lt_0_compat; nra|]. apply Rmult_le_reg_r with (tot + INR M); [lra|].
      unfold Rdiv. rewrite Rmult_assoc, Rinv_l by lra. rewrite Rmult_1_r, Rmult_plus_distr_l.
      assert (1 * tot <= INR L * tot) by (apply Rmult_le_compat_r; lra). lra. }
    cbv beta in X, G. lra.
  Qed.
End bound.

Section post.
Context {A : Type} `{EqDec A} (D : R -> R) (HD : is_digamma D).
Lemma posterior_bounds (xs : list A) beta : xs <> [] -> 0 <= beta -> 0 <= posterior_entropy D xs beta <= ln (INR (nvals xs)).
Proof.
  intros NE Hb.
  assert (Hw : forall v, In v (distinct xs) -> 0 < INR (count xs v) + beta).
  { intros v Hv. assert (0 < INR (count xs v)); [|lra]. apply lt_0_INR. unfold distinct in Hv. apply nodup_In in Hv. unfold count. apply (count_occ_In eq_dec). exact Hv. }
  assert (Hl : distinct xs <> []).
  { destruct xs as [|x xs]; [congruence|]. intros E. assert (X : In x (distinct (x :: xs))) by (apply nodup_In; left; reflexivity). rewrite E in X. exact X. }
  assert (E : posterior_entropy D xs beta = mean_ent (distinct xs) (fun v => INR (count xs v) + beta) D).
  { unfold posterior_entropy, mean_ent, bycount. rewrite sumf_plus, sumf_const. pose proof (bycount_id xs) as X. unfold bycount in X. rewrite X. reflexivity. }
  rewrite E. split; [apply mean_ent_nonneg|apply mean_ent_le]; assumption.
Qed.
End post.
