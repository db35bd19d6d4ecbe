(** Proofs: digamma and trigamma inequalities for the NSB estimator. *)
From Coq Require Import Reals Lra Lia List ZArith Arith.
From Verif Require Import RSum SpecGamma SpecNsb.
Import ListNotations.
Local Open Scope R_scope.

(** partial sums *)
Fixpoint ps (f : nat -> R) (n : nat) : R := match n with O => 0 | S n => ps f n + f n end.
Lemma ps_sum f n : ps f (S n) = sum_f_R0 f n.
Proof. induction n as [|n IH]; [cbn; ring|]. change (ps f (S (S n))) with (ps f (S n) + f (S n)). rewrite IH. reflexivity. Qed.
Lemma ps_cv f l : infinite_sum f l -> Un_cv (ps f) l.
Proof.
  intros H eps He. destruct (H eps He) as (N & HN). exists (S N). intros n Hn. destruct n as [|n]; [lia|]. rewrite ps_sum. apply HN. lia.
Qed.
Lemma cv_sub u l (phi : nat -> nat) : Un_cv u l -> (forall n, (n <= phi n)%nat) -> Un_cv (fun n => u (phi n)) l.
Proof. intros H P eps He. destruct (H eps He) as (N & HN). exists N. intros n Hn. apply HN. specialize (P n). lia. Qed.
Lemma cv_le u v a b N : Un_cv u a -> Un_cv v b -> (forall n, (N <= n)%nat -> u n <= v n) -> a <= b.
Proof.
  intros Hu Hv L. apply Rle_cv_lim with (fun n => u (N + n)%nat) (fun n => v (N + n)%nat).
  - intros n. apply L. lia.
  - apply (cv_sub u a (fun n => (N + n)%nat)); [exact Hu|intros; lia].
  - apply (cv_sub v b (fun n => (N + n)%nat)); [exact Hv|intros; lia].
Qed.
Lemma cv_const c : Un_cv (fun _ => c) c.
Proof. intros eps He. exists O. intros n _. unfold R_dist. rewrite Rminus_diag_eq by reflexivity. rewrite Rabs_R0. exact He. Qed.
Lemma cv_scal c u l : Un_cv u l -> Un_cv (fun n => c * u n) (c * l).
Proof. intros H. apply (CV_mult (fun _ => c) u c l); [apply cv_const|exact H]. Qed.

Lemma ps_ext f g n : (forall k, (k < n)%nat -> f k = g k) -> ps f n = ps g n.
Proof. induction n as [|n IH]; intros H; [reflexivity|]. cbn. rewrite IH, H by (intros; try apply H; lia). reflexivity. Qed.
Lemma ps_le f g n : (forall k, (k < n)%nat -> f k <= g k) -> ps f n <= ps g n.
Proof. induction n as [|n IH]; intros H; cbn; [lra|]. apply Rplus_le_compat; [apply IH; intros; apply H; lia|apply H; lia]. Qed.
Lemma ps_minus f g n : ps (fun k => f k - g k) n = ps f n - ps g n.
Proof. induction n as [|n IH]; cbn; [ring|]. rewrite IH. ring. Qed.
Lemma ps_scal c f n : ps (fun k => c * f k) n = c * ps f n.
Proof. induction n as [|n IH]; cbn; [ring|]. rewrite IH. ring. Qed.
Lemma ps_const c n : ps (fun _ => c) n = INR n * c.
Proof. induction n as [|n IH]; [cbn; ring|]. cbn [ps]. rewrite IH, S_INR. ring. Qed.
Lemma ps_nonneg f n : (forall k, (k < n)%nat -> 0 <= f k) -> 0 <= ps f n.
Proof. intros H. pose proof (ps_le (fun _ => 0) f n H) as X. rewrite ps_const, Rmult_0_r in X. exact X. Qed.
Lemma ps_app f n m : ps f (n + m) = ps f n + ps (fun k => f (n + k)%nat) m.
Proof. induction m as [|m IH]; [rewrite Nat.add_0_r; cbn; ring|]. rewrite Nat.add_succ_r. cbn [ps]. rewrite IH. ring. Qed.
Lemma ps_blocks f K M : ps f (K * M) = ps (fun m => ps (fun j => f (K * m + j)%nat) K) M.
Proof.
  induction M as [|M IH]; [rewrite Nat.mul_0_r; reflexivity|]. rewrite Nat.mul_succ_r, ps_app, IH. reflexivity.
Qed.
Lemma ps_sumf {A} (f : A -> nat -> R) (l : list A) n : sumf (fun a => ps (f a) n) l = ps (fun k => sumf (fun a => f a k) l) n.
Proof.
  induction n as [|n IH]; cbn [ps].
  - induction l as [|a l IHl]; cbn [sumf]; [reflexivity|]. rewrite IHl. ring.
  - rewrite <- IH. clear IH. induction l as [|a l IHl]; cbn [sumf]; [ring|]. rewrite IHl. ring.
Qed.

Lemma sq_lt a b : 0 <= a -> a < b -> a ^ 2 < b ^ 2.
Proof. intros. replace (b ^ 2) with (a ^ 2 + (b - a) * (b + a)) by ring. assert (0 < (b - a) * (b + a)) by (apply Rmult_lt_0_compat; lra). lra. Qed.
(** ** bounds of the series with step one *)
Lemma inv_sq_sum M : ps (fun n => / INR (S n) ^ 2) M <= 2.
Proof.
  assert (H : forall m, ps (fun n => / INR (S n) ^ 2) (S m) <= 2 - / INR (S m)).
  { intros m; induction m as [|M' IH]; [change (0 + / INR 1 ^ 2 <= 2 - / INR 1); replace (INR 1) with 1 by reflexivity; replace (/ 1 ^ 2) with 1 by field; rewrite Rinv_1; lra|]. change (ps (fun n => / INR (S n) ^ 2) (S M') + / INR (S (S M')) ^ 2 <= 2 - / INR (S (S M'))).
    set (a := INR (S M')) in *. replace (INR (S (S M'))) with (a + 1) by (rewrite (S_INR (S M')); reflexivity).
    assert (Pa : 0 < a) by (apply lt_0_INR; lia).
    assert (/ (a + 1) ^ 2 <= / a - / (a + 1)).
    { replace (/ a - / (a + 1)) with (/ (a * (a + 1))) by (field; lra). apply Rinv_le_contravar; [apply Rmult_lt_0_compat; lra|]. replace ((a + 1) ^ 2) with (a * (a + 1) + (a + 1)) by ring. lra. }
    lra. }
  destruct M as [|M]; [cbn; lra|]. specialize (H M). assert (0 < / INR (S M)) by (apply Rinv_0_lt_compat, lt_0_INR; lia). lra.
Qed.
Lemma inv_sum_ln c n m : 0 < c + INR n -> ps (fun k => / (c + INR (n + k) + 1)) m <= ln ((c + INR n + INR m) / (c + INR n)).
Proof.
  intros Hc. induction m as [|m IH].
  - cbn [ps INR]. rewrite Rplus_0_r. unfold Rdiv. rewrite Rinv_r by lra. rewrite ln_1. lra.
  - cbn [ps]. set (a := c + INR n) in *. assert (Pm : 0 <= INR m) by apply pos_INR.
    replace (c + INR (n + m) + 1) with (a + INR m + 1) by (unfold a; rewrite plus_INR; ring).
    replace (a + INR (S m)) with (a + INR m + 1) by (rewrite S_INR; ring).
    set (x := a + INR m) in *. assert (Px : 0 < x) by (unfold x; lra).
    assert (X : ln ((x + 1) / a) = ln (x / a) + ln ((x + 1) / x)).
    { rewrite <- ln_mult by (apply Rdiv_lt_0_compat; lra). f_equal. field. lra. }
    rewrite X. apply Rplus_le_compat; [exact IH|].
    (* 1/(x+1) <= ln((x+1)/x), from ln t <= t - 1 at t = x/(x+1) *)
    assert (Y : ln (x / (x + 1)) <= x / (x + 1) - 1).
    { pose proof (exp_ineq1_le (ln (x / (x + 1)))) as W. rewrite exp_ln in W by (apply Rdiv_lt_0_compat; lra). lra. }
    assert (Z : ln ((x + 1) / x) = - ln (x / (x + 1))).
    { rewrite <- ln_Rinv by (apply Rdiv_lt_0_compat; lra). f_equal. field. lra. }
    rewrite Z. replace (/ (x + 1)) with (- (x / (x + 1) - 1)) by (field; lra). lra.
Qed.

Section tri.
  Context (T : R -> R) (HT : is_trigamma T).
  Lemma tri_cv x : 0 < x -> Un_cv (ps (fun n => / (x + INR n) ^ 2)) (T x).
  Proof. intros Hx. apply ps_cv, HT, Hx. Qed.
  (** xi increases with beta *)
  Lemma dxi_pos K beta : (2 <= K)%nat -> 0 <= beta -> 0 < INR K * T (1 + INR K * beta) - T (1 + beta).
  Proof.
    intros HK Hb. assert (PK : 2 <= INR K) by (apply (le_INR 2); exact HK).
    set (x := 1 + INR K * beta). assert (Px : 1 <= x) by (unfold x; nra).
    set (f := fun n => / (x + INR n) ^ 2).
    set (de := INR K * (/ x ^ 2 - / (INR K * (1 + beta)) ^ 2)).
    assert (Pd : 0 < de).
    { unfold de. apply Rmult_lt_0_compat; [lra|]. assert (/ (INR K * (1 + beta)) ^ 2 < / x ^ 2); [|lra].
      assert (P1 : 0 <= INR K * beta) by (apply Rmult_le_pos; lra).
      assert (P2 : x < INR K * (1 + beta)) by (unfold x; lra).
      apply Rinv_lt_contravar; [apply Rmult_lt_0_compat; apply pow_lt; lra|]. apply sq_lt; lra. }
    assert (B : forall m, / (1 + beta + INR m) ^ 2 <= INR K * ps (fun j => f (K * m + j)%nat) K).
    { intros m. assert (Pm : 0 <= INR m) by apply pos_INR.
      assert (X : forall j, (j < K)%nat -> / (INR K * (1 + beta + INR m)) ^ 2 <= f (K * m + j)%nat).
      { intros j Hj. unfold f. assert (Pj : 0 <= INR j) by apply pos_INR. assert (INR j + 1 <= INR K) by (rewrite <- S_INR; apply le_INR; lia).
        rewrite plus_INR, mult_INR. apply Rinv_le_contravar; [apply pow_lt; unfold x; nra|]. apply pow_incr. unfold x. nra. }
      pose proof (ps_le _ _ K X) as Y. rewrite ps_const in Y.
      apply Rle_trans with (INR K * (INR K * / (INR K * (1 + beta + INR m)) ^ 2)); [right; field; nra|]. apply Rmult_le_compat_l; [lra|exact Y]. }
    assert (B0 : / (1 + beta + INR 0) ^ 2 + de <= INR K * ps (fun j => f (K * 0 + j)%nat) K).
    { destruct K as [|K']; [lia|]. rewrite Nat.mul_0_r. cbn [Nat.add].
      assert (X : forall j, (j < S K')%nat -> / (INR (S K') * (1 + beta)) ^ 2 <= f j).
      { intros j Hj. unfold f. assert (Pj : 0 <= INR j) by apply pos_INR. assert (INR j + 1 <= INR (S K')) by (rewrite <- S_INR; apply le_INR; lia).
        apply Rinv_le_contravar; [apply pow_lt; unfold x; nra|]. apply pow_incr. unfold x. nra. }
      assert (Y : ps f (S K') = f 0%nat + ps (fun k => f (1 + k)%nat) K') by (change (S K') with (1 + K')%nat; rewrite (ps_app f 1 K'); cbn [ps]; ring).
      assert (Z : INR K' * / (INR (S K') * (1 + beta)) ^ 2 <= ps (fun k => f (1 + k)%nat) K').
      { rewrite <- ps_const. apply ps_le. intros j Hj. apply X. lia. }
      change (ps (fun j => f j) (S K')) with (ps f (S K')). rewrite Y. unfold f at 1. change (INR 0) with 0. rewrite !Rplus_0_r. unfold de.
      replace (/ (1 + beta) ^ 2) with (INR (S K') * ((INR K' + 1) * / (INR (S K') * (1 + beta)) ^ 2)) by (rewrite S_INR in *; field; nra).
      rewrite <- Rmult_plus_distr_l. apply Rmult_le_compat_l; [lra|]. set (q := / (INR (S K') * (1 + beta)) ^ 2) in *. set (w := ps _ _) in *. set (r := / x ^ 2). clearbody q w r. lra. }
    assert (G : forall M, (1 <= M)%nat -> ps (fun n => / (1 + beta + INR n) ^ 2) M + de <= INR K * ps f (K * M)).
    { intros M HM. rewrite ps_blocks. destruct M as [|M]; [lia|]. clear HM. induction M as [|M IH].
      - cbn [ps]. rewrite !Rplus_0_l. exact B0.
      - change (ps (fun n => / (1 + beta + INR n) ^ 2) (S M) + / (1 + beta + INR (S M)) ^ 2 + de <=
          INR K * (ps (fun m => ps (fun j => f (K * m + j)%nat) K) (S M) + ps (fun j => f (K * S M + j)%nat) K)).
        specialize (B (S M)). lra. }
    assert (C : T (1 + beta) + de <= INR K * T x).
    { apply (cv_le (fun M => ps (fun n => / (1 + beta + INR n) ^ 2) M + de) (fun M => INR K * ps f (K * M)) _ _ 1).
      - apply CV_plus; [apply tri_cv; lra|apply cv_const].
      - apply cv_scal. apply (cv_sub (ps f)); [apply tri_cv; lra|]. intros n. nia.
      - exact G. }
    lra.
  Qed.
  Lemma tri_lip x y : 1 <= x -> x <= y -> 0 <= T x - T y <= 4 * (y - x).
  Proof.
    intros Hx Hy.
    assert (C : Un_cv (ps (fun n => / (x + INR n) ^ 2 - / (y + INR n) ^ 2)) (T x - T y)).
    { intros eps He. destruct (CV_minus _ _ _ _ (tri_cv x ltac:(lra)) (tri_cv y ltac:(lra)) eps He) as (N & HN). exists N. intros n Hn. rewrite ps_minus. apply HN. exact Hn. }
    assert (B : forall n, 0 <= / (x + INR n) ^ 2 - / (y + INR n) ^ 2 <= 2 * (y - x) * / INR (S n) ^ 2).
    { intros n. assert (Pn : 0 <= INR n) by apply pos_INR. rewrite S_INR. set (a := x + INR n). set (c := y + INR n).
      assert (1 <= a /\ a <= c /\ INR n + 1 <= a) as (A1 & A2 & A3) by (unfold a, c; lra). split.
      - assert (/ c ^ 2 <= / a ^ 2); [|lra]. apply Rinv_le_contravar; [apply pow_lt; lra|apply pow_incr; lra].
      - replace (y - x) with (c - a) by (unfold a, c; ring).
        apply Rle_trans with (2 * (c - a) * / a ^ 2).
        + replace (/ a ^ 2 - / c ^ 2) with ((c - a) * ((c + a) / c ^ 2) * / a ^ 2) by (field; lra).
          apply Rmult_le_compat_r; [left; apply Rinv_0_lt_compat, pow_lt; lra|]. rewrite (Rmult_comm 2). apply Rmult_le_compat_l; [lra|].
          apply Rmult_le_reg_r with (c ^ 2); [apply pow_lt; lra|]. unfold Rdiv. rewrite Rmult_assoc, Rinv_l by (apply pow_nonzero; lra). cbn. nra.
        + apply Rmult_le_compat_l; [lra|]. apply Rinv_le_contravar; [apply pow_lt; lra|]. apply pow_incr. lra. }
    split.
    - apply (cv_le (fun _ => 0) (ps (fun n => / (x + INR n) ^ 2 - / (y + INR n) ^ 2)) _ _ 0); [apply cv_const|exact C|].
      intros n _. apply ps_nonneg. intros k _. apply B.
    - apply (cv_le (ps (fun n => / (x + INR n) ^ 2 - / (y + INR n) ^ 2)) (fun _ => 4 * (y - x)) _ _ 0); [exact C|apply cv_const|].
      intros n _. apply Rle_trans with (ps (fun n => 2 * (y - x) * / INR (S n) ^ 2) n); [apply ps_le; intros k _; apply B|].
      rewrite ps_scal. pose proof (inv_sq_sum n). nra.
  Qed.
End tri.

Section di.
  Context (D : R -> R) (HD : is_digamma D).
  (** differences of digamma *)
  Lemma di_diff_cv x y : 0 < x -> 0 < y -> Un_cv (ps (fun n => / (x + INR n) - / (y + INR n))) (D y - D x).
  Proof.
    intros Hx Hy eps He. destruct (CV_minus _ _ _ _ (ps_cv _ _ (HD y Hy)) (ps_cv _ _ (HD x Hx)) eps He) as (N & HN).
    exists N. intros n Hn. specialize (HN n Hn). unfold R_dist in *.
    replace (ps (fun n0 => / (x + INR n0) - / (y + INR n0)) n - (D y - D x)) with
      (ps (fun n0 => / INR (S n0) - / (y + INR n0)) n - ps (fun n0 => / INR (S n0) - / (x + INR n0)) n - (D y + euler_gamma - (D x + euler_gamma))); [exact HN|].
    rewrite <- ps_minus. rewrite (ps_ext _ (fun n0 => / (x + INR n0) - / (y + INR n0))) by (intros; ring). ring.
  Qed.
  Lemma di_lip x y : 1 <= x -> x <= y -> 0 <= D y - D x <= 2 * (y - x).
  Proof.
    intros Hx Hy. pose proof (di_diff_cv x y ltac:(lra) ltac:(lra)) as C.
    assert (B : forall n, 0 <= / (x + INR n) - / (y + INR n) <= (y - x) * / INR (S n) ^ 2).
    { intros n. assert (Pn : 0 <= INR n) by apply pos_INR. rewrite S_INR. set (a := x + INR n). set (c := y + INR n).
      assert (1 <= a /\ a <= c /\ INR n + 1 <= a) as (A1 & A2 & A3) by (unfold a, c; lra). replace (y - x) with (c - a) by (unfold a, c; ring).
      replace (/ a - / c) with ((c - a) * / (a * c)) by (field; lra). split.
      - apply Rmult_le_pos; [lra|]. left. apply Rinv_0_lt_compat. nra.
      - apply Rmult_le_compat_l; [lra|]. apply Rinv_le_contravar; [apply pow_lt; lra|]. cbn. nra. }
    split.
    - apply (cv_le (fun _ => 0) (ps (fun n => / (x + INR n) - / (y + INR n))) _ _ 0); [apply cv_const|exact C|].
      intros n _. apply ps_nonneg. intros k _. apply B.
    - apply (cv_le (ps (fun n => / (x + INR n) - / (y + INR n))) (fun _ => 2 * (y - x)) _ _ 0); [exact C|apply cv_const|].
      intros n _. apply Rle_trans with (ps (fun n => (y - x) * / INR (S n) ^ 2) n); [apply ps_le; intros k _; apply B|].
      rewrite ps_scal. pose proof (inv_sq_sum n). nra.
  Qed.
End di.
