(** Proofs: limits of the Leonenko-Pronzato-Savani estimates as the order tends to 1. *)
From Coq Require Import Reals Lra Lia List ZArith Arith.
From Verif Require Import RSum SpecBase SpecGamma SpecKnn2 SpecOrder PGamma PKnn3 PKnn4.
Import ListNotations.
Local Open Scope R_scope.

(** limits of real functions of the order, at 1 *)
Definition lim1 (h : R -> R) (v : R) : Prop :=
  forall eps, 0 < eps -> exists del, 0 < del /\ forall q, 0 < Rabs (q - 1) < del -> Rabs (h q - v) < eps.
Lemma lim1_ext h g v : (exists del, 0 < del /\ forall q, 0 < Rabs (q - 1) < del -> h q = g q) -> lim1 h v -> lim1 g v.
Proof.
  intros (d0 & D0 & X) L eps He. destruct (L eps He) as (d & D & Y). exists (Rmin d d0). split; [apply Rmin_pos; assumption|].
  intros q (Q1 & Q2). pose proof (Rmin_l d d0). pose proof (Rmin_r d d0). rewrite <- X by (split; lra). apply Y. split; lra.
Qed.
Lemma lim1_const c : lim1 (fun _ => c) c.
Proof. intros eps He. exists 1. split; [lra|]. intros q _. replace (c - c) with 0 by ring. rewrite Rabs_R0. exact He. Qed.
Lemma lim1_plus f g a b : lim1 f a -> lim1 g b -> lim1 (fun q => f q + g q) (a + b).
Proof.
  intros F H eps He. destruct (F (eps / 2) ltac:(lra)) as (d1 & D1 & X1). destruct (H (eps / 2) ltac:(lra)) as (d2 & D2 & X2).
  exists (Rmin d1 d2). split; [apply Rmin_pos; assumption|]. intros q (Q1 & Q2). pose proof (Rmin_l d1 d2). pose proof (Rmin_r d1 d2).
  specialize (X1 q ltac:(split; lra)). specialize (X2 q ltac:(split; lra)).
  replace (f q + g q - (a + b)) with ((f q - a) + (g q - b)) by ring. pose proof (Rabs_triang (f q - a) (g q - b)). lra.
Qed.
Lemma lim1_opp f a : lim1 f a -> lim1 (fun q => - f q) (- a).
Proof.
  intros F eps He. destruct (F eps He) as (d & D & X). exists d. split; [exact D|]. intros q Q. specialize (X q Q).
  replace (- f q - - a) with (- (f q - a)) by ring. rewrite Rabs_Ropp. exact X.
Qed.
Lemma lim1_minus f g a b : lim1 f a -> lim1 g b -> lim1 (fun q => f q - g q) (a - b).
Proof. intros F H. apply (lim1_plus f (fun q => - g q) a (- b)); [exact F|apply lim1_opp; exact H]. Qed.
Lemma lim1_scal c f a : lim1 f a -> lim1 (fun q => c * f q) (c * a).
Proof.
  intros F eps He. destruct (Req_dec c 0) as [->|N].
  - exists 1. split; [lra|]. intros q _. replace (0 * f q - 0 * a) with 0 by ring. rewrite Rabs_R0. exact He.
  - pose proof (Rabs_pos_lt c N) as P. destruct (F (eps / Rabs c)) as (d & D & X); [apply Rdiv_lt_0_compat; assumption|].
    exists d. split; [exact D|]. intros q Q. specialize (X q Q). replace (c * f q - c * a) with (c * (f q - a)) by ring.
    rewrite Rabs_mult. replace eps with (Rabs c * (eps / Rabs c)) by (field; lra). apply Rmult_lt_compat_l; assumption.
Qed.
Lemma lim1_div c f a : lim1 f a -> lim1 (fun q => f q / c) (a / c).
Proof.
  intros F. apply (lim1_ext (fun q => / c * f q)); [exists 1; split; [lra|]; intros; unfold Rdiv; ring|].
  replace (a / c) with (/ c * a) by (unfold Rdiv; ring). apply lim1_scal. exact F.
Qed.
Lemma lim1_sum (hs : list (R -> R)) (vs : list R) : Forall2 lim1 hs vs -> lim1 (fun q => sumR (map (fun h => h q) hs)) (sumR vs).
Proof.
  intros F. induction F as [|h v hs vs H F IH]; [apply (lim1_const 0)|]. unfold sumR in *. cbn [map sumf]. apply lim1_plus; assumption.
Qed.
Lemma lim1_unique h v w : lim1 h v -> lim1 h w -> v = w.
Proof.
  intros A B. destruct (Req_dec v w) as [|N]; [assumption|exfalso].
  assert (P : 0 < Rabs (v - w) / 2) by (pose proof (Rabs_pos_lt (v - w) ltac:(lra)); lra).
  destruct (A _ P) as (d1 & D1 & X1). destruct (B _ P) as (d2 & D2 & X2).
  pose proof (Rmin_pos d1 d2 D1 D2) as Pm. pose proof (Rmin_l d1 d2). pose proof (Rmin_r d1 d2).
  set (q := 1 + Rmin d1 d2 / 2). assert (Q : Rabs (q - 1) = Rmin d1 d2 / 2) by (unfold q; rewrite Rabs_pos_eq; lra).
  specialize (X1 q ltac:(rewrite Q; split; lra)). specialize (X2 q ltac:(rewrite Q; split; lra)).
  pose proof (Rabs_triang (v - h q) (h q - w)) as T. replace (v - h q + (h q - w)) with (v - w) in T by ring.
  rewrite (Rabs_minus_sym v (h q)) in T. lra.
Qed.

(** a derivative at 0 is such a limit, in the variable 1 - q *)
Lemma deriv_lim1 (F : R -> R) l : derivable_pt_lim F 0 l -> F 0 = 0 -> lim1 (fun q => F (1 - q) / (1 - q)) l.
Proof.
  intros D F0 eps He. destruct (D eps He) as (d & X). exists d. split; [apply cond_pos|]. intros q (Q1 & Q2).
  assert (N : 1 - q <> 0) by (intros Z; replace (q - 1) with 0 in Q1 by lra; rewrite Rabs_R0 in Q1; lra).
  specialize (X (1 - q) N). rewrite Rabs_minus_sym in X. specialize (X Q2). rewrite Rplus_0_l, F0, Rminus_0_r in X. exact X.
Qed.

Lemma sumf_deriv {A} (g : A -> R -> R) (g' : A -> R) (l : list A) x : (forall a, In a l -> derivable_pt_lim (g a) x (g' a)) ->
  derivable_pt_lim (fun t => sumf (fun a => g a t) l) x (sumf g' l).
Proof.
  induction l as [|a l IH]; intros H; [apply derivable_pt_lim_const|]. cbn [sumf].
  apply (derivable_pt_lim_plus (g a) (fun t => sumf (fun a => g a t) l)); [apply H; left; reflexivity|].
  apply IH. intros; apply H; right; assumption.
Qed.
Lemma exp_lin_deriv a : derivable_pt_lim (fun t => exp (t * a)) 0 a.
Proof.
  assert (D : derivable_pt_lim (comp exp (fun t => t * a)) 0 (exp (0 * a) * a)).
  { apply derivable_pt_lim_comp; [|apply derivable_pt_lim_exp].
    assert (D : derivable_pt_lim (mult_fct id (fct_cte a)) 0 (1 * fct_cte a 0 + id 0 * 0))
      by (apply derivable_pt_lim_mult; [apply derivable_pt_lim_id|apply derivable_pt_lim_const]).
    unfold fct_cte, id in D. replace (1 * a + 0 * 0) with a in D by ring. exact D. }
  rewrite Rmult_0_l, exp_0, Rmult_1_l in D. exact D.
Qed.

Section Lim.
Variable G : R -> R.
Hypothesis HG : is_gamma G.
Hypothesis HC : log_convex G.
Variables (c d k : nat) (es : list R).
Hypothesis Hc : (1 <= c)%nat.
Hypothesis Hk : (1 <= k)%nat.
Hypothesis He : es <> [].
Hypothesis Hpos : forall e, In e es -> 0 < e.

Let X (e : R) : R := INR c * euclidean_ball d e.
Let M (t : R) : R := mean (map (fun e => Rpower (X e) t) es).
Let F (t : R) : R := ln (M t) - (ln (G (INR k + t)) - ln (G (INR k))).

Lemma Lpos : 0 < INR (length es). Proof. apply lt_0_INR. destruct es; [congruence|cbn; lia]. Qed.
Lemma M_pos t : 0 < M t.
Proof.
  unfold M, mean. rewrite map_length. apply Rdiv_lt_0_compat; [|exact Lpos]. unfold sumR. rewrite sumf_map.
  destruct es as [|e l]; [congruence|]. cbn [sumf].
  apply Rplus_lt_le_0_compat; [apply exp_pos|]. apply sumf_nonneg. intros y _. left. apply exp_pos.
Qed.
Lemma M_0 : M 0 = 1.
Proof.
  unfold M, mean. rewrite map_length. unfold sumR. rewrite sumf_map.
  rewrite (sumf_ext _ (fun _ => 1)); [|intros e Hin; apply Rpower_O].
  2:{ unfold X. apply Rmult_lt_0_compat; [apply lt_0_INR; lia|apply euclid_pos, Hpos, Hin]. }
  rewrite sumf_const. pose proof Lpos. field. lra.
Qed.
Lemma M_deriv : derivable_pt_lim M 0 (mean (map (fun e => ln (X e)) es)).
Proof.
  assert (D : derivable_pt_lim (mult_fct (fct_cte (/ INR (length es))) (fun t => sumf (fun e => exp (t * ln (X e))) es)) 0
                (0 * sumf (fun e => exp (0 * ln (X e))) es + fct_cte (/ INR (length es)) 0 * sumf (fun e => ln (X e)) es)).
  { apply derivable_pt_lim_mult; [apply derivable_pt_lim_const|]. apply (sumf_deriv (fun e t => exp (t * ln (X e)))).
    intros e _. apply exp_lin_deriv. }
  unfold fct_cte in D. rewrite Rmult_0_l, Rplus_0_l in D.
  replace (mean (map (fun e => ln (X e)) es)) with (/ INR (length es) * sumf (fun e => ln (X e)) es).
  2:{ unfold mean. rewrite map_length. unfold sumR. rewrite sumf_map. unfold Rdiv. ring. }
  intros eps Heps. destruct (D eps Heps) as (del & Y). exists del. intros h H1 H2. specialize (Y h H1 H2).
  unfold mult_fct in Y. unfold M, mean. rewrite !map_length. unfold sumR. rewrite !sumf_map. unfold Rpower.
  unfold Rdiv at 2 3. rewrite !(Rmult_comm (sumf _ es) (/ INR (length es))). exact Y.
Qed.
Lemma F_0 : F 0 = 0. Proof. unfold F. rewrite M_0, ln_1, Rplus_0_r. ring. Qed.
Lemma F_deriv : derivable_pt_lim F 0 (lps_shannon c d k es).
Proof.
  replace (lps_shannon c d k es) with (/ M 0 * mean (map (fun e => ln (X e)) es) - (psi k - 0)).
  2:{ rewrite M_0. unfold lps_shannon, mean. rewrite !map_length. unfold sumR. rewrite !sumf_map.
      rewrite (sumf_ext (fun e => ln (INR c * euclidean_ball d e) - psi k) (fun e => ln (X e) + - psi k)) by (intros; reflexivity).
      rewrite sumf_plus, sumf_const. pose proof Lpos. field. lra. }
  apply (derivable_pt_lim_minus (fun t => ln (M t)) (fun t => ln (G (INR k + t)) - ln (G (INR k)))).
  - apply (derivable_pt_lim_comp M ln); [exact M_deriv|]. apply derivable_pt_lim_ln. apply M_pos.
  - apply (derivable_pt_lim_minus (fun t => ln (G (INR k + t))) (fun _ => ln (G (INR k)))); [apply lnG_deriv; assumption|].
    apply derivable_pt_lim_const.
Qed.
Lemma integral_exp q : q < INR k + 1 -> lps_integral G c d k q es = exp (F (1 - q)).
Proof.
  intros Hq. assert (Pk : 0 < INR k) by (apply lt_0_INR; lia).
  pose proof (G_pos G HG (INR k) Pk) as GK. pose proof (G_pos G HG (INR k + (1 - q)) ltac:(lra)) as GQ.
  unfold lps_integral, F. replace (INR k + 1 - q) with (INR k + (1 - q)) by ring. fold (M (1 - q)).
  replace (ln (M (1 - q)) - (ln (G (INR k + (1 - q))) - ln (G (INR k))))
    with (ln (G (INR k)) + - ln (G (INR k + (1 - q))) + ln (M (1 - q))) by ring.
  rewrite !exp_plus, exp_Ropp, !exp_ln by (try assumption; apply M_pos). unfold Rdiv. reflexivity.
Qed.
Lemma near_one q : 0 < Rabs (q - 1) < 1 -> 0 < q < INR k + 1 /\ q <> 1.
Proof.
  intros (A & B). apply Rabs_def2 in B. pose proof (le_INR 1 k Hk) as L. change (INR 1) with 1 in L. split; [lra|].
  intros ->. replace (1 - 1) with 0 in A by ring. rewrite Rabs_R0 in A. lra.
Qed.
Lemma renyi_lim : lim1 (fun q => ln (lps_integral G c d k q es) / (1 - q)) (lps_shannon c d k es).
Proof.
  apply (lim1_ext (fun q => F (1 - q) / (1 - q))); [|apply deriv_lim1; [exact F_deriv|exact F_0]].
  exists 1. split; [lra|]. intros q Q. apply near_one in Q as (Q & _). rewrite integral_exp, ln_exp by lra. reflexivity.
Qed.
Lemma tsallis_lim : lim1 (fun q => (1 - lps_integral G c d k q es) / (q - 1)) (lps_shannon c d k es).
Proof.
  apply (lim1_ext (fun q => (exp (F (1 - q)) - 1) / (1 - q))).
  - exists 1. split; [lra|]. intros q Q. apply near_one in Q as (Q & N). rewrite integral_exp by lra. field. split; lra.
  - apply (deriv_lim1 (fun t => exp (F t) - 1)); [|rewrite F_0, exp_0; ring].
    replace (lps_shannon c d k es) with (exp (F 0) * lps_shannon c d k es - 0) by (rewrite F_0, exp_0; ring).
    apply (derivable_pt_lim_minus (fun t => exp (F t)) (fun _ => 1)); [|apply derivable_pt_lim_const].
    apply (derivable_pt_lim_comp F exp); [exact F_deriv|apply derivable_pt_lim_exp].
Qed.
End Lim.
