(** Gibbs' inequality and entropy of probability vectors. *)
From Coq Require Import Reals Lra Lia List Permutation Arith Bool.
From Verif Require Import RSum Spec Info Info2.
Import ListNotations.
Local Open Scope R_scope.

Section Gibbs.
Context {A : Type} (l : list A) (p q : A -> R).
Hypothesis Hp : forall x, In x l -> 0 <= p x.
Hypothesis Hq : forall x, In x l -> 0 <= q x.
Hypothesis Habs : forall x, In x l -> q x = 0 -> p x = 0.
Hypothesis Hsum : sumf q l <= sumf p l.

Lemma gibbs_pt x : In x l -> p x - q x <= p x * ln (p x / q x).
Proof using Hp Hq Habs.
  intros Hx. pose proof (Hp x Hx). pose proof (Hq x Hx).
  destruct (Req_dec (p x) 0) as [E|N]; [rewrite E, Rmult_0_l; lra|].
  assert (q x <> 0) by (intros E; apply N; apply Habs; assumption).
  assert (0 < q x) by lra. assert (0 < p x) by lra.
  assert (0 < p x / q x) by (apply Rdiv_lt_0_compat; assumption).
  pose proof (ln_ge_1inv _ H4).
  assert (p x * (1 - / (p x / q x)) <= p x * ln (p x / q x)) by (apply Rmult_le_compat_l; lra).
  replace (p x * (1 - / (p x / q x))) with (p x - q x) in H6 by (field; lra). exact H6.
Qed.

Lemma gibbs_pt_eq x : In x l -> p x * ln (p x / q x) = p x - q x -> p x = q x.
Proof using Hp Hq Habs.
  intros Hx E. pose proof (Hp x Hx). pose proof (Hq x Hx).
  destruct (Req_dec (p x) 0) as [Ep|N]; [rewrite Ep in *; lra|].
  assert (q x <> 0) by (intros Eq; apply N; apply Habs; assumption).
  assert (0 < q x) by lra. assert (0 < p x) by lra.
  assert (0 < p x / q x) by (apply Rdiv_lt_0_compat; assumption).
  destruct (Req_dec (p x / q x) 1) as [E1|N1].
  - apply (Rmult_eq_reg_r (/ q x)); [|apply Rinv_neq_0_compat; lra].
    rewrite Rinv_r by lra. exact E1.
  - exfalso. pose proof (ln_gt_1inv _ H4 N1).
    assert (p x * (1 - / (p x / q x)) < p x * ln (p x / q x)) by (apply Rmult_lt_compat_l; lra).
    replace (p x * (1 - / (p x / q x))) with (p x - q x) in H6 by (field; lra). lra.
Qed.

Lemma gibbs : 0 <= sumf (fun x => p x * ln (p x / q x)) l.
Proof using Hp Hq Habs Hsum.
  apply Rle_trans with (sumf (fun x => p x - q x) l).
  - rewrite sumf_minus. lra.
  - apply sumf_le. intros x Hx. apply gibbs_pt. exact Hx.
Qed.

Lemma gibbs_eq : sumf (fun x => p x * ln (p x / q x)) l = 0 -> forall x, In x l -> p x = q x.
Proof using Hp Hq Habs Hsum.
  intros E x Hx. apply gibbs_pt_eq; [exact Hx|].
  assert (Z : sumf (fun x => p x * ln (p x / q x) - (p x - q x)) l = 0).
  { rewrite sumf_minus, E, sumf_minus. rewrite Rminus_0_l.
    assert (sumf (fun x => p x - q x) l <= sumf (fun x => p x * ln (p x / q x)) l).
    { apply sumf_le. intros y Hy. apply gibbs_pt. exact Hy. }
    rewrite E, sumf_minus in H. lra. }
  assert (p x * ln (p x / q x) - (p x - q x) = 0).
  { apply (sumf_zero_all (fun x => p x * ln (p x / q x) - (p x - q x)) l); [|exact Z|exact Hx].
    intros y Hy. pose proof (gibbs_pt y Hy). lra. }
  lra.
Qed.
End Gibbs.

(** entropy of a probability vector lies between 0 and the log of its length *)
Lemma EntVec_nonneg p : Forall (fun x => 0 <= x <= 1) p -> 0 <= EntVec p.
Proof.
  intros HF. unfold EntVec. rewrite <- sumf_opp. apply sumf_nonneg. intros x Hx.
  rewrite Forall_forall in HF. destruct (HF x Hx).
  destruct (Req_dec x 0) as [->|N]; [rewrite Rmult_0_l; lra|].
  assert (ln x <= 0) by (apply ln_nonpos; lra).
  assert (x * ln x <= x * 0) by (apply Rmult_le_compat_l; lra). lra.
Qed.

Lemma EntVec_le_ln p : p <> [] -> Forall (fun x => 0 < x) p -> sumR p = 1 ->
  EntVec p <= ln (INR (length p)) /\
  (EntVec p = ln (INR (length p)) <-> Forall (fun x => x = / INR (length p)) p).
Proof.
  intros NE HF Hs. rewrite Forall_forall in HF.
  assert (HK : 0 < INR (length p)) by (apply INR_pos; destruct p; simpl; [congruence|lia]).
  set (K := INR (length p)) in *.
  assert (HiK : 0 < / K) by (apply Rinv_0_lt_compat; exact HK).
  assert (E : sumf (fun x => x * ln (x / / K)) p = ln K - EntVec p).
  { unfold EntVec.
    rewrite (sumf_ext _ (fun x => x * ln x + x * ln K)).
    - rewrite sumf_plus, sumf_scal_r. change (sumf (fun x => x) p) with (sumR p). rewrite Hs. ring.
    - intros x Hx. rewrite ln_div by auto. rewrite ln_Rinv by exact HK. ring. }
  assert (G0 : sumf (fun _ : R => / K) p <= sumf (fun x => x) p).
  { rewrite sumf_const. fold K. change (sumf (fun x => x) p) with (sumR p).
    rewrite Hs, Rinv_r by lra. lra. }
  pose proof (gibbs p (fun x => x) (fun _ => / K)
    (fun x Hx => Rlt_le _ _ (HF x Hx)) (fun x _ => Rlt_le _ _ HiK)
    (fun x Hx E => False_ind _ (Rlt_not_eq _ _ HiK (eq_sym E))) G0) as G.
  pose proof (gibbs_eq p (fun x => x) (fun _ => / K)
    (fun x Hx => Rlt_le _ _ (HF x Hx)) (fun x _ => Rlt_le _ _ HiK)
    (fun x Hx E => False_ind _ (Rlt_not_eq _ _ HiK (eq_sym E))) G0) as G1.
  cbv beta in G, G1. rewrite E in *. split; [lra|]. split.
  - intros Eq. apply Forall_forall. intros x Hx. apply G1; [lra|exact Hx].
  - intros HU. rewrite Forall_forall in HU. unfold EntVec.
    rewrite (sumf_ext _ (fun x => x * (- ln K))).
    + rewrite sumf_scal_r. change (sumf (fun x => x) p) with (sumR p). rewrite Hs. ring.
    + intros x Hx. rewrite (HU x Hx), ln_Rinv by exact HK. ring.
Qed.
