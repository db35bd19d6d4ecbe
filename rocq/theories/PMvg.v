(** Proofs: elimination, Cholesky factors and positive definite matrices. *)
From Coq Require Import Reals Lra Lia List ZArith Arith Bool Permutation FunctionalExtensionality.
From Verif Require Import Res RSum Spec SpecBase SpecMvg MBase MTE MPct MNorm MCont MKern MGauss.
Import ListNotations.
Local Open Scope R_scope.

Notation Sum d f := (sumf f (seq 0 d)).
Definition form (d : nat) (C : mat) (u : vec) : R := Sum d (fun i => Sum d (fun j => u i * C i j * u j)).
Definition PD (d : nat) (C : mat) : Prop := forall u, nonzero d u -> 0 < form d C u.
Definition Sym (C : mat) : Prop := forall i j, C i j = C j i.

Lemma Sum_S d f : Sum (S d) f = f 0%nat + Sum d (fun i => f (S i)).
Proof. cbn [seq sumf]. f_equal. rewrite <- seq_shift, sumf_map. reflexivity. Qed.
Lemma Sum_ext d f g : (forall i, (i < d)%nat -> f i = g i) -> Sum d f = Sum d g.
Proof. intros E. apply sumf_ext. intros i Hi. apply in_seq in Hi. apply E. lia. Qed.

Lemma schur_sym C : Sym C -> Sym (schur C).
Proof. intros Sy i j. unfold schur. rewrite (Sy (S i) (S j)), (Sy (S i) 0%nat), (Sy 0%nat (S j)). unfold Rdiv. ring. Qed.

Lemma form_S d C u : Sym C ->
  form (S d) C u = u 0%nat ^ 2 * C 0%nat 0%nat + 2 * u 0%nat * Sum d (fun j => C 0%nat (S j) * u (S j)) + form d (fun i j => C (S i) (S j)) (fun i => u (S i)).
Proof.
  intros Sy. unfold form. rewrite Sum_S, Sum_S.
  rewrite (Sum_ext d (fun i => Sum (S d) (fun j => u (S i) * C (S i) j * u j))
    (fun i => u 0%nat * (C 0%nat (S i) * u (S i)) + Sum d (fun j => u (S i) * C (S i) (S j) * u (S j)))).
  - rewrite sumf_plus, sumf_scal.
    rewrite (Sum_ext d (fun i => u 0%nat * C 0%nat (S i) * u (S i)) (fun i => u 0%nat * (C 0%nat (S i) * u (S i)))) by (intros; ring).
    rewrite sumf_scal. ring.
  - intros i _. rewrite Sum_S. rewrite (Sy (S i) 0%nat). ring.
Qed.

Lemma form_schur d C v : Sym C -> C 0%nat 0%nat <> 0 ->
  form d (schur C) v = form d (fun i j => C (S i) (S j)) v - Sum d (fun j => C 0%nat (S j) * v j) ^ 2 / C 0%nat 0%nat.
Proof.
  intros Sy N. unfold form, schur. set (b := Sum d (fun j => C 0%nat (S j) * v j)).
  rewrite (Sum_ext d _ (fun i => Sum d (fun j => v i * C (S i) (S j) * v j) - (C 0%nat (S i) * v i) * (b / C 0%nat 0%nat))).
  - rewrite sumf_minus, sumf_scal_r. unfold b. field. exact N.
  - intros i _. rewrite (Sum_ext d _ (fun j => v i * C (S i) (S j) * v j - (v i * C (S i) 0%nat / C 0%nat 0%nat) * (C 0%nat (S j) * v j))).
    + rewrite sumf_minus, sumf_scal. fold b. rewrite (Sy (S i) 0%nat). field. exact N.
    + intros j _. field. exact N.
Qed.

Lemma PD_head d C : PD (S d) C -> 0 < C 0%nat 0%nat.
Proof.
  intros P. specialize (P (fun i => match i with O => 1 | _ => 0 end)).
  unfold form in P. rewrite Sum_S, Sum_S in P.
  rewrite (Sum_ext d _ (fun _ => 0)) in P by (intros; ring). rewrite sumf_zero in P.
  rewrite (Sum_ext d _ (fun _ => 0)) in P.
  - rewrite sumf_zero in P. specialize (P ltac:(exists 0%nat; split; [lia|lra])). lra.
  - intros i _. rewrite (sumf_ext _ (fun _ => 0)) by (intros; ring). apply sumf_zero.
Qed.

Lemma PD_schur d C : Sym C -> PD (S d) C -> PD d (schur C).
Proof.
  intros Sy P v [i [Hi Hv]]. pose proof (PD_head d C P) as A. rewrite form_schur by (assumption || lra).
  set (b := Sum d (fun j => C 0%nat (S j) * v j)).
  pose proof (P (fun i => match i with O => - b / C 0%nat 0%nat | S i => v i end)) as Q.
  rewrite form_S in Q by exact Sy. cbv beta iota in Q. fold b in Q.
  specialize (Q ltac:(exists (S i); split; [lia|exact Hv])).
  replace ((- b / C 0%nat 0%nat) ^ 2 * C 0%nat 0%nat + 2 * (- b / C 0%nat 0%nat) * b) with (- (b ^ 2 / C 0%nat 0%nat)) in Q by (field; lra).
  change (fun i0 : nat => v i0) with v in Q. lra.
Qed.

Lemma PD_det d : forall C, Sym C -> PD d C -> 0 < gdet d C.
Proof.
  induction d as [|d IH]; intros C Sy P; cbn [gdet]; [lra|].
  apply Rmult_lt_0_compat; [apply (PD_head d C P)|]. apply IH; [apply schur_sym, Sy|apply PD_schur; assumption].
Qed.
Lemma PD_quad d : forall C z, Sym C -> PD d C -> 0 <= gquad d C z.
Proof.
  induction d as [|d IH]; intros C z Sy P; cbn [gquad]; [lra|].
  apply Rplus_le_le_0_compat; [|apply IH; [apply schur_sym, Sy|apply PD_schur; assumption]].
  apply Rmult_le_pos; [apply pow2_ge_0|left; apply Rinv_0_lt_compat, (PD_head d C P)].
Qed.
Lemma gquad_0 d : forall C, gquad d C (fun _ => 0) = 0.
Proof.
  induction d as [|d IH]; intros C; cbn [gquad]; [reflexivity|].
  replace (fun i : nat => 0 - C (S i) 0%nat * 0 / C 0%nat 0%nat) with (fun _ : nat => 0) by (extensionality i; unfold Rdiv; ring).
  rewrite IH. unfold Rdiv. ring.
Qed.

(** scaling the matrix *)
Lemma schur_scale C s : C 0%nat 0%nat <> 0 -> s <> 0 -> schur (fun i j => C i j * s) = (fun i j => schur C i j * s).
Proof. intros N Hs. extensionality i. extensionality j. unfold schur. field. split; assumption. Qed.

Lemma PD_scale d C s : 0 < s -> PD d C -> PD d (fun i j => C i j * s).
Proof.
  intros Hs P u Hu. specialize (P u Hu). unfold form in *.
  rewrite (sumf_ext _ (fun i => Sum d (fun j => u i * C i j * u j) * s)).
  - rewrite sumf_scal_r. nra.
  - intros i _. rewrite <- sumf_scal_r. apply sumf_ext. intros; ring.
Qed.
Lemma gdet_scale d : forall C s, Sym C -> PD d C -> 0 < s -> gdet d (fun i j => C i j * s) = s ^ d * gdet d C.
Proof.
  induction d as [|d IH]; intros C s Sy P Hs; cbn [gdet pow]; [ring|].
  pose proof (PD_head d C P). rewrite schur_scale by lra. rewrite IH; [ring|apply schur_sym, Sy|apply PD_schur; assumption|exact Hs].
Qed.
Lemma gquad_scale d : forall C z s, Sym C -> PD d C -> 0 < s -> gquad d (fun i j => C i j * s) z = gquad d C z / s.
Proof.
  induction d as [|d IH]; intros C z s Sy P Hs; cbn [gquad]; [unfold Rdiv; ring|].
  pose proof (PD_head d C P) as A. rewrite schur_scale by lra.
  replace (fun i : nat => z (S i) - C (S i) 0%nat * s * z 0%nat / (C 0%nat 0%nat * s)) with (fun i : nat => z (S i) - C (S i) 0%nat * z 0%nat / C 0%nat 0%nat)
    by (extensionality i; field; lra).
  rewrite IH; [|apply schur_sym, Sy|apply PD_schur; assumption|exact Hs]. field. lra.
Qed.

(** the Cholesky factor *)
Lemma chol_schur A : Sym A -> 0 < A 0%nat 0%nat ->
  (fun i j => A (S i) (S j) - A (S i) 0%nat / sqrt (A 0%nat 0%nat) * (A (S j) 0%nat / sqrt (A 0%nat 0%nat))) = schur A.
Proof.
  intros Sy P. extensionality i. extensionality j. unfold schur. rewrite (Sy 0%nat (S j)).
  pose proof (sqrt_lt_R0 _ P) as Q. pose proof (sqrt_sqrt (A 0%nat 0%nat) ltac:(lra)) as E.
  set (s := sqrt (A 0%nat 0%nat)) in *. clearbody s. rewrite <- E. field. lra.
Qed.
Lemma cholesky_ok d : forall A, Sym A -> PD d A ->
  exists L, cholesky d A = Ok L /\ 0 < fold_right Rmult 1 (map fst L) /\ fold_right Rmult 1 (map fst L) ^ 2 = gdet d A /\
    (forall x y, sumR (map (fun ab => (fst ab - snd ab) ^ 2) (combine (solve_triangular L x) (solve_triangular L y))) = gquad d A (fun i => x i - y i)).
Proof.
  induction d as [|d IH]; intros A Sy P.
  - exists []. split; [reflexivity|]. split; [cbn; lra|]. split; [cbn; lra|]. intros; reflexivity.
  - pose proof (PD_head d A P) as H0. pose proof (sqrt_lt_R0 _ H0) as Q.
    destruct (IH (schur A) (schur_sym A Sy) (PD_schur d A Sy P)) as (L & E & PL & DL & S0).
    eexists. split; [|split; [|split]].
    + cbn [cholesky]. destruct (Rlt_dec 0 (A 0%nat 0%nat)) as [_|X]; [|contradiction]. rewrite chol_schur by assumption. rewrite E. reflexivity.
    + cbn [map fst fold_right]. apply Rmult_lt_0_compat; assumption.
    + cbn [map fst fold_right gdet]. rewrite Rpow_mult_distr, DL, pow2_sqrt by lra. reflexivity.
    + intros x y. cbn [solve_triangular combine map gquad]. unfold sumR. cbn [sumf fst snd]. fold (sumR).
      change (sumf (fun x0 : R => x0) ?l) with (sumR l). rewrite S0. f_equal.
      * pose proof (sqrt_sqrt (A 0%nat 0%nat) ltac:(lra)) as EQ.
        set (s := sqrt (A 0%nat 0%nat)) in *. clearbody s. rewrite <- EQ. field. lra.
      * f_equal. extensionality i. pose proof (sqrt_sqrt (A 0%nat 0%nat) ltac:(lra)) as EQ.
        set (s := sqrt (A 0%nat 0%nat)) in *. clearbody s. rewrite <- EQ. field. lra.
Qed.
