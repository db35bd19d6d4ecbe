(** Property theorems: the box-kernel estimate is a probability density and consistent under marginalisation (C119). *)
From Coq Require Import Reals Lra Lia List ZArith Arith Bool.
From Coquelicot Require Import Coquelicot.
From Verif Require Import Res RSum Spec SpecBase SpecKern SpecDens MBase MCont MKern PKern PropsKern4.
Import ListNotations.
Local Open Scope R_scope.

(** ** the iterated integral *)
Lemma volint_ext d : forall F G a b v, (forall r, length r = d -> F r = G r) -> volint d F a b v -> volint d G a b v.
Proof.
  induction d as [|d IH]; intros F G a b v E V; cbn [volint] in *; [rewrite <- E by reflexivity; exact V|].
  destruct V as (g & Vg & I). exists g. split; [|exact I]. intros x. apply (IH (fun r => F (x :: r))); [|apply Vg].
  intros r L. apply E. cbn. congruence.
Qed.

Lemma volint_scal d : forall k F a b v, volint d F a b v -> volint d (fun r => k * F r) a b (k * v).
Proof.
  induction d as [|d IH]; intros k F a b v V; cbn [volint] in *; [rewrite V; reflexivity|].
  destruct V as (g & Vg & I). exists (fun x => k * g x). split; [intros x; apply (IH k (fun r => F (x :: r))), Vg|].
  exact (is_RInt_scal (V := R_NormedModule) g a b k v I).
Qed.

Lemma volint_plus d : forall F G a b v w, volint d F a b v -> volint d G a b w -> volint d (fun r => F r + G r) a b (v + w).
Proof.
  induction d as [|d IH]; intros F G a b v w V W; cbn [volint] in *; [rewrite V, W; reflexivity|].
  destruct V as (g & Vg & I). destruct W as (k & Wk & J). exists (fun x => g x + k x).
  split; [intros x; apply (IH (fun r => F (x :: r)) (fun r => G (x :: r))); auto|].
  exact (is_RInt_plus (V := R_NormedModule) g k a b v w I J).
Qed.

Lemma volint_zero d : forall a b, volint d (fun _ => 0) a b 0.
Proof.
  induction d as [|d IH]; intros a b; cbn [volint]; [reflexivity|]. exists (fun _ => 0). split; [intros x; apply IH|].
  pose proof (is_RInt_const (V := R_NormedModule) a b 0) as C. unfold scal in C. cbn in C. unfold mult in C. cbn in C. rewrite Rmult_0_r in C. exact C.
Qed.

Lemma volint_sum d {A} (F : A -> list R -> R) (v : A -> R) a b l : (forall p, In p l -> volint d (F p) a b (v p)) ->
  volint d (fun r => sumf (fun p => F p r) l) a b (sumf v l).
Proof.
  induction l as [|p l IH]; intros V; [apply volint_zero|]. cbn [sumf]. apply volint_plus; [apply V; left; reflexivity|].
  apply IH. intros q Hq. apply V. right. exact Hq.
Qed.

Lemma volint_unique d : forall F a b v w, volint d F a b v -> volint d F a b w -> v = w.
Proof.
  induction d as [|d IH]; intros F a b v w V W; cbn [volint] in *; [congruence|].
  destruct V as (g & Vg & I). destruct W as (k & Wk & J).
  pose proof (is_RInt_unique (V := R_CompleteNormedModule) g a b v I) as <-. pose proof (is_RInt_unique (V := R_CompleteNormedModule) k a b w J) as <-.
  apply RInt_ext. intros x _. apply (IH (fun r => F (x :: r)) a b); auto.
Qed.

(** ** one box *)
Definition one (p : bool) : R := if p then 1 else 0.

Lemma box1 h c a b : 0 < h -> a + h / 2 <= c <= b - h / 2 ->
  is_RInt (fun x => one (if Rle_dec (Rabs (x - c)) (h / 2) then true else false)) a b h.
Proof.
  intros Hh R.
  assert (Z : forall u v, (forall x, u < x < v -> h / 2 < Rabs (x - c)) -> u <= v -> is_RInt (fun x => one (if Rle_dec (Rabs (x - c)) (h / 2) then true else false)) u v 0).
  { intros u v O L. apply (is_RInt_ext (V := R_NormedModule) (fun _ => 0)).
    - rewrite Rmin_left, Rmax_right by exact L. intros x Hx. specialize (O x Hx). destruct (Rle_dec _ _) as [Q|_]; [lra|reflexivity].
    - pose proof (is_RInt_const (V := R_NormedModule) u v 0) as C. unfold scal in C. cbn in C. unfold mult in C. cbn in C. rewrite Rmult_0_r in C. exact C. }
  assert (M : is_RInt (fun x => one (if Rle_dec (Rabs (x - c)) (h / 2) then true else false)) (c - h / 2) (c + h / 2) h).
  { apply (is_RInt_ext (V := R_NormedModule) (fun _ => 1)).
    - rewrite Rmin_left, Rmax_right by lra. intros x Hx. destruct (Rle_dec _ _) as [_|Q]; [reflexivity|]. exfalso. apply Q. apply Rabs_le. lra.
    - pose proof (is_RInt_const (V := R_NormedModule) (c - h / 2) (c + h / 2) 1) as C. unfold scal in C. cbn in C. unfold mult in C. cbn in C.
      replace ((c + h / 2 - (c - h / 2)) * 1) with h in C by field. exact C. }
  pose proof (Z a (c - h / 2) ltac:(intros x Hx; rewrite Rabs_left by lra; lra) ltac:(lra)) as L.
  pose proof (Z (c + h / 2) b ltac:(intros x Hx; rewrite Rabs_pos_eq by lra; lra) ltac:(lra)) as U.
  pose proof (is_RInt_Chasles (V := R_NormedModule) _ _ _ _ _ _ L M) as LM. pose proof (is_RInt_Chasles (V := R_NormedModule) _ _ _ _ _ _ LM U) as T.
  unfold plus in T. cbn in T. replace (0 + h + 0) with h in T by ring. exact T.
Qed.

Lemma volint_box h a b : 0 < h -> forall d p, length p = d -> List.Forall (fun c => a + h / 2 <= c <= b - h / 2) p ->
  volint d (fun r => one (near h r p)) a b (h ^ d).
Proof.
  intros Hh. induction d as [|d IH]; intros p L F.
  - destruct p; [|discriminate L]. reflexivity.
  - destruct p as [|c p]; [discriminate L|]. inversion F as [|? ? Fc Fp]; subst. cbn [volint]. injection L as L.
    exists (fun x => h ^ d * one (if Rle_dec (Rabs (x - c)) (h / 2) then true else false)). split.
    + intros x. rewrite Rmult_comm. apply (volint_ext d (fun r => one (if Rle_dec (Rabs (x - c)) (h / 2) then true else false) * one (near h r p))).
      * intros r _. unfold near. cbn [combine forallb fst snd]. destruct (Rle_dec _ _); cbn [andb one]; ring.
      * apply volint_scal. apply IH; assumption.
    + replace (h ^ S d) with (h ^ d * h) by (cbn; ring).
      exact (is_RInt_scal (V := R_NormedModule) _ a b (h ^ d) h (box1 h c a b Hh Fc)).
Qed.

(** ** the estimate *)
Lemma nref_sum h rs x : INR (nref h rs x) = sumf (fun p => one (near h x p)) rs.
Proof.
  unfold nref. induction rs as [|p rs IH]; [reflexivity|]. cbn [filter sumf]. destruct (near h x p); cbn [length one]; rewrite ?S_INR, IH; ring.
Qed.

Lemma near_app h x p r q : length x = length p -> near h (x ++ r) (p ++ q) = near h x p && near h r q.
Proof.
  revert p. unfold near. induction x as [|u x IH]; intros [|c p] L; try discriminate L; [reflexivity|].
  injection L as L. cbn [app combine forallb]. rewrite IH by exact L. rewrite andb_assoc. reflexivity.
Qed.

(** integrating out the second block of coordinates leaves the estimate of the first block *)
Theorem C119_marginal : forall E h w a b N d1 d2 ps qs,
  0 < h -> workers_ok w -> (1 <= N)%nat -> table N d1 ps -> table N d2 qs -> inside (h / 2) a b qs ->
  exists joint first,
    (forall z, length z = (d1 + d2)%nat -> kde E (joined_points ps qs) (BwNum h) (Some [z]) KBox w = Ok (D0 (joint z))) /\
    (forall x, length x = d1 -> kde E ps (BwNum h) (Some [x]) KBox w = Ok (D0 (first x))) /\
    (forall x, length x = d1 -> volint d2 (fun r => joint (x ++ r)) a b (first x)).
Proof.
  intros E h w a b N d1 d2 ps qs Hh W HN [Lp Fp] [Lq Fq] IN.
  assert (TJ : table N (d1 + d2) (joined_points ps qs)).
  { split; [unfold joined_points; rewrite map_length, combine_length; lia|]. apply List.Forall_forall. intros z Hz. unfold joined_points in Hz.
    apply in_map_iff in Hz as ((p & q) & <- & Hz). pose proof (in_combine_l _ _ _ _ Hz) as Ip. pose proof (in_combine_r _ _ _ _ Hz) as Iq.
    rewrite List.Forall_forall in Fp, Fq. cbn [fst snd]. rewrite app_length, (Fp p Ip), (Fq q Iq). reflexivity. }
  exists (refdensity h (d1 + d2) (joined_points ps qs)), (refdensity h d1 ps). split; [|split].
  - intros z Lz. rewrite (kde_at E h N (d1 + d2) (joined_points ps qs) [z] w Hh W TJ) by (try lia; try discriminate; repeat constructor; exact Lz). reflexivity.
  - intros x Lx. rewrite (kde_at E h N d1 ps [x] w Hh W (conj Lp Fp)) by (try lia; try discriminate; repeat constructor; exact Lx). reflexivity.
  - intros x Lx. assert (PN : 0 < INR N) by (apply lt_0_INR; lia). assert (P2 : 0 < h ^ d2) by (apply pow_lt; exact Hh). assert (P1 : 0 < h ^ d1) by (apply pow_lt; exact Hh).
    set (k := / INR N / h ^ (d1 + d2)).
    apply (volint_ext d2 (fun r => k * sumf (fun pq => one (near h x (fst pq)) * one (near h r (snd pq))) (combine ps qs))).
    + intros r Lr. unfold refdensity. rewrite nref_sum, (proj1 TJ). unfold joined_points. rewrite sumf_map.
      assert (SE : sumf (fun pq => one (near h (x ++ r) (fst pq ++ snd pq))) (combine ps qs)
        = sumf (fun pq => one (near h x (fst pq)) * one (near h r (snd pq))) (combine ps qs)); [apply sumf_ext|].
      2:{ rewrite SE. unfold k. field. split; [lra|apply pow_nonzero; lra]. }
      * intros (p & q) Hz. cbn [fst snd]. rewrite near_app. { destruct (near h x p), (near h r q); cbn; ring. }
        rewrite List.Forall_forall in Fp. rewrite (Fp p (in_combine_l _ _ _ _ Hz)). exact Lx.
    + assert (V : refdensity h d1 ps x = k * sumf (fun pq => one (near h x (fst pq)) * h ^ d2) (combine ps qs)).
      { unfold refdensity. rewrite nref_sum, Lp.
        assert (G : sumf (fun pq => one (near h x (fst pq)) * h ^ d2) (combine ps qs) = h ^ d2 * sumf (fun p => one (near h x p)) ps).
        { clear -Lp Lq. assert (L : length ps = length qs) by congruence. clear Lp Lq. revert qs L.
          induction ps as [|p ps IH]; intros [|q qs] L; try discriminate L; [cbn; ring|]. injection L as L. cbn [combine sumf fst]. rewrite (IH qs L). ring. }
        rewrite G. unfold k. rewrite pow_add. field. repeat split; lra. }
      rewrite V. apply volint_scal. apply volint_sum. intros (p & q) Hz. cbn [fst snd]. apply volint_scal.
      pose proof (in_combine_r _ _ _ _ Hz) as Iq. unfold inside in IN. rewrite List.Forall_forall in IN, Fq. apply volint_box; auto.
Qed.

(** it is non-negative, vanishes away from the samples and integrates to one *)
Theorem C119_density : forall E h w a b N d ps,
  0 < h -> workers_ok w -> (1 <= N)%nat -> table N d ps -> inside (h / 2) a b ps ->
  exists dens,
    (forall x, length x = d -> kde E ps (BwNum h) (Some [x]) KBox w = Ok (D0 (dens x)) /\ 0 <= dens x <= 1 / h ^ d) /\
    (forall x, length x = d -> List.Exists (fun c => c < a \/ b < c) x -> dens x = 0) /\
    volint d dens a b 1.
Proof.
  intros E h w a b N d ps Hh W HN [Lp Fp] IN. exists (refdensity h d ps).
  assert (PN : 0 < INR N) by (apply lt_0_INR; lia). assert (P : 0 < h ^ d) by (apply pow_lt; exact Hh).
  split; [|split].
  - intros x Lx. split.
    + rewrite (kde_at E h N d ps [x] w Hh W (conj Lp Fp)) by (try lia; try discriminate; repeat constructor; exact Lx). reflexivity.
    + unfold refdensity. rewrite Lp. assert (B : INR (nref h ps x) <= INR N) by (rewrite <- Lp; apply le_INR; apply nref_le).
      pose proof (pos_INR (nref h ps x)) as B0. split; [apply Rmult_le_pos; [apply Rmult_le_pos; [exact B0|left; apply Rinv_0_lt_compat; exact PN]|left; apply Rinv_0_lt_compat; exact P]|].
      apply Rmult_le_compat_r; [left; apply Rinv_0_lt_compat; exact P|]. apply (Rmult_le_reg_r (INR N)); [exact PN|]. unfold Rdiv. rewrite Rmult_assoc, Rinv_l by lra. lra.
  - intros x Lx EX. unfold refdensity. assert (Z : nref h ps x = 0%nat).
    { unfold nref. rewrite (filter_ext_in _ (fun _ => false)); [induction ps as [|p r IH]; [reflexivity|]; cbn; clear; induction r; auto|].
      intros p Ip. unfold inside in IN. rewrite List.Forall_forall in IN, Fp. specialize (IN p Ip). specialize (Fp p Ip).
      assert (L : length x = length p) by congruence. clear -Hh EX IN L. revert p IN L. unfold near.
      induction EX as [c x O|c x EX IH]; intros [|e p] IN L; try discriminate L; inversion IN; subst; injection L as L; cbn [combine forallb fst snd].
      - destruct (Rle_dec _ _) as [Q|_]; [|reflexivity]. exfalso. apply Rabs_le_between in Q. lra.
      - rewrite (IH p) by assumption. apply andb_false_r. }
    rewrite Z. cbn. unfold Rdiv. ring.
  - set (k := / INR N / h ^ d). apply (volint_ext d (fun r => k * sumf (fun p => one (near h r p)) ps)).
    + intros r _. unfold refdensity. rewrite nref_sum, Lp. unfold k. field. split; lra.
    + replace 1 with (k * sumf (fun _ => h ^ d) ps).
      * apply volint_scal. apply volint_sum. intros p Ip. unfold inside in IN. rewrite List.Forall_forall in IN, Fp. apply volint_box; auto.
      * rewrite sumf_const, Lp. unfold k. field. split; lra.
Qed.

(** the iterated integral of a function is unique, so "the integral is one" determines it *)
Theorem C119_integral_unique : forall d F a b v v', volint d F a b v -> volint d F a b v' -> v = v'.
Proof. exact volint_unique. Qed.

(** two points of the plane: the hypotheses hold on [-1, 3] x [-1, 3] *)
Example C119_example : table 2 2 [[0; 1]; [2; 1]] /\ inside (1 / 2) (-1) 3 [[0; 1]; [2; 1]] /\
  joined_points [[0]; [2]] [[1]; [1]] = [[0; 1]; [2; 1]] /\ refdensity 1 2 [[0; 1]; [2; 1]] [0; 1] = 1 / 2.
Proof.
  split; [repeat constructor|]. split; [unfold inside; repeat constructor; lra|]. split; [reflexivity|].
  unfold refdensity, nref, near. cbn [filter combine forallb fst snd].
  rewrite (Rminus_diag_eq 0 0 eq_refl), !(Rminus_diag_eq 1 1 eq_refl), !Rabs_R0, (Rabs_left (0 - 2)) by lra.
  repeat match goal with |- context [Rle_dec ?a ?b] => destruct (Rle_dec a b) as [?|?]; try (exfalso; lra) end. cbn [andb length]. simpl. field.
Qed.
