(** Lemmas: entropies as functions of the neighbour distances are continuous. *)
From Coq Require Import Reals Lra Lia List ZArith Arith Bool Permutation.
From Verif Require Import Res RSum Spec SpecBase SpecGamma MBase PBase MTE MPct MNorm PropsPct MEst PEst PEst2 MCont SpecKern PKern PKern2 PKern3 MKnn SpecKnn SpecKnn2 PKnn PKnn2 PropsKnn PKnn3 PropsKnn4 PropsKnn5 PKnn4 PropsKnn6 MFam PropsKnn7 SpecFam PFam PropsFam SpecPert PPert.
Import ListNotations.
Local Open Scope R_scope.

(** [h] depends continuously on the [n] distances [es] *)
Definition lim_es (n : nat) (h : (nat -> R) -> R) (es : nat -> R) : Prop :=
  forall eps, 0 < eps -> exists del, 0 < del /\ forall es', (forall t, (t < n)%nat -> Rabs (es' t - es t) < del) -> Rabs (h es' - h es) < eps.
Lemma lim_es_point n t es : (t < n)%nat -> lim_es n (fun es => es t) es.
Proof. intros Ht eps He. exists eps. split; [exact He|]. auto. Qed.
Lemma lim_es_const n c es : lim_es n (fun _ => c) es.
Proof. intros eps He. exists 1. split; [lra|]. intros. rewrite Rminus_diag_eq, Rabs_R0 by reflexivity. exact He. Qed.
Lemma lim_es_comp n h es (F : R -> R) : lim_es n h es -> continuity_pt F (h es) -> lim_es n (fun es => F (h es)) es.
Proof.
  intros H C eps He. destruct (C eps He) as (al & Hal & Q). destruct (H al Hal) as (d & Hd & Q'). exists d. split; [exact Hd|]. intros es' B.
  destruct (Req_EM_T (h es') (h es)) as [ ->|N]; [rewrite Rminus_diag_eq, Rabs_R0 by reflexivity; exact He|].
  apply (Q (h es')). split; [split; [exact Logic.I|intros X; apply N; symmetry; exact X]|]. apply Q'. exact B.
Qed.
Lemma lim_es_plus n f g es : lim_es n f es -> lim_es n g es -> lim_es n (fun es => f es + g es) es.
Proof.
  intros Hf Hg eps He. destruct (Hf (eps / 2) ltac:(lra)) as (d & Hd & F). destruct (Hg (eps / 2) ltac:(lra)) as (d' & Hd' & F').
  exists (Rmin d d'). split; [apply Rmin_pos; assumption|]. intros es' B. pose proof (Rmin_l d d'). pose proof (Rmin_r d d').
  specialize (F es' ltac:(intros t Ht; specialize (B t Ht); lra)). specialize (F' es' ltac:(intros t Ht; specialize (B t Ht); lra)).
  replace (f es' + g es' - (f es + g es)) with ((f es' - f es) + (g es' - g es)) by ring. eapply Rle_lt_trans; [apply Rabs_triang|]. lra.
Qed.
Lemma lim_es_sum n (F : R -> R) (l : list nat) es : (forall t, In t l -> (t < n)%nat /\ continuity_pt F (es t)) -> lim_es n (fun es => sumf (fun t => F (es t)) l) es.
Proof.
  induction l as [|t l IH]; intros H; cbn [sumf]; [apply lim_es_const|]. destruct (H t (or_introl eq_refl)) as [Ht C].
  apply (lim_es_plus n (fun es => F (es t)) (fun es => sumf (fun t => F (es t)) l)); [apply lim_es_comp; [apply lim_es_point; exact Ht|exact C]|].
  apply IH. intros u Hu. apply H. right. exact Hu.
Qed.
Lemma lim_es_mean n (F : R -> R) es : (forall t, (t < n)%nat -> continuity_pt F (es t)) -> lim_es n (fun es => mean (map (fun e => F e) (map es (seq 0 n)))) es.
Proof.
  intros H. assert (X : forall es, mean (map (fun e => F e) (map es (seq 0 n))) = (fun x => x / INR n) (sumf (fun t => F (es t)) (seq 0 n))).
  { intros f. rewrite mean_map, map_length, seq_length, sumf_map. reflexivity. }
  assert (Y : lim_es n (fun es => (fun x => x / INR n) (sumf (fun t => F (es t)) (seq 0 n))) es).
  { apply (lim_es_comp n (fun es => sumf (fun t => F (es t)) (seq 0 n)) es (fun x => x / INR n)).
    - apply lim_es_sum. intros t Ht. apply in_seq in Ht. split; [lia|apply H; lia].
    - unfold Rdiv. apply (continuity_pt_mult (fun x => x) (fun _ => / INR n)); [apply derivable_continuous_pt, derivable_pt_id|apply continuity_pt_const; intros ? ?; reflexivity]. }
  intros eps He. destruct (Y eps He) as (d & Hd & Q). exists d. split; [exact Hd|]. intros es' B. rewrite !X. apply Q. exact B.
Qed.

(** continuity of the functions involved *)
Lemma cont_ln x : 0 < x -> continuity_pt ln x.
Proof. intros Hx. apply derivable_continuous_pt. exists (/ x). apply derivable_pt_lim_ln. exact Hx. Qed.
Lemma cont_rpower y x : 0 < x -> continuity_pt (fun z => Rpower z y) x.
Proof. intros Hx. apply derivable_continuous_pt. exists (y * Rpower x (y - 1)). apply derivable_pt_lim_power. exact Hx. Qed.
Lemma cont_scal c F x : continuity_pt F x -> continuity_pt (fun z => c * F z) x.
Proof. intros C. apply (continuity_pt_mult (fun _ => c) F); [apply continuity_pt_const; intros ? ?; reflexivity|exact C]. Qed.
Lemma cont_shift c F x : continuity_pt F x -> continuity_pt (fun z => F z + c) x.
Proof. intros C. apply (continuity_pt_plus F (fun _ => c)); [exact C|apply continuity_pt_const; intros ? ?; reflexivity]. Qed.
Lemma cont_id x : continuity_pt (fun z => z) x. Proof. apply derivable_continuous_pt, derivable_pt_id. Qed.
Lemma cont_pow d x : continuity_pt (fun z => z ^ d) x. Proof. apply derivable_continuous_pt, derivable_pt_pow. Qed.
Lemma cont_comp F H x : continuity_pt F x -> continuity_pt H (F x) -> continuity_pt (fun z => H (F z)) x.
Proof. intros A B. apply (continuity_pt_comp F H); assumption. Qed.
Lemma cont_euclid d x : continuity_pt (euclidean_ball d) x.
Proof.
  revert d. apply two_ind.
  - change (euclidean_ball 0) with (fun _ : R => 1). apply continuity_pt_const; intros ? ?; reflexivity.
  - change (euclidean_ball 1) with (fun r : R => 2 * r). apply cont_scal, cont_id.
  - intros n IH. assert (X : forall r, euclidean_ball (S (S n)) r = (2 * PI * r ^ 2 / INR (S (S n))) * euclidean_ball n r) by reflexivity.
    assert (Y : continuity_pt (fun r => (2 * PI * r ^ 2 / INR (S (S n))) * euclidean_ball n r) x).
    { apply (continuity_pt_mult (fun r => 2 * PI * r ^ 2 / INR (S (S n))) (euclidean_ball n)); [|exact IH].
      apply (continuity_pt_mult (fun r => 2 * PI * r ^ 2) (fun _ => / INR (S (S n)))); [apply cont_scal, cont_pow|apply continuity_pt_const; intros ? ?; reflexivity]. }
    exact Y.
Qed.
Section Cont.
  Context (G : R -> R) (HG : is_gamma G).
  Lemma cont_kl_value w p n d k e : norm_ok p -> 0 < e -> continuity_pt (kl_value G w p n d k) e.
  Proof.
    intros Hp He. pose proof (lp_ball_pos G HG p d e Hp He) as P. 
    assert (B : continuity_pt (lp_ball G p d) e).
    { unfold lp_ball. apply (continuity_pt_mult (fun r => (2 * r) ^ d) (fun _ => match p with None => 1 | Some p => G (1 + 1 / p) ^ d / G (1 + INR d / p) end));
        [|apply continuity_pt_const; intros ? ?; reflexivity].
      apply (cont_comp (fun r => 2 * r) (fun z => z ^ d)); [apply cont_scal, cont_id|apply cont_pow]. }
    unfold kl_value. apply (continuity_pt_plus (fun _ => psi n - psi k + corr w k) (fun e => ln (lp_ball G p d e))); [apply continuity_pt_const; intros ? ?; reflexivity|].
    apply (cont_comp (lp_ball G p d) ln); [exact B|apply cont_ln; exact P].
  Qed.
  Lemma lim_spec_H f u n d k q es : (1 <= k < n)%nat -> q < INR k + 1 -> (forall t, (t < n)%nat -> 0 < es t) -> u <> 0 ->
    lim_es n (spec_H f G u n d k q) es.
  Proof.
    intros Hk Hq Hpos Hu. pose proof (lt_0_INR (n - 1) ltac:(lia)) as Pn.
    assert (CE : forall t, (t < n)%nat -> continuity_pt (fun e => INR (n - 1) * euclidean_ball d e) (es t)) by (intros; apply cont_scal, cont_euclid).
    assert (PE : forall t, (t < n)%nat -> 0 < INR (n - 1) * euclidean_ball d (es t)) by (intros t Ht; apply Rmult_lt_0_compat; [exact Pn|apply euclid_pos, Hpos; exact Ht]).
    assert (L1 : lim_es n (fun es => lps_shannon (n - 1) d k (map es (seq 0 n)) / u) es).
    { unfold Rdiv. apply (lim_es_comp n (fun es => lps_shannon (n - 1) d k (map es (seq 0 n))) es (fun x => x * / u)).
      - unfold lps_shannon. apply (lim_es_mean n (fun e => ln (INR (n - 1) * euclidean_ball d e) - psi k)). intros t Ht. unfold Rminus. apply cont_shift.
        apply (cont_comp (fun e => INR (n - 1) * euclidean_ball d e) ln); [apply CE; exact Ht|apply cont_ln, PE; exact Ht].
      - apply (continuity_pt_mult (fun x => x) (fun _ => / u)); [apply cont_id|apply continuity_pt_const; intros ? ?; reflexivity]. }
    assert (LI : lim_es n (fun es => lps_integral G (n - 1) d k q (map es (seq 0 n))) es).
    { unfold lps_integral. apply (lim_es_comp n (fun es => mean (map (fun e => Rpower (INR (n - 1) * euclidean_ball d e) (1 - q)) (map es (seq 0 n)))) es (fun x => G (INR k) / G (INR k + 1 - q) * x)).
      - apply (lim_es_mean n (fun e => Rpower (INR (n - 1) * euclidean_ball d e) (1 - q))). intros t Ht.
        apply (cont_comp (fun e => INR (n - 1) * euclidean_ball d e) (fun z => Rpower z (1 - q))); [apply CE; exact Ht|apply cont_rpower, PE; exact Ht].
      - apply cont_scal, cont_id. }
    assert (PI0 : 0 < lps_integral G (n - 1) d k q (map es (seq 0 n))).
    { apply (lps_pos G HG); try lia; [exact Hq|]. apply PKern3.map_ne, seq_ne. lia. }
    destruct f; cbn [spec_H]; unfold renyi_H, tsallis_H; destruct (Req_EM_T q 1); try exact L1.
    - apply (lim_es_comp n (fun es => lps_integral G (n - 1) d k q (map es (seq 0 n))) es (fun x => ln x / (1 - q) / u)); [exact LI|].
      unfold Rdiv. apply (continuity_pt_mult (fun x => ln x * / (1 - q)) (fun _ => / u)); [|apply continuity_pt_const; intros ? ?; reflexivity].
      apply (continuity_pt_mult ln (fun _ => / (1 - q))); [apply cont_ln; exact PI0|apply continuity_pt_const; intros ? ?; reflexivity].
    - apply (lim_es_comp n (fun es => lps_integral G (n - 1) d k q (map es (seq 0 n))) es (fun x => (1 - x) / (q - 1))); [exact LI|].
      unfold Rdiv. apply (continuity_pt_mult (fun x => 1 - x) (fun _ => / (q - 1))); [|apply continuity_pt_const; intros ? ?; reflexivity].
      apply (continuity_pt_minus (fun _ => 1) (fun x => x)); [apply continuity_pt_const; intros ? ?; reflexivity|apply cont_id].
  Qed.
End Cont.

(** ** results near the data [vs] *)
Definition stable (vs : list (list (list R))) (r : list (list (list R)) -> res R) : Prop :=
  exists h, r vs = Ok h /\ forall eps, 0 < eps -> nearby vs (fun ws => exists h', r ws = Ok h' /\ Rabs (h' - h) < eps).
Lemma nearby_sel vs g Q : nearby (sel g vs) Q -> nearby vs (fun ws => Q (sel g ws)).
Proof. intros (d & Hd & F). exists d. split; [exact Hd|]. intros ws N. apply F. apply near_sel. exact N. Qed.
Lemma stable_sel vs g r : stable (sel g vs) r -> stable vs (fun ws => r (sel g ws)).
Proof. intros (h & A & F). exists h. split; [exact A|]. intros eps He. apply (nearby_sel vs g _ (F eps He)). Qed.
Lemma stable_ext vs r r' : nearby vs (fun ws => r ws = r' ws) -> stable vs r -> stable vs r'.
Proof.
  intros N (h & A & F). exists h. split; [rewrite <- (nearby_self _ _ N); exact A|]. intros eps He.
  eapply nearby_imp; [|apply nearby_and; [exact N|apply (F eps He)]]. intros ws [X (h' & Y & Z)]. exists h'. rewrite <- X. auto.
Qed.
Lemma stable_minus vs r s : stable vs r -> stable vs s -> stable vs (fun ws => let* a := r ws in let* b := s ws in Ok (a - b)).
Proof.
  intros (h & A & F) (h' & A' & F'). exists (h - h'). split; [rewrite A, A'; reflexivity|]. intros eps He.
  eapply nearby_imp; [|apply nearby_and; [apply (F (eps / 2) ltac:(lra))|apply (F' (eps / 2) ltac:(lra))]].
  intros ws [(x & X & Lx) (y & Y & Ly)]. exists (x - y). rewrite X, Y. split; [reflexivity|].
  replace (x - y - (h - h')) with ((x - h) - (y - h')) by ring. apply Rabs_def2 in Lx. apply Rabs_def2 in Ly. apply Rabs_def1; lra.
Qed.
Lemma stable_sum {A} vs (l : list A) (r : A -> _ -> res R) : (forall x, In x l -> stable vs (r x)) ->
  stable vs (fun ws => let* hs := mapM (fun x => r x ws) l in Ok (sumR hs)).
Proof.
  induction l as [|a l IH]; intros H.
  - exists 0. split; [reflexivity|]. intros eps He. apply nearby_true. intros ws. exists 0. split; [reflexivity|]. rewrite Rminus_diag_eq, Rabs_R0 by reflexivity. exact He.
  - destruct (H a (or_introl eq_refl)) as (h & A1 & F). destruct IH as (h' & A' & F'); [intros x Hx; apply H; right; exact Hx|].
    assert (X : forall ws x y, r a ws = Ok x -> (let* hs := mapM (fun x => r x ws) l in Ok (sumR hs)) = Ok y ->
       (let* hs := mapM (fun x => r x ws) (a :: l) in Ok (sumR hs)) = Ok (x + y)).
    { intros ws x y X Y. cbn [mapM]. rewrite X. cbn [bind]. destruct (mapM (fun x0 => r x0 ws) l); cbn [bind] in *; try discriminate. injection Y as <-. reflexivity. }
    exists (h + h'). split; [apply X; assumption|]. intros eps He.
    eapply nearby_imp; [|apply nearby_and; [apply (F (eps / 2) ltac:(lra))|apply (F' (eps / 2) ltac:(lra))]].
    intros ws [(x & X1 & Lx) (y & Y & Ly)]. exists (x + y). split; [apply X; assumption|]. apply Rabs_def2 in Lx. apply Rabs_def2 in Ly. apply Rabs_def1; lra.
Qed.
(** [mapM] over the variables themselves *)
Lemma mapM_index {A} (f : list (list R) -> res A) (ws : list (list (list R))) n : length ws = n -> mapM f ws = mapM (fun i => f (nth i ws [])) (seq 0 n).
Proof. intros <-. rewrite <- (sel_all ws ws eq_refl) at 1. unfold sel. rewrite mapM_map. reflexivity. Qed.

(** an estimate that is a function of the neighbour distances, continuous in them *)
Lemma stable_radii p n vs k (r : list (list (list R)) -> res R) (h : (nat -> R) -> R) : norm_ok p -> (1 <= k < n)%nat -> apart p n k vs ->
  (forall es, radii p n vs k es -> lim_es n h es) ->
  nearby vs (fun ws => forall es, radii p n ws k es -> (forall t, (t < n)%nat -> 0 < es t) -> r ws = Ok (h es)) ->
  stable vs r.
Proof.
  intros Hp Hk Ha HL HR. destruct (radii_exist p n vs k Hk) as (es & He).
  assert (Pe : forall t, (t < n)%nat -> 0 < es t) by (intros t Ht; apply (Ha t); [exact Ht|apply He; exact Ht]).
  exists (h es). split; [apply (nearby_self _ _ HR es He Pe)|]. intros eps Heps. destruct (HL es He eps Heps) as (d & Hd & Q).
  assert (N2 : nearby vs (fun ws => forall t, (t < n)%nat -> forall es', radii p n ws k es' -> 0 < es' t)).
  { apply nearby_lt. intros t Ht. eapply nearby_imp; [|apply (radii_near p n vs k es (es t) Hp He (Pe t Ht))]. intros ws X es' He'.
    specialize (X es' He' t Ht). apply Rabs_def2 in X. lra. }
  eapply nearby_imp; [|apply nearby_and; [exact HR|apply nearby_and; [exact N2|apply (radii_near p n vs k es d Hp He Hd)]]].
  intros ws (A & B & C). destruct (radii_exist p n ws k Hk) as (es' & He'). exists (h es'). split; [apply A; [exact He'|intros t Ht; apply (B t Ht es' He')]|].
  apply Q. intros t Ht. apply C; assumption.
Qed.
