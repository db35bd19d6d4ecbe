(** Lemmas: nearest-neighbour distances and counts under small changes of the data. *)
From Coq Require Import Reals Lra Lia List ZArith Arith Bool Permutation.
From Verif Require Import Res RSum Spec SpecBase SpecGamma MBase PBase MTE MPct MNorm MEst PEst MCont SpecKern PKern PKern3 MKnn SpecKnn PKnn PKnn2 SpecPert.
Import ListNotations.
Local Open Scope R_scope.

Lemma Rabs_le_between a b : Rabs a <= b <-> - b <= a <= b.
Proof. split; [|apply Rabs_le]. intros H. pose proof (Rle_abs a). pose proof (Rle_abs (- a)) as T. rewrite Rabs_Ropp in T. lra. Qed.
Definition rel (del : R) (x y : R) : Prop := Rabs (x - y) <= del.
Lemma Forall2_imp {A B} (P Q : A -> B -> Prop) l l' : (forall x y, P x y -> Q x y) -> Forall2 P l l' -> Forall2 Q l l'.
Proof. intros H F. induction F; constructor; auto. Qed.
Lemma Forall2_nth_def {A B} (P : A -> B -> Prop) l l' d d' i : Forall2 P l l' -> P d d' -> P (nth i l d) (nth i l' d').
Proof. intros F Hd. revert i. induction F; intros [|i]; cbn; auto. Qed.

Definition near_all (del : R) (vs ws : list (list (list R))) : Prop := Forall2 (close del) vs ws.
Lemma near_all_mono d d' vs ws : d <= d' -> near_all d vs ws -> near_all d' vs ws.
Proof.
  intros L. apply Forall2_imp. intros v w. apply Forall2_imp. intros x y. apply Forall2_imp. intros a b H. lra.
Qed.
Lemma near_all_refl d vs : 0 <= d -> near_all d vs vs.
Proof.
  intros Hd. unfold near_all, close. induction vs as [|v vs IH]; constructor; [|exact IH]. clear IH. induction v as [|x v IH]; constructor; [|exact IH].
  clear IH. induction x as [|a x IH]; constructor; [|exact IH]. rewrite Rminus_diag_eq, Rabs_R0 by reflexivity. exact Hd.
Qed.
Definition nearby (vs : list (list (list R))) (Q : list (list (list R)) -> Prop) : Prop :=
  exists del, 0 < del /\ forall ws, near_all del vs ws -> Q ws.
Lemma nearby_and vs P Q : nearby vs P -> nearby vs Q -> nearby vs (fun ws => P ws /\ Q ws).
Proof.
  intros (d & Hd & F) (d' & Hd' & F'). exists (Rmin d d'). split; [apply Rmin_pos; assumption|]. intros ws N.
  split; [apply F|apply F']; (eapply near_all_mono; [|exact N]); [apply Rmin_l|apply Rmin_r].
Qed.
Lemma nearby_imp vs (P Q : _ -> Prop) : (forall ws, P ws -> Q ws) -> nearby vs P -> nearby vs Q.
Proof. intros H (d & Hd & F). exists d. split; [exact Hd|]. auto. Qed.
Lemma nearby_true vs (Q : _ -> Prop) : (forall ws, Q ws) -> nearby vs Q.
Proof. intros H. exists 1. split; [lra|]. auto. Qed.
Lemma nearby_all {A} vs (l : list A) (Q : A -> _ -> Prop) : (forall x, In x l -> nearby vs (Q x)) -> nearby vs (fun ws => forall x, In x l -> Q x ws).
Proof.
  induction l as [|a l IH]; intros H; [apply nearby_true; intros ws x []|].
  eapply nearby_imp; [|apply nearby_and; [apply (H a (or_introl eq_refl))|apply IH; intros x Hx; apply H; right; exact Hx]].
  intros ws [H1 H2] x [<-|Hx]; auto.
Qed.
Lemma nearby_lt vs n (Q : nat -> _ -> Prop) : (forall t, (t < n)%nat -> nearby vs (Q t)) -> nearby vs (fun ws => forall t, (t < n)%nat -> Q t ws).
Proof.
  intros H. eapply nearby_imp; [|apply (nearby_all vs (seq 0 n) Q); intros t Ht; apply H; apply in_seq in Ht; lia].
  intros ws F t Ht. apply F. apply in_seq. lia.
Qed.
Lemma nearby_self vs Q : nearby vs Q -> Q vs.
Proof. intros (d & Hd & F). apply F. apply near_all_refl. lra. Qed.
Lemma nearby_length vs : nearby vs (fun ws => length ws = length vs).
Proof. exists 1. split; [lra|]. intros ws N. symmetry. eapply Forall2_len. exact N. Qed.

(** ** continuity of norms *)
Definition at_vec (x : list R) (Q : list R -> Prop) : Prop := exists del, 0 < del /\ forall y, Forall2 (rel del) x y -> Q y.
Lemma at_vec_and x P Q : at_vec x P -> at_vec x Q -> at_vec x (fun y => P y /\ Q y).
Proof.
  intros (d & Hd & F) (d' & Hd' & F'). exists (Rmin d d'). split; [apply Rmin_pos; assumption|]. intros ws N.
  split; [apply F|apply F']; (eapply Forall2_imp; [|exact N]); unfold rel; intros a b H; pose proof (Rmin_l d d'); pose proof (Rmin_r d d'); lra.
Qed.
Lemma powr_cont p x eps : 0 < p -> 0 <= x -> 0 < eps -> exists del, 0 < del /\ forall y, 0 <= y -> Rabs (x - y) <= del -> Rabs (powr y p - powr x p) < eps.
Proof.
  intros Hp [Hx| <-] He.
  - assert (C : continuity_pt (fun z => Rpower z p) x).
    { apply derivable_continuous_pt. exists (p * Rpower x (p - 1)). apply derivable_pt_lim_power. exact Hx. }
    destruct (C eps He) as (al & Hal & F). exists (Rmin (al / 2) (x / 2)). split; [apply Rmin_pos; lra|]. intros y Hy L.
    pose proof (Rmin_l (al / 2) (x / 2)). pose proof (Rmin_r (al / 2) (x / 2)).
    assert (Y : 0 < y) by (pose proof (Rle_abs (x - y)); lra).
    unfold powr. destruct (Req_EM_T y 0); [lra|]. destruct (Req_EM_T x 0); [lra|].
    destruct (Req_EM_T x y) as [ ->|N]; [rewrite Rminus_diag_eq, Rabs_R0 by reflexivity; exact He|].
    apply (F y). split; [split; [exact Logic.I|exact N]|]. cbn. unfold R_dist. rewrite Rabs_minus_sym. lra.
  - exists (powr (eps / 2) (/ p)). split; [apply powr_pos; lra|]. intros y Hy L. rewrite powr_0, Rminus_0_r.
    rewrite Rminus_0_l, Rabs_Ropp, Rabs_right in L by lra. rewrite Rabs_right by (apply Rle_ge, powr_nonneg; exact Hy).
    apply Rle_lt_trans with (powr (powr (eps / 2) (/ p)) p); [apply powr_le; assumption|]. rewrite powr_inv' by lra. lra.
Qed.
Lemma psum_cont p x eps : 0 < p -> 0 < eps -> at_vec x (fun y => Rabs (psum p y - psum p x) < eps).
Proof.
  intros Hp. revert eps. induction x as [|a x IH]; intros eps He.
  - exists 1. split; [lra|]. intros y F. inversion F; subst. rewrite Rminus_diag_eq, Rabs_R0 by reflexivity. exact He.
  - destruct (powr_cont p (Rabs a) (eps / 2) Hp (Rabs_pos a) ltac:(lra)) as (d & Hd & F). destruct (IH (eps / 2) ltac:(lra)) as (d' & Hd' & F').
    exists (Rmin d d'). split; [apply Rmin_pos; assumption|]. intros y N. inversion N as [|? b ? y' Hab N']; subst.
    pose proof (Rmin_l d d'). pose proof (Rmin_r d d').
    assert (A : Rabs (powr (Rabs b) p - powr (Rabs a) p) < eps / 2).
    { apply F; [apply Rabs_pos|]. unfold rel in Hab. apply Rle_trans with (Rabs (a - b)); [|lra]. apply Rabs_triang_inv2. }
    assert (B : Rabs (psum p y' - psum p x) < eps / 2).
    { apply F'. eapply Forall2_imp; [|exact N']. unfold rel. intros; lra. }
    unfold psum, sumR in *. cbn [map sumf].
    match goal with |- Rabs (?a + ?b - (?c + ?d)) < _ => replace (a + b - (c + d)) with ((a - c) + (b - d)) by ring end.
    eapply Rle_lt_trans; [apply Rabs_triang|]. lra.
Qed.
Lemma norm_cont p x eps : norm_ok p -> 0 < eps -> at_vec x (fun y => Rabs (norm p y - norm p x) < eps).
Proof.
  intros Hp He. destruct p as [p|].
  - cbn in Hp. destruct (powr_cont (/ p) (psum p x) eps ltac:(apply Rinv_0_lt_compat; lra) (psum_nonneg p x) He) as (d & Hd & F).
    destruct (psum_cont p x (d) ltac:(lra) Hd) as (d' & Hd' & F'). exists d'. split; [exact Hd'|]. intros y N.
    cbn [norm]. apply F; [apply psum_nonneg|]. rewrite Rabs_minus_sym. left. apply F'. exact N.
  - exists (eps / 2). split; [lra|]. intros y N. apply Rle_lt_trans with (eps / 2); [|lra]. cbn [norm].
    induction N as [|a b x y H N IH]; cbn [fold_right]; [rewrite Rminus_diag_eq, Rabs_R0 by reflexivity; lra|].
    unfold rel in H. pose proof (Rabs_triang_inv2 a b) as T. revert IH T H. generalize (fold_right (fun a m => Rmax (Rabs a) m) 0 y) (fold_right (fun a m => Rmax (Rabs a) m) 0 x).
    intros m m' IH T H. unfold Rmax. repeat destruct (Rle_dec _ _); apply Rabs_le_between in IH; apply Rabs_le_between; 
      assert (T' : Rabs (Rabs a - Rabs b) <= eps / 2) by lra; apply Rabs_le_between in T'; lra.
Qed.

(** ** continuity of distances *)
Definition sel (g : list nat) (vs : list (list (list R))) : list (list (list R)) := map (fun i => nth i vs []) g.
Lemma near_sel d g vs ws : near_all d vs ws -> near_all d (sel g vs) (sel g ws).
Proof. intros N. unfold near_all, sel. induction g as [|i g IH]; cbn; constructor; [|exact IH]. apply Forall2_nth_def; [exact N|apply Forall2_nil]. Qed.
Lemma near_sample d vs ws t : near_all d vs ws -> Forall2 (rel d) (sample vs t) (sample ws t).
Proof.
  intros N. unfold sample. induction N as [|v w vs ws H N IH]; cbn; [constructor|]. apply Forall2_app; [|exact IH].
  apply (Forall2_nth_def (Forall2 (rel d))); [exact H|constructor].
Qed.
Lemma near_vsub d x x' y y' : Forall2 (rel d) x x' -> Forall2 (rel d) y y' -> Forall2 (rel (2 * d)) (vsub x y) (vsub x' y').
Proof.
  intros F. revert y y'. unfold vsub. induction F as [|a a' x x' H F IH]; intros y y' G; cbn; [constructor|].
  destruct G as [|b b' y y' H' G]; cbn; constructor; [|apply IH; exact G]. unfold rel in *. cbn [fst snd].
  replace (a - b - (a' - b')) with ((a - a') - (b - b')) by ring. apply Rabs_le_between in H. apply Rabs_le_between in H'. apply Rabs_le_between. lra.
Qed.
Lemma jdist_near p g vs t u eps : norm_ok p -> 0 < eps ->
  nearby vs (fun ws => Rabs (jdist p (sel g ws) t u - jdist p (sel g vs) t u) < eps).
Proof.
  intros Hp He. destruct (norm_cont p (vsub (sample (sel g vs) t) (sample (sel g vs) u)) eps Hp He) as (d & Hd & F).
  exists (d / 2). split; [lra|]. intros ws N. unfold jdist, dst. apply F. replace d with (2 * (d / 2)) by field.
  apply near_vsub; apply near_sample, near_sel; exact N.
Qed.
Lemma sel_all (vs ws : list (list (list R))) : length ws = length vs -> sel (seq 0 (length vs)) ws = ws.
Proof.
  intros L. unfold sel. rewrite <- L. clear. induction ws as [|w ws IH]; [reflexivity|]. cbn [length seq map nth]. f_equal.
  rewrite <- IH at 2. rewrite <- seq_shift, map_map. reflexivity.
Qed.
Lemma jdist_near_all p vs t u eps : norm_ok p -> 0 < eps -> nearby vs (fun ws => Rabs (jdist p ws t u - jdist p vs t u) < eps).
Proof.
  intros Hp He. eapply nearby_imp; [|apply nearby_and; [apply (nearby_length vs)|apply (jdist_near p (seq 0 (length vs)) vs t u eps Hp He)]].
  intros ws [L H]. rewrite (sel_all vs ws L), (sel_all vs vs eq_refl) in H. exact H.
Qed.
(** strict comparisons of distances survive small changes *)
Lemma nearby_less p g g' vs t u u' : norm_ok p -> jdist p (sel g vs) t u < jdist p (sel g' vs) t u' ->
  nearby vs (fun ws => jdist p (sel g ws) t u < jdist p (sel g' ws) t u').
Proof.
  intros Hp L. set (e := (jdist p (sel g' vs) t u' - jdist p (sel g vs) t u) / 2). assert (He : 0 < e) by (unfold e; lra).
  eapply nearby_imp; [|apply nearby_and; [apply (jdist_near p g vs t u e Hp He)|apply (jdist_near p g' vs t u' e Hp He)]].
  intros ws [A B]. apply Rabs_def2 in A. apply Rabs_def2 in B. unfold e in *. lra.
Qed.

(** ** shapes *)
Lemma close_table d n w v v' : close d v v' -> table n w v -> table n w v'.
Proof.
  intros C [L F]. split; [rewrite <- L; symmetry; eapply Forall2_len; exact C|]. unfold close in C. clear L. induction C as [|x y v v' H C IH]; [constructor|].
  inversion F; subst. constructor; [symmetry; eapply Forall2_len; exact H|auto].
Qed.
Lemma near_tables d n vs ws : near_all d vs ws -> tables n vs -> tables n ws.
Proof.
  intros N T. unfold tables in *. induction N as [|v w vs ws H N IH]; [constructor|]. inversion T as [|? ? (x & Tx) T']; subst.
  constructor; [exists x; eapply close_table; eassumption|auto].
Qed.
Lemma near_tabs d n ds vs ws : near_all d vs ws -> tabs n ds vs -> tabs n ds ws.
Proof.
  intros N T. unfold tabs in *. revert ds T. induction N as [|v w vs ws H N IH]; intros ds T; inversion T; subst; constructor; [eapply close_table; eassumption|auto].
Qed.

(** ** k-th neighbour distances move by no more than the distances *)
Lemma kth_move p p' n vs ws k t e e' eta : (forall u, (u < n)%nat -> u <> t -> Rabs (jdist p' ws t u - jdist p vs t u) <= eta) ->
  kth_neighbour p n vs k t e -> kth_neighbour p' n ws k t e' -> Rabs (e' - e) <= eta.
Proof.
  intros H (_ & C & W) (_ & C' & W'). apply Rabs_le_between. split.
  - destruct (Rle_or_lt (- eta) (e' - e)) as [|L]; [assumption|exfalso].
    assert (X : (within p' n ws t e' <= closer p n vs t e)%nat); [|lia]. unfold within, closer. apply filter_mono_len.
    intros u Hu. apply others_in in Hu as [U1 U2]. specialize (H u U1 U2). apply Rabs_le_between in H.
    destruct (Rle_dec (jdist p' ws t u) e'); [|discriminate]. intros _. destruct (Rlt_dec (jdist p vs t u) e); [reflexivity|lra].
  - destruct (Rle_or_lt (e' - e) eta) as [|L]; [assumption|exfalso].
    assert (X : (within p n vs t e <= closer p' n ws t e')%nat); [|lia]. unfold within, closer. apply filter_mono_len.
    intros u Hu. apply others_in in Hu as [U1 U2]. specialize (H u U1 U2). apply Rabs_le_between in H.
    destruct (Rle_dec (jdist p vs t u) e); [|discriminate]. intros _. destruct (Rlt_dec (jdist p' ws t u) e'); [reflexivity|lra].
Qed.
Lemma radii_near p n vs k es eps : norm_ok p -> radii p n vs k es -> 0 < eps ->
  nearby vs (fun ws => forall es', radii p n ws k es' -> forall t, (t < n)%nat -> Rabs (es' t - es t) < eps).
Proof.
  intros Hp He Heps.
  assert (N : nearby vs (fun ws => forall t, (t < n)%nat -> forall u, (u < n)%nat -> Rabs (jdist p ws t u - jdist p vs t u) < eps / 2)).
  { apply nearby_lt. intros t _. apply (nearby_lt vs n (fun u ws => Rabs (jdist p ws t u - jdist p vs t u) < eps / 2)). intros u _. apply jdist_near_all; [exact Hp|lra]. }
  eapply nearby_imp; [|exact N]. intros ws F es' He' t Ht. apply Rle_lt_trans with (eps / 2); [|lra].
  apply (kth_move p p n vs ws k t); [|apply He; exact Ht|apply He'; exact Ht]. intros u Hu _. left. apply F; assumption.
Qed.
