(** Lemmas: box-kernel counts and Gaussian kernel densities under small changes of the data. *)
From Coq Require Import Reals Lra Lia List ZArith Arith Bool Permutation.
From Verif Require Import Res RSum Spec SpecTE SpecTEc SpecBase SpecGamma MBase PBase MTE PTE2 MCont MKern SpecKern PKern PKern2 PKern3 PKern4 PKern5 PTEc SpecGauss PropsKern PropsKern5 SpecPert PPert PPert2 SpecPertK.
Import ListNotations.
Local Open Scope R_scope.

Lemma forallb_eq {A B} (f : A -> bool) (g : B -> bool) l l' : Forall2 (fun x y => f x = g y) l l' -> forallb f l = forallb g l'.
Proof. induction 1 as [|x y l l' H F IH]; cbn; [reflexivity|]. rewrite H, IH. reflexivity. Qed.

(** one pair of points *)
Lemma near_point h x y : Forall2 (fun a c => Rabs (a - c) <> h / 2) x y ->
  exists del, 0 < del /\ forall x' y', Forall2 (rel del) x x' -> Forall2 (rel del) y y' -> near h x' y' = near h x y.
Proof.
  induction 1 as [|a c x y N F IH].
  - exists 1. split; [lra|]. intros x' y' X Y. inversion X; inversion Y; subst. reflexivity.
  - destruct IH as (d & Hd & Q). set (e := Rabs (Rabs (a - c) - h / 2)). assert (He : 0 < e) by (apply Rabs_pos_lt; lra).
    exists (Rmin d (e / 3)). split; [apply Rmin_pos; lra|]. intros x' y' X Y.
    pose proof (Rmin_l d (e / 3)) as M1. pose proof (Rmin_r d (e / 3)) as M2.
    assert (MM : forall u v, rel (Rmin d (e / 3)) u v -> rel d u v) by (unfold rel; intros; lra).
    inversion X as [|? a' ? xs' X1 X2]; subst. inversion Y as [|? c' ? ys' Y1 Y2]; subst.
    specialize (Q xs' ys' (Forall2_imp _ _ _ _ MM X2) (Forall2_imp _ _ _ _ MM Y2)). unfold near in *. cbn [combine forallb fst snd]. rewrite Q. f_equal.
    unfold rel in X1, Y1.
    assert (D : Rabs (Rabs (a' - c') - Rabs (a - c)) < e).
    { eapply Rle_lt_trans; [apply Rabs_triang_inv2|]. replace (a' - c' - (a - c)) with (- (a - a') + (c - c')) by ring.
      eapply Rle_lt_trans; [apply Rabs_triang|]. rewrite Rabs_Ropp. lra. }
    apply Rabs_def2 in D. unfold e in D.
    destruct (Rle_dec (Rabs (a' - c')) (h / 2)); destruct (Rle_dec (Rabs (a - c)) (h / 2)); try reflexivity; exfalso.
    + rewrite (Rabs_right (Rabs (a - c) - h / 2)) in D by lra. lra.
    + rewrite (Rabs_left1 (Rabs (a - c) - h / 2)) in D by lra. lra.
Qed.

(** all pairs of points of two tables *)
Lemma near_one h x w : (forall y, In y w -> Forall2 (fun a c => Rabs (a - c) <> h / 2) x y) ->
  exists del, 0 < del /\ forall x' w', Forall2 (rel del) x x' -> close del w w' -> Forall2 (fun y y' => near h x' y' = near h x y) w w'.
Proof.
  induction w as [|y w IH]; intros H.
  - exists 1. split; [lra|]. intros x' w' X C. inversion C. constructor.
  - destruct (near_point h x y (H y (or_introl eq_refl))) as (d1 & Hd1 & Q1). destruct IH as (d2 & Hd2 & Q2); [intros z Hz; apply H; right; exact Hz|].
    exists (Rmin d1 d2). split; [apply Rmin_pos; assumption|]. pose proof (Rmin_l d1 d2) as M1. pose proof (Rmin_r d1 d2) as M2. intros x' w' X C.
    assert (A1 : forall u v, rel (Rmin d1 d2) u v -> rel d1 u v) by (unfold rel; intros; lra).
    assert (A2 : forall u v, rel (Rmin d1 d2) u v -> rel d2 u v) by (unfold rel; intros; lra).
    inversion C as [|? y' ? ws' Y C']; subst. constructor.
    + apply Q1; eapply Forall2_imp; try exact A1; assumption.
    + apply Q2; [eapply Forall2_imp; [exact A2|exact X]|]. eapply Forall2_imp; [|exact C']. intros p q. apply Forall2_imp. exact A2.
Qed.
Lemma near_stable h v w : off_edge h v w ->
  exists del, 0 < del /\ forall v' w', close del v v' -> close del w w' ->
    Forall2 (fun x x' => Forall2 (fun y y' => near h x' y' = near h x y) w w') v v'.
Proof.
  unfold off_edge. induction v as [|x v IH]; intros H.
  - exists 1. split; [lra|]. intros v' w' C _. inversion C. constructor.
  - destruct (near_one h x w (fun y Hy => H x y (or_introl eq_refl) Hy)) as (d1 & Hd1 & Q1). destruct IH as (d2 & Hd2 & Q2); [intros z y Hz Hy; apply H; [right; exact Hz|exact Hy]|].
    exists (Rmin d1 d2). split; [apply Rmin_pos; assumption|]. pose proof (Rmin_l d1 d2) as M1. pose proof (Rmin_r d1 d2) as M2. intros v' w' C D.
    assert (A1 : forall u v, rel (Rmin d1 d2) u v -> rel d1 u v) by (unfold rel; intros; lra).
    assert (A2 : forall u v, rel (Rmin d1 d2) u v -> rel d2 u v) by (unfold rel; intros; lra).
    inversion C as [|? x' ? vs' X C']; subst. constructor.
    + apply Q1; [eapply Forall2_imp; [exact A1|exact X]|]. eapply Forall2_imp; [|exact D]. intros p q. apply Forall2_imp. exact A1.
    + apply Q2; (eapply Forall2_imp; [|eassumption]); intros p q; apply Forall2_imp; exact A2.
Qed.
(** by position *)
Lemma near_pos h v : off_edge h v v -> exists del, 0 < del /\ forall v', close del v v' ->
  forall t u, near h (nth t v' []) (nth u v' []) = near h (nth t v []) (nth u v []).
Proof.
  intros O. destruct (near_stable h v v O) as (d & Hd & Q). exists d. split; [exact Hd|]. intros v' C t u. specialize (Q v' v' C C).
  pose proof (Forall2_len _ _ _ C) as L.
  destruct (Nat.lt_ge_cases t (length v)) as [Ht|Ht].
  - destruct (Nat.lt_ge_cases u (length v)) as [Hu|Hu].
    + assert (R1 : forall i, (i < length v)%nat -> Forall2 (fun y y' => near h (nth i v' []) y' = near h (nth i v []) y) v v').
      { clear - Q. assert (G : forall (P : pt -> pt -> Prop) l l' i, Forall2 P l l' -> (i < length l)%nat -> P (nth i l []) (nth i l' [])).
        { intros P l l' i F. revert i. induction F; intros [|i] Hi; cbn in *; try lia; auto. apply IHF. lia. }
        intros i Hi. apply (G (fun x x' => Forall2 (fun y y' => near h x' y' = near h x y) v v') v v' i Q Hi). }
      pose proof (R1 t Ht) as F. revert F. generalize (nth t v' []) (nth t v []). intros p q F. clear - F Hu. revert u Hu. induction F as [|y y' l l' H F IH]; intros [|u] Hu; cbn [nth length] in *; try lia; [exact H|]. apply IH. lia.
    + rewrite !(nth_overflow _ _ (n := u)) by lia. unfold near. destruct (nth t v' []); destruct (nth t v []); reflexivity.
  - rewrite !(nth_overflow _ _ (n := t)) by lia. reflexivity.
Qed.

(** joint counts and entropies *)
Definition edgeless (h : R) (vs : list (list (list R))) : Prop := List.Forall (fun v => off_edge h v v) vs.
Lemma nnear_stable h vs : edgeless h vs -> exists del, 0 < del /\ forall ws, near_all del vs ws -> forall t u,
  Forall2 (fun v w => near h (nth t w []) (nth u w []) = near h (nth t v []) (nth u v [])) vs ws.
Proof.
  induction 1 as [|v vs O F IH].
  - exists 1. split; [lra|]. intros ws N t u. inversion N. constructor.
  - destruct IH as (d & Hd & Q). destruct (near_pos h v O) as (d' & Hd' & Q'). exists (Rmin d d'). split; [apply Rmin_pos; assumption|].
    intros ws N t u. inversion N as [|? w ? ws' C N']; subst. constructor.
    + apply Q'. eapply Forall2_imp; [|exact C]. intros p q. apply Forall2_imp. intros a c H. pose proof (Rmin_r d d'). lra.
    + apply Q. eapply near_all_mono; [|exact N']. apply Rmin_l.
Qed.
Lemma KH_same h n d vs ws : (forall t u, Forall2 (fun v w => near h (nth t w []) (nth u w []) = near h (nth t v []) (nth u v [])) vs ws) -> KH h n d ws = KH h n d vs.
Proof.
  intros H. unfold KH. f_equal. apply map_ext. intros t. unfold kdensity, nnear. do 4 f_equal.
  enough (X : filter (fun u => forallb (fun v => near h (nth t v []) (nth u v [])) ws) (seq 0 n) = filter (fun u => forallb (fun v => near h (nth t v []) (nth u v [])) vs) (seq 0 n)) by (rewrite X; reflexivity).
  apply filter_ext. intros u. symmetry. apply forallb_eq. eapply Forall2_imp; [|apply (H t u)]. cbn. intros v w E. congruence.
Qed.
Definition same_near (h : R) (v w : list (list R)) : Prop := forall t u, near h (nth t w []) (nth u w []) = near h (nth t v []) (nth u v []).
Lemma same_stable h vs : edgeless h vs -> exists del, 0 < del /\ forall ws, near_all del vs ws -> Forall2 (same_near h) vs ws.
Proof.
  induction 1 as [|v vs O F IH].
  - exists 1. split; [lra|]. intros ws N. inversion N. constructor.
  - destruct IH as (d & Hd & Q). destruct (near_pos h v O) as (d' & Hd' & Q'). exists (Rmin d d'). split; [apply Rmin_pos; assumption|].
    intros ws N. inversion N as [|? w ? ws' C N']; subst. constructor.
    + intros t u. apply Q'. eapply Forall2_imp; [|exact C]. intros p q. apply Forall2_imp. intros a c H. pose proof (Rmin_r d d'). lra.
    + apply Q. eapply near_all_mono; [|exact N']. apply Rmin_l.
Qed.
Lemma KH_same' h n d vs ws : Forall2 (same_near h) vs ws -> KH h n d ws = KH h n d vs.
Proof. intros F. apply KH_same. intros t u. eapply Forall2_imp; [|exact F]. intros v w H. apply H. Qed.

(** embeddings *)
Definition offr (h : R) (x y : list R) : Prop := Forall2 (fun a c => Rabs (a - c) <> h / 2) x y.
Lemma off_past h n v s l ts : length v = n -> off_edge h v v -> (forall t, In t ts -> (l * s <= t < n)%nat) -> (1 <= s)%nat -> off_edge h (past_pts v s l ts) (past_pts v s l ts).
Proof.
  intros L O HT Hs x y Hx Hy. unfold past_pts, pasts in Hx, Hy. rewrite map_map in Hx, Hy. apply in_map_iff in Hx as (t & <- & Ht). apply in_map_iff in Hy as (t' & <- & Ht').
  unfold past. pose proof (HT t Ht) as B. pose proof (HT t' Ht') as B'.
  assert (G : forall js, (forall j, In j js -> (j < l)%nat) -> offr h (concat (map (fun j => nth (t - (l - j) * s) v []) js)) (concat (map (fun j => nth (t' - (l - j) * s) v []) js))).
  { induction js as [|j js IH]; intros H; [constructor|]. cbn [map concat]. apply Forall2_app; [|apply IH; intros i Hi; apply H; right; exact Hi].
    pose proof (H j (or_introl eq_refl)) as Hj. apply O; apply nth_In; rewrite L; assert ((l - j) * s >= 1)%nat by nia; nia. }
  apply G. intros j Hj. apply in_seq in Hj. lia.
Qed.
Lemma off_present h n v ts : length v = n -> off_edge h v v -> (forall t, In t ts -> (t < n)%nat) -> off_edge h (present_pts v ts) (present_pts v ts).
Proof.
  intros L O HT x y Hx Hy. unfold present_pts, presents in *. apply in_map_iff in Hx as (t & <- & Ht). apply in_map_iff in Hy as (t' & <- & Ht').
  apply O; apply nth_In; rewrite L; apply HT; assumption.
Qed.

Lemma off_rnd h n v rnd : length v = n -> off_edge h v v -> rnd_ok rnd n -> off_edge h (rnd_rows rnd v) (rnd_rows rnd v).
Proof.
  intros L O HR x y Hx Hy.
  assert (G : forall z, In z (rnd_rows rnd v) -> In z v).
  { clear x y Hx Hy. intros z Hz. destruct rnd as [|sg|sg|]; cbn [rnd_rows rnd_ok] in *; try assumption; apply in_map_iff in Hz as (j & <- & Hj); apply nth_In; rewrite L.
    - apply (Permutation_in _ HR), in_seq in Hj. lia.
    - destruct HR as [_ F]. rewrite Forall_forall in F. apply F. exact Hj. }
  apply O; apply G; assumption.
Qed.
