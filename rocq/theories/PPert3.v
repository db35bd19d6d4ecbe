(** Lemmas: neighbour counts do not change under small changes of data without ties. *)
From Coq Require Import Reals Lra Lia List ZArith Arith Bool Permutation.
From Verif Require Import Res RSum Spec SpecBase SpecGamma MBase PBase MTE MPct MNorm MEst PEst MCont SpecKern PKern PKern3 MKnn SpecKnn PKnn PKnn2 SpecPert PPert.
Import ListNotations.
Local Open Scope R_scope.

Definition same_order (x y x' y' : R) : Prop := (x < y /\ x' < y') \/ (x = y /\ x' = y') \/ (y < x /\ y' < x').
(** the maximum norm of a list of non-negative numbers is one of them *)
Lemma max_attained l : l <> [] -> (forall x, In x l -> 0 <= x) -> In (norm None l) l.
Proof.
  intros NE P. cbn [norm]. induction l as [|x l IH]; [congruence|]. cbn [fold_right]. pose proof (P x (or_introl eq_refl)) as Px. rewrite (Rabs_right x) by lra.
  destruct l as [|y l]; [left; cbn; rewrite Rmax_left by lra; reflexivity|].
  specialize (IH ltac:(discriminate) (fun z Hz => P z (or_intror Hz))). unfold Rmax at 1. destruct (Rle_dec _ _); [right; exact IH|left; reflexivity].
Qed.
Lemma max_above l x : In x l -> Rabs x <= norm None l.
Proof.
  cbn [norm]. induction l as [|y l IH]; intros []; cbn [fold_right]; [subst; apply Rmax_l|]. eapply Rle_trans; [apply IH; assumption|apply Rmax_r].
Qed.
Section Ties.
  Context (p : option R) (Hp : norm_ok p) (n k : nat) (vs : list (list (list R))) (T : tables n vs) (NV : vs <> []).
  Notation d1 ws i t u := (jdist p [nth i ws []] t u).
  Lemma tables_nth ws i : tables n ws -> (i < length ws)%nat -> tables n [nth i ws []].
  Proof. intros T' Hi. unfold tables in *. apply Forall_cons; [|apply Forall_nil]. rewrite Forall_forall in T'. apply T', nth_In. exact Hi. Qed.
  Lemma tables_sel ws g : tables n ws -> (forall i, In i g -> (i < length ws)%nat) -> tables n (sel g ws).
  Proof.
    intros T' H. unfold tables, sel. apply Forall_forall. intros v Hv. apply in_map_iff in Hv as (i & <- & Hi). unfold tables in T'. rewrite Forall_forall in T'. apply T', nth_In, H. exact Hi.
  Qed.
  Lemma jdist_sel ws g t u : tables n ws -> (forall i, In i g -> (i < length ws)%nat) -> (t < n)%nat -> (u < n)%nat ->
    jdist p (sel g ws) t u = norm p (map (fun i => d1 ws i t u) g).
  Proof.
    intros T' H Ht Hu. rewrite (jdist_norm p n) by (try assumption; apply tables_sel; assumption). unfold sel. rewrite map_map. f_equal. apply map_ext. intros i. rewrite jdist_1. reflexivity.
  Qed.
End Ties.
Lemma le_joint p n ws i t u : norm_ok p -> tables n ws -> (i < length ws)%nat -> (t < n)%nat -> (u < n)%nat -> jdist p [nth i ws []] t u <= jdist p ws t u.
Proof.
  intros Hp T Hi Ht Hu. apply (jdist_mono p n); try assumption. destruct (nth_split ws [] Hi) as (l1 & l2 & E & _).
  exists (l1 ++ l2). rewrite E at 1. cbn [app]. symmetry. apply Permutation_middle.
Qed.

Section MaxNorm.
  Context (n k : nat) (vs : list (list (list R))) (T : tables n vs) (NV : vs <> []) (TF : tie_free None n k vs).
  Notation d1 ws i t u := (jdist None [nth i ws []] t u).
  Let Hp : norm_ok None := Logic.I.
  Lemma attained ws g t u : tables n ws -> g <> [] -> (forall i, In i g -> (i < length ws)%nat) -> (t < n)%nat -> (u < n)%nat ->
    exists i, In i g /\ jdist None (sel g ws) t u = d1 ws i t u.
  Proof.
    intros T' NE H Ht Hu. rewrite (jdist_sel None Hp n) by assumption.
    destruct (proj1 (in_map_iff _ _ _) (max_attained (map (fun i => d1 ws i t u) g) ltac:(destruct g; [congruence|discriminate])
       ltac:(intros x Hx; apply in_map_iff in Hx as (i & <- & _); apply jdist_nonneg))) as (i & Hi & Ii). exists i. split; [exact Ii|symmetry; exact Hi].
  Qed.
  Lemma attained_all ws t u : tables n ws -> ws <> [] -> (t < n)%nat -> (u < n)%nat -> exists i, (i < length ws)%nat /\ jdist None ws t u = d1 ws i t u.
  Proof.
    intros T' NE Ht Hu. destruct (attained ws (seq 0 (length ws)) t u) as (i & Hi & X); try assumption.
    - destruct ws; [congruence|discriminate].
    - intros i Hi. apply in_seq in Hi. lia.
    - rewrite sel_all in X by reflexivity. exists i. split; [apply in_seq in Hi; lia|exact X].
  Qed.
  (** the pair of neighbour and variable at the k-th neighbour distance stays the decisive one *)
  Lemma tie_None t e g u : (t < n)%nat -> kth_neighbour None n vs k t e -> (forall i, In i g -> (i < length vs)%nat) -> g <> [] ->
    (u < n)%nat -> u <> t -> jdist None (sel g vs) t u = e ->
    nearby vs (fun ws => jdist None (sel g ws) t u = jdist None ws t u) /\ (forall u', (u' < n)%nat -> u' <> t -> jdist None vs t u' = e -> u' = u).
  Proof.
    intros Ht K Hg NE Hu Nu X. pose proof (TF t e Ht K) as Q. cbn in Q.
    destruct (attained vs g t u T NE Hg Ht Hu) as (i & Ii & Xi). rewrite X in Xi.
    assert (UQ : forall u', (u' < n)%nat -> u' <> t -> jdist None vs t u' = e -> u' = u).
    { intros u' Hu' Nu' X'. destruct (attained_all vs t u' T NV Ht Hu') as (i' & Hi' & Xi'). rewrite X' in Xi'.
      apply (Q u' u i' i); auto. }
    split; [|exact UQ].
    (* the joint distance of u is e *)
    assert (JE : jdist None vs t u = e).
    { destruct K as ((u0 & H0 & N0 & E0) & _). rewrite (UQ u0 H0 N0 (eq_sym E0)) in E0. symmetry. exact E0. }
    assert (LT : forall j, (j < length vs)%nat -> j <> i -> d1 vs j t u < d1 vs i t u).
    { intros j Hj Nj. rewrite <- Xi. pose proof (le_joint None n vs j t u Hp T Hj Ht Hu) as L. rewrite JE in L.
      destruct L as [L|L]; [exact L|exfalso]. destruct (Q u u j i) as [_ C]; auto. }
    assert (N1 : nearby vs (fun ws => forall j, (j < length vs)%nat -> j <> i -> d1 ws j t u < d1 ws i t u)).
    { apply nearby_lt. intros j Hj. destruct (Nat.eq_dec j i) as [ ->|Nj]; [apply nearby_true; intros ws C; congruence|].
      eapply nearby_imp; [|apply (nearby_less None [j] [i] vs t u u Hp (LT j Hj Nj))]. intros ws L _. exact L. }
    assert (N2 : nearby vs (fun ws => length ws = length vs /\ tables n ws)).
    { exists 1. split; [lra|]. intros ws N. split; [symmetry; eapply Forall2_len; exact N|eapply near_tables; eassumption]. }
    eapply nearby_imp; [|apply nearby_and; [exact N1|exact N2]]. intros ws (A & L & T').
    assert (NW : ws <> []) by (intros ->; destruct vs; [congruence|discriminate]).
    destruct (attained ws g t u T' NE ltac:(intros j Hj; rewrite L; apply Hg; exact Hj) Ht Hu) as (j & Ij & Xj).
    destruct (attained_all ws t u T' NW Ht Hu) as (j' & Ij' & Xj').
    assert (J1 : d1 ws i t u <= jdist None (sel g ws) t u).
    { pose proof (le_joint None n (sel g ws)) as LJ. apply In_nth with (d := 0%nat) in Ii as (r & Hr & Er).
      assert (Z : nth r (sel g ws) [] = nth i ws []).
      { unfold sel. rewrite (nth_indep _ [] ((fun i => nth i ws []) 0%nat)) by (rewrite map_length; exact Hr). rewrite (map_nth (fun i => nth i ws [])), Er. reflexivity. }
      specialize (LJ r t u Hp). rewrite Z in LJ. apply LJ; try assumption; [|unfold sel; rewrite map_length; exact Hr].
      apply tables_sel; [exact T'|]. intros a Ha. rewrite L. apply Hg. exact Ha. }
    assert (J2 : d1 ws i t u <= jdist None ws t u) by (apply (le_joint None n); try assumption; rewrite L; apply Hg; exact Ii).
    destruct (Nat.eq_dec j i) as [ ->|Nj]; [|pose proof (A j ltac:(apply Hg; exact Ij) Nj); lra].
    destruct (Nat.eq_dec j' i) as [ ->|Nj']; [|pose proof (A j' ltac:(lia) Nj'); lra]. rewrite Xj, Xj'. reflexivity.
  Qed.
End MaxNorm.

(** groups of variables that have the k-th neighbour distance only where the joint variable has, and keep doing so *)
Definition steady p n (vs : list (list (list R))) (k t : nat) (e : R) (g : list nat) : Prop :=
  forall u, (u < n)%nat -> u <> t -> jdist p (sel g vs) t u = e ->
    nearby vs (fun ws => jdist p (sel g ws) t u = jdist p ws t u) /\ (forall u', (u' < n)%nat -> u' <> t -> jdist p vs t u' = e -> u' = u).
Section Count.
  Context (p : option R) (Hp : norm_ok p) (n k : nat) (vs : list (list (list R))).
  Lemma order_stable t e g u0 : (t < n)%nat -> (u0 < n)%nat -> u0 <> t -> e = jdist p vs t u0 -> steady p n vs k t e g ->
    nearby vs (fun ws => forall u, (u < n)%nat -> u <> t -> same_order (jdist p (sel g vs) t u) e (jdist p (sel g ws) t u) (jdist p ws t u0)).
  Proof.
    intros Ht H0 N0 E0 S. apply nearby_lt. intros u Hu. destruct (Nat.eq_dec u t) as [ ->|Nu]; [apply nearby_true; intros ws C; congruence|].
    assert (AL : jdist p (sel (seq 0 (length vs)) vs) t u0 = e) by (rewrite sel_all by reflexivity; symmetry; exact E0).
    destruct (Rtotal_order (jdist p (sel g vs) t u) e) as [L|[L|L]].
    - eapply nearby_imp; [|apply nearby_and; [apply nearby_length|apply (nearby_less p g (seq 0 (length vs)) vs t u u0 Hp); rewrite AL; exact L]].
      intros ws [LW X] _. rewrite sel_all in X by exact LW. left. split; assumption.
    - destruct (S u Hu Nu L) as [N Q]. eapply nearby_imp; [|exact N]. intros ws X _. right. left. split; [exact L|].
      rewrite (Q u0 H0 N0 (eq_sym E0)). exact X.
    - eapply nearby_imp; [|apply nearby_and; [apply nearby_length|apply (nearby_less p (seq 0 (length vs)) g vs t u0 u Hp); rewrite AL; exact L]].
      intros ws [LW X] _. rewrite sel_all in X by exact LW. right. right. split; [exact L|exact X].
  Qed.
  Lemma order_nbs w t e e' vs1 vs2 : (forall u, (u < n)%nat -> u <> t -> same_order (jdist p vs1 t u) e (jdist p vs2 t u) e') ->
    nbs w p n vs1 t e = nbs w p n vs2 t e'.
  Proof.
    intros H. destruct w; cbn [nbs]; unfold closer, within; f_equal; apply filter_ext_in; intros u Hu; apply others_in in Hu as [U1 U2];
      specialize (H u U1 U2); unfold same_order in H.
    - destruct (Rlt_dec (jdist p vs1 t u) e); destruct (Rlt_dec (jdist p vs2 t u) e'); try reflexivity; exfalso; lra.
    - destruct (Rle_dec (jdist p vs1 t u) e); destruct (Rle_dec (jdist p vs2 t u) e'); try reflexivity; exfalso; lra.
  Qed.
  (** the neighbour counts in each of the groups [gs] stay the same *)
  Lemma counts_stable (gs : list (list nat)) : (1 <= k < n)%nat ->
    (forall t e, (t < n)%nat -> kth_neighbour p n vs k t e -> forall g, In g (seq 0 (length vs) :: gs) -> steady p n vs k t e g) ->
    forall es, radii p n vs k es ->
    nearby vs (fun ws => forall t, (t < n)%nat -> forall e', kth_neighbour p n ws k t e' ->
      forall g, In g gs -> forall w, nbs w p n (sel g ws) t e' = nbs w p n (sel g vs) t (es t)).
  Proof.
    intros Hk S es He. apply nearby_lt. intros t Ht. pose proof (He t Ht) as K. destruct K as ((u0 & H0 & N0 & E0) & C & W).
    specialize (S t (es t) Ht (He t Ht)).
    assert (N : nearby vs (fun ws => forall g, In g (seq 0 (length vs) :: gs) -> forall u, (u < n)%nat -> u <> t ->
       same_order (jdist p (sel g vs) t u) (es t) (jdist p (sel g ws) t u) (jdist p ws t u0))).
    { apply nearby_all. intros g Hg. apply order_stable; try assumption. apply S. exact Hg. }
    eapply nearby_imp; [|apply nearby_and; [apply nearby_length|exact N]]. intros ws [LW A] e' K' g Hg w.
    assert (K2 : kth_neighbour p n ws k t (jdist p ws t u0)).
    { pose proof (A (seq 0 (length vs)) (or_introl eq_refl)) as A0. rewrite !sel_all in A0 by (reflexivity || exact LW).
      split; [exists u0; auto|]. change (closer p n ws t (jdist p ws t u0)) with (nbs Strict p n ws t (jdist p ws t u0)).
      change (within p n ws t (jdist p ws t u0)) with (nbs NonStrict p n ws t (jdist p ws t u0)).
      rewrite <- !(order_nbs _ t (es t) _ vs ws) by exact A0. split; assumption. }
    rewrite (kth_unique p n ws k t e' _ K' K2). symmetry. apply order_nbs. apply A. right. exact Hg.
  Qed.
End Count.
