(** C115, continued: nearest-neighbour mutual information under small changes of the data; transfer entropies. *)
From Coq Require Import Reals Lra Lia List ZArith Arith Bool Permutation.
From Verif Require Import Res RSum Spec SpecTE SpecTEc SpecBase SpecGamma MBase PBase MTE PTE2 MPct MNorm PropsPct MEst PEst PEst2 MCont SpecKern PKern PKern2 PKern3 PKern4 PKern5 PTEc MKnn SpecKnn SpecKnn2 PKnn PKnn2 PropsKnn PropsKnn2 PropsKnn3 PKnn3 PropsKnn4 PropsKnn5 PKnn4 PropsKnn6 MFam PropsKnn7 SpecFam PFam PropsFam PropsFam2 PropsFam3 SpecPert PPert PPert2 PPert3 PropsPert.
Import ListNotations.
Local Open Scope R_scope.

Lemma close_data_mono d d' vars vars' : d <= d' -> close_data d vars vars' -> close_data d' vars vars'.
Proof. intros L. apply Forall2_imp. intros x y. apply Forall2_imp. intros p q. apply Forall2_imp. intros u v ?. lra. Qed.
Lemma close_data_refl d vars : 0 <= d -> close_data d vars vars.
Proof.
  intros Hd. unfold close_data. induction vars as [|x l IH]; constructor; [|exact IH]. pose proof (near_all_refl d [rows2d x] Hd) as N. inversion N; assumption.
Qed.
Lemma tie_free_steady p n k vs : norm_ok p -> tables n vs -> vs <> [] -> (1 <= k < n)%nat -> tie_free p n k vs ->
  forall t e, (t < n)%nat -> kth_neighbour p n vs k t e ->
  steady p n vs k t e (seq 0 (length vs)) /\ (forall i, (i < length vs)%nat -> steady p n vs k t e [i]) /\
  (p = None -> forall g, g <> [] -> (forall i, In i g -> (i < length vs)%nat) -> steady p n vs k t e g).
Proof.
  intros Hp T NV Hk TF t e Ht K.
  assert (NN : p = None -> forall g, g <> [] -> (forall i, In i g -> (i < length vs)%nat) -> steady p n vs k t e g).
  { intros -> g NE Hg u Hu Nu X. apply (tie_None n k vs T NV TF t e g u); assumption. }
  split; [|split; [|exact NN]].
  - destruct p as [p|]; [|apply NN; [reflexivity|destruct vs; [congruence|discriminate]|intros i Hi; apply in_seq in Hi; lia]].
    destruct (TF t e Ht K) as [Q _]. intros u Hu Nu X. rewrite sel_all in X by reflexivity. split.
    + eapply nearby_imp; [|apply nearby_length]. intros ws L. rewrite sel_all by exact L. reflexivity.
    + intros u' Hu' Nu' X'. apply Q; assumption.
  - intros i Hi. destruct p as [p|]; [|apply NN; [reflexivity|discriminate|intros j [<-|[]]; exact Hi]].
    destruct (TF t e Ht K) as [_ Q]. intros u Hu Nu X. exfalso. apply (Q u i Hu Nu Hi). exact X.
Qed.

Section C115b.
  Context (E : nenv) (w : variant) (b : base) (V : valid_base b).
  Theorem C115_ksg_mi : forall m n vars k, norm_ok (np_of m) -> (2 <= length vars)%nat -> tables n (map rows2d vars) -> (1 <= k < n)%nat ->
    tie_free (np_of m) n k (map rows2d vars) ->
    locally_constant (ksg_mi E (ksg_args w m b k) (Some 0%Z) false) vars.
  Proof.
    intros m n vars k Hp Hv T Hk TF. set (vs := map rows2d vars) in *. set (p := np_of m) in *.
    assert (NV : vs <> []) by (unfold vs; destruct vars; [cbn in Hv; lia|discriminate]).
    destruct (radii_exist p n vs k Hk) as (es & He).
    eexists. split; [apply (C67_value E w m b Hp V n vars k es); assumption|].
    destruct (counts_stable p Hp n k vs (map (fun i => [i]) (seq 0 (length vs))) Hk) with (es := es) as (d & Hd & F); [|exact He|].
    { intros t e Ht K g Hg. destruct (tie_free_steady p n k vs Hp T NV Hk TF t e Ht K) as (S1 & S2 & _). destruct Hg as [<-|Hg]; [exact S1|].
      apply in_map_iff in Hg as (i & <- & Hi). apply in_seq in Hi. apply S2. lia. }
    exists d. split; [exact Hd|]. intros vars' C. pose proof (close_near _ _ _ C) as N. fold vs in N. specialize (F _ N).
    pose proof (close_tables _ n _ _ C T) as T'. pose proof (close_length _ _ _ C) as LL.
    destruct (radii_exist p n (map rows2d vars') k Hk) as (es' & He').
    rewrite (C67_value E w m b Hp V n vars' k es') by (try assumption; lia). do 3 f_equal. apply map_ext_in. intros t Ht. apply in_seq in Ht.
    unfold ksg_value. rewrite !map_length, LL. f_equal. f_equal.
    assert (X : forall ws e, length ws = length vars -> map (fun v => psi (nbs w p n [v] t e + 1)) ws = map (fun i => psi (nbs w p n (sel [i] ws) t e + 1)) (seq 0 (length vars))).
    { intros ws e L. rewrite <- (sel_all ws ws eq_refl) at 1. rewrite L. unfold sel. rewrite map_map. reflexivity. }
    rewrite !X by (rewrite map_length; congruence). f_equal. apply map_ext_in. intros i Hi. do 2 f_equal.
    apply F; [lia|apply He'; lia|]. apply in_map_iff. exists i. split; [reflexivity|]. unfold vs. rewrite map_length. exact Hi.
  Qed.
  (** conditional mutual information, maximum norm; the first array is the condition *)
  Theorem C115_ksg_cmi : forall n vars cond k, (2 <= length vars)%nat -> tables n (map rows2d (cond :: vars)) -> (1 <= k < n)%nat ->
    tie_free None n k (map rows2d (cond :: vars)) ->
    locally_constant (fun l => ksg_cmi E (ksg_args w MInf b k) (Some 0%Z) false (tl l) (hd (F1 []) l)) (cond :: vars).
  Proof.
    intros n vars cond k Hv T Hk TF. set (vs := map rows2d (cond :: vars)) in *.
    assert (Hp : norm_ok None) by exact Logic.I. assert (Hm : norm_ok (np_of MInf)) by exact Logic.I.
    assert (NV : vs <> []) by discriminate. assert (Lv : length vs = S (length vars)) by apply map_length.
    assert (SP : forall c l, tables n (map rows2d (c :: l)) -> tables n (map rows2d l) /\ tables n [rows2d c] /\ forall k es, radii None n (map rows2d (c :: l)) k es -> radii None n (map rows2d l ++ [rows2d c]) k es).
    { intros c l Tc. cbn [map] in Tc. assert (A : tables n (map rows2d l)) by (unfold tables in *; inversion Tc; assumption).
      split; [exact A|]. split; [unfold tables in *; inversion Tc; apply Forall_cons; [assumption|apply Forall_nil]|].
      intros k' es H t Ht. apply (kth_perm None n (map rows2d (c :: l))); try assumption; [|apply H; exact Ht]. cbn [map]. apply (Permutation_cons_append (map rows2d l)). }
    destruct (SP cond vars T) as (Tv & Tz & SR).
    destruct (radii_exist None n vs k Hk) as (es & He).
    cbn [tl hd]. eexists. split; [apply (C72_value E w MInf b Hm V n vars cond k es); try assumption; apply SR; exact He|].
    destruct (counts_stable None Hp n k vs ([0%nat] :: map (fun i => [S i; 0%nat]) (seq 0 (length vars))) Hk) with (es := es) as (d & Hd & F); [|exact He|].
    { intros t e Ht K g Hg. destruct (tie_free_steady None n k vs Hp T NV Hk TF t e Ht K) as (S1 & _ & S2). destruct Hg as [<-|[<-|Hg]]; [exact S1| |].
      - apply S2; [reflexivity|discriminate|]. intros i [<-|[]]. lia.
      - apply in_map_iff in Hg as (i & <- & Hi). apply in_seq in Hi. apply S2; [reflexivity|discriminate|]. intros j [<-|[<-|[]]]; lia. }
    exists d. split; [exact Hd|]. intros l C. pose proof (close_near _ _ _ C) as N. fold vs in N. specialize (F _ N).
    pose proof (close_tables _ n _ _ C T) as T'. pose proof (close_length _ _ _ C) as LL. destruct l as [|c l]; [discriminate|]. cbn [length] in LL. injection LL as LL. cbn [tl hd].
    destruct (SP c l T') as (Tv' & Tz' & SR').
    destruct (radii_exist None n (map rows2d (c :: l)) k Hk) as (es' & He').
    rewrite (C72_value E w MInf b Hm V n l c k es') by (try assumption; try lia; apply SR'; exact He'). do 3 f_equal. apply map_ext_in. intros t Ht. apply in_seq in Ht.
    specialize (F t ltac:(lia) (es' t) (He' t ltac:(lia))).
    unfold ksg_cond_value. f_equal.
    - do 3 f_equal. apply (F [0%nat] (or_introl eq_refl) w).
    - f_equal.
      assert (X : forall x ws e, length ws = length vars -> map (fun v => psi (nbs w (np_of MInf) n [v; rows2d x] t e + 1)) (map rows2d ws)
         = map (fun i => psi (nbs w None n (sel [S i; 0%nat] (map rows2d (x :: ws))) t e + 1)) (seq 0 (length vars))).
      { intros x ws e L. rewrite <- (sel_all (map rows2d ws) (map rows2d ws) eq_refl) at 1. rewrite map_length, L. unfold sel. rewrite map_map. reflexivity. }
      rewrite !X by (reflexivity || exact LL). apply map_ext_in. intros i Hi. do 2 f_equal. apply F. right. apply in_map_iff. exists i. auto.
  Qed.

  (** ties: with two equal variables an arbitrarily small change of one of them lowers the estimate from 1 nat to 0 *)
  Theorem C115_ties_refuted :
    ksg_mi E (ksg_args Strict MInf b 1) (Some 0%Z) false [F1 [0; 1]; F1 [0; 1]] = Ok (1 / unit_of b) /\
    forall h, 0 < h -> ksg_mi E (ksg_args Strict MInf b 1) (Some 0%Z) false [F1 [0; 1]; F1 [0; 1 + h]] = Ok 0.
  Proof.
    assert (P2 : psi 2 = psi 1 + 1) by (unfold psi, harm; cbn; field).
    assert (D : forall x t u, Rabs (nth t [0; x] 0 - nth u [0; x] 0) = jdist None [rows2d (F1 [0; x])] t u \/ (2 <= t)%nat \/ (2 <= u)%nat).
    { intros x t u. destruct t as [|[|t]]; destruct u as [|[|u]]; try (right; lia); left; rewrite jdist_1; cbn [rows2d map nth]; rewrite dst1 by exact Logic.I; reflexivity. }
    assert (DJ : forall x y t u, (t < 2)%nat -> (u < 2)%nat -> jdist None (map rows2d [F1 [0; x]; F1 [0; y]]) t u
       = Rmax (jdist None [rows2d (F1 [0; x])] t u) (jdist None [rows2d (F1 [0; y])] t u)).
    { intros x y t u Ht Hu. assert (TT : tables 2 (map rows2d [F1 [0; x]; F1 [0; y]])) by (unfold tables; cbn; repeat (apply Forall_cons; [exists 1%nat; repeat constructor|]); apply Forall_nil).
      rewrite (jdist_norm None 2) by (try assumption; exact Logic.I). rewrite !jdist_1. cbn [map norm fold_right].
      rewrite !Rabs_right by (apply Rle_ge, dst_nonneg). rewrite (Rmax_left (dst None (nth t (rows2d (F1 [0; y])) []) (nth u (rows2d (F1 [0; y])) [])) 0) by apply dst_nonneg. reflexivity. }
    assert (D1 : forall x, 0 < x -> forall t u, (t < 2)%nat -> (u < 2)%nat -> t <> u -> jdist None [rows2d (F1 [0; x])] t u = x).
    { intros x Hx t u Ht Hu N. destruct (D x t u) as [<-|[|]]; try lia. destruct t as [|[|t]]; destruct u as [|[|u]]; try lia; cbn [nth]; [rewrite Rabs_left|rewrite Rabs_right]; lra. }
    assert (K : forall x, 1 <= x -> ksg_mi E (ksg_args Strict MInf b 1) (Some 0%Z) false [F1 [0; 1]; F1 [0; x]]
       = Ok ((psi 1 - 0 - (psi ((if Rlt_dec 1 x then 1 else 0) + 1) + (psi (0 + 1) + 0)) + psi 2) / unit_of b)).
    { intros x Hx. assert (TT : tables 2 (map rows2d [F1 [0; 1]; F1 [0; x]])) by (unfold tables; cbn; repeat (apply Forall_cons; [exists 1%nat; repeat constructor|]); apply Forall_nil).
      assert (O : forall t, (t < 2)%nat -> others 2 t = [(1 - t)%nat]) by (intros [|[|t]] Ht; [reflexivity|reflexivity|lia]).
      assert (JX : forall t, (t < 2)%nat -> jdist None (map rows2d [F1 [0; 1]; F1 [0; x]]) t (1 - t) = x).
      { intros t Ht. rewrite DJ by lia. rewrite !D1 by (try lra; lia). apply Rmax_right. exact Hx. }
      assert (He : radii None 2 (map rows2d [F1 [0; 1]; F1 [0; x]]) 1 (fun _ => x)).
      { intros t Ht. split; [exists (1 - t)%nat; split; [lia|]; split; [lia|]; symmetry; apply JX; exact Ht|]. unfold closer, within. rewrite (O t Ht). cbn [filter]. rewrite JX by exact Ht.
        destruct (Rlt_dec x x); [lra|]. destruct (Rle_dec x x); [|lra]. cbn. lia. }
      rewrite (C67_value E Strict MInf b Logic.I V 2 [F1 [0; 1]; F1 [0; x]] 1 (fun _ => x)) by (try assumption; cbn; lia).
      assert (NB : forall y t, 0 < y -> (t < 2)%nat -> nbs Strict None 2 [rows2d (F1 [0; y])] t x = if Rlt_dec y x then 1%nat else 0%nat).
      { intros y t Hy Ht. cbn [nbs]. unfold closer. rewrite (O t Ht). cbn [filter]. rewrite D1 by (try assumption; lia). destruct (Rlt_dec y x); reflexivity. }
      do 2 f_equal. rewrite (mean_ext _ (fun _ => psi 1 - 0 - (psi ((if Rlt_dec 1 x then 1 else 0) + 1) + (psi (0 + 1) + 0)) + psi 2)).
      - rewrite mean_map, sumf_const, seq_length. cbn [INR]. field.
      - intros t Ht. apply in_seq in Ht. unfold ksg_value, corr, sumR. cbn [map sumf np_of]. rewrite !NB by (try lra; lia). destruct (Rlt_dec x x); [lra|]. cbn [length INR]. ring. }
    split.
    - rewrite K by lra. destruct (Rlt_dec 1 1); [lra|]. cbn [Nat.add]. do 2 f_equal. rewrite P2. ring.
    - intros h Hh. rewrite K by lra. destruct (Rlt_dec 1 (1 + h)); [|lra]. cbn [Nat.add]. f_equal. unfold Rdiv. replace (_ + psi 2) with 0 by ring. ring.
  Qed.
End C115b.
