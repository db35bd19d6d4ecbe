(** C115, continued: nearest-neighbour cross-entropies under small changes of the data. *)
From Coq Require Import Reals Lra Lia List ZArith Arith Bool Permutation.
From Verif Require Import Res RSum Spec SpecTE SpecTEc SpecBase SpecGamma MBase PBase MTE PTE2 MPct MNorm PropsPct MEst PEst PEst2 MCont SpecKern PKern PKern2 PKern3 PKern4 PKern5 PTEc MKnn SpecKnn SpecKnn2 PKnn PKnn2 PropsKnn PropsKnn2 PropsKnn3 PKnn3 PropsKnn4 PropsKnn5 PKnn4 PropsKnn6 MFam PropsKnn7 SpecFam PFam PropsFam SpecPert PPert PPert2 PropsPert PropsPert2 PropsPert3 SpecPertK.
Import ListNotations.
Local Open Scope R_scope.


Lemma filter_F2_len {A} (P : A -> A -> Prop) (f g : A -> bool) l l' : (forall x y, P x y -> f x = true -> g y = true) -> Forall2 P l l' -> (length (filter f l) <= length (filter g l'))%nat.
Proof.
  intros H F. induction F as [|x y l l' Q F IH]; [cbn; lia|]. cbn [filter]. specialize (H x y Q). destruct (f x); [rewrite H by reflexivity; cbn; lia|]. destruct (g y); cbn; lia.
Qed.
Lemma F2_swap {A} (P : A -> A -> Prop) l l' : Forall2 P l l' -> Forall2 (fun y x => P x y) l' l.
Proof. induction 1; constructor; auto. Qed.
Lemma point_move p ref ref' k x x' e e' eta : Forall2 (fun y y' => Rabs (dst p x' y' - dst p x y) <= eta) ref ref' ->
  kth_point p ref k x e -> kth_point p ref' k x' e' -> Rabs (e' - e) <= eta.
Proof.
  intros H (_ & C & W) (_ & C' & W'). apply Rabs_le_between. split.
  - destruct (Rle_or_lt (- eta) (e' - e)) as [|L]; [assumption|exfalso]. eapply Nat.lt_irrefl, Nat.le_lt_trans; [exact W'|]. eapply Nat.le_lt_trans; [|exact C].
    eapply filter_F2_len; [|apply F2_swap; exact H]. cbn beta. intros y' y B. apply Rabs_le_between in B.
    destruct (Rle_dec (dst p x' y') e'); [|discriminate]. intros _. destruct (Rlt_dec (dst p x y) e); [reflexivity|lra].
  - destruct (Rle_or_lt (e' - e) eta) as [|L]; [assumption|exfalso]. eapply Nat.lt_irrefl, Nat.le_lt_trans; [exact W|]. eapply Nat.le_lt_trans; [|exact C'].
    eapply filter_F2_len; [|exact H]. cbn beta. intros y y' B. apply Rabs_le_between in B.
    destruct (Rle_dec (dst p x y) e); [|discriminate]. intros _. destruct (Rlt_dec (dst p x' y') e'); [reflexivity|lra].
Qed.
Notation P0 ws := (nth 0 ws (@nil (list R))).
Notation P1 ws := (nth 1 ws (@nil (list R))).
Lemma dst_near p vs t u eps : norm_ok p -> 0 < eps -> nearby vs (fun ws => Rabs (dst p (nth t (P0 ws) []) (nth u (P1 ws) []) - dst p (nth t (P0 vs) []) (nth u (P1 vs) [])) < eps).
Proof.
  intros Hp He. destruct (norm_cont p (vsub (nth t (P0 vs) []) (nth u (P1 vs) [])) eps Hp He) as (d & Hd & F). exists (d / 2). split; [lra|]. intros ws N. unfold dst. apply F.
  assert (G : forall i j, Forall2 (rel (d / 2)) (nth i (nth j vs []) []) (nth i (nth j ws []) [])) by (intros i j; apply close_row; apply Forall2_nth_def; [exact N|constructor]).
  replace d with (2 * (d / 2)) by field. apply near_vsub; apply G.
Qed.
Lemma F2_of_nth (P : list R -> list R -> Prop) l l' : length l = length l' -> (forall i, (i < length l)%nat -> P (nth i l []) (nth i l' [])) -> Forall2 P l l'.
Proof.
  revert l'. induction l as [|x l IH]; intros [|y l'] L H; try discriminate; constructor; [apply (H 0%nat); cbn; lia|]. apply IH; [cbn in L; lia|]. intros i Hi. apply (H (S i)). cbn. lia.
Qed.
Lemma ref_near p vs k es eps : norm_ok p -> length vs = 2%nat -> ref_radii p (P0 vs) (P1 vs) k es -> 0 < eps ->
  nearby vs (fun ws => forall es', ref_radii p (P0 ws) (P1 ws) k es' -> forall t, (t < length (P0 vs))%nat -> Rabs (es' t - es t) < eps).
Proof.
  intros Hp L2 He Heps.
  assert (N : nearby vs (fun ws => forall t, (t < length (P0 vs))%nat -> forall u, (u < length (P1 vs))%nat ->
     Rabs (dst p (nth t (P0 ws) []) (nth u (P1 ws) []) - dst p (nth t (P0 vs) []) (nth u (P1 vs) [])) < eps / 2)).
  { apply nearby_lt. intros t _. apply (nearby_lt vs _ (fun u ws => Rabs (dst p (nth t (P0 ws) []) (nth u (P1 ws) []) - dst p (nth t (P0 vs) []) (nth u (P1 vs) [])) < eps / 2)). intros u _. apply dst_near; [exact Hp|lra]. }
  assert (NL : nearby vs (fun ws => length (P0 ws) = length (P0 vs) /\ length (P1 ws) = length (P1 vs))).
  { exists 1. split; [lra|]. intros ws X. split; symmetry; apply (Forall2_len (Forall2 (rel 1))); apply Forall2_nth_def; try exact X; constructor. }
  eapply nearby_imp; [|apply nearby_and; [exact N|exact NL]]. intros ws [F [L0 L1]] es' He' t Ht. apply Rle_lt_trans with (eps / 2); [|lra].
  apply (point_move p (P1 vs) (P1 ws) k (nth t (P0 vs) []) (nth t (P0 ws) [])); [|apply He; exact Ht|apply He'; rewrite L0; exact Ht].
  apply F2_of_nth; [symmetry; exact L1|]. intros u Hu. left. apply F; assumption.
Qed.
Lemma stable_ref p vs k N M (r : list (list (list R)) -> res R) (h : (nat -> R) -> R) : norm_ok p -> length vs = 2%nat -> length (P0 vs) = N -> length (P1 vs) = M -> (1 <= k <= M)%nat ->
  ref_apart p k (P0 vs) (P1 vs) ->
  (forall es, (forall t, (t < N)%nat -> 0 < es t) -> lim_es N h es) ->
  nearby vs (fun ws => forall es, ref_radii p (P0 ws) (P1 ws) k es -> (forall t, (t < N)%nat -> 0 < es t) -> r ws = Ok (h es)) ->
  stable vs r.
Proof.
  intros Hp L2 LN LM Hk Ha HL HR. destruct (ref_radii_exist p (P0 vs) (P1 vs) k ltac:(lia)) as (es & He).
  assert (Pe : forall t, (t < N)%nat -> 0 < es t) by (intros t Ht; apply (Ha (nth t (P0 vs) [])); [apply nth_In; lia|apply He; lia]).
  exists (h es). split; [apply (nearby_self _ _ HR es He Pe)|]. intros eps Heps. destruct (HL es Pe eps Heps) as (d & Hd & Q).
  assert (N2 : nearby vs (fun ws => forall t, (t < N)%nat -> forall es', ref_radii p (P0 ws) (P1 ws) k es' -> 0 < es' t)).
  { apply nearby_lt. intros t Ht. eapply nearby_imp; [|apply (ref_near p vs k es (es t) Hp L2 He (Pe t Ht))]. intros ws X es' He'.
    specialize (X es' He' t ltac:(lia)). apply Rabs_def2 in X. lra. }
  assert (NL : nearby vs (fun ws => length (P1 ws) = length (P1 vs))).
  { exists 1. split; [lra|]. intros ws X. symmetry; apply (Forall2_len (Forall2 (rel 1))); apply Forall2_nth_def; try exact X; constructor. }
  eapply nearby_imp; [|apply nearby_and; [exact HR|apply nearby_and; [exact N2|apply nearby_and; [exact NL|apply (ref_near p vs k es d Hp L2 He Hd)]]]].
  intros ws (A & B & LL & C). destruct (ref_radii_exist p (P0 ws) (P1 ws) k ltac:(lia)) as (es' & He'). exists (h es'). split; [apply A; [exact He'|intros t Ht; apply (B t Ht es' He')]|].
  apply Q. intros t Ht. apply C; [assumption|lia].
Qed.

Section C115f.
  Context (E : nenv) (b : base) (V : valid_base b) (HG : is_gamma (gam E)).
  Notation G := (gam E).
  Notation "'U'" := (unit_of b).
  Lemma two_close d a c l : close_data d [a; c] l -> exists a' c', l = [a'; c'] /\ close d (rows2d a) (rows2d a') /\ close d (rows2d c) (rows2d c').
  Proof. intros C. inversion C as [|? a' ? l' H C']; subst. inversion C' as [|? c' ? l'' H' C'']; subst. inversion C''; subst. exists a', c'. auto. Qed.
  Lemma lim_c c u N F es : (forall t, (t < N)%nat -> continuity_pt F (es t)) -> lim_es N (fun es => (c + mean (map (fun e => F e) (map es (seq 0 N)))) / u) es.
  Proof.
    intros H. apply (lim_es_comp N (fun es => mean (map (fun e => F e) (map es (seq 0 N)))) es (fun x => (c + x) / u)); [apply lim_es_mean; exact H|].
    unfold Rdiv. apply (continuity_pt_mult (fun x => c + x) (fun _ => / u)); [|apply continuity_pt_const; intros ? ?; reflexivity].
    apply (continuity_pt_plus (fun _ => c) (fun x => x)); [apply continuity_pt_const; intros ? ?; reflexivity|apply cont_id].
  Qed.
  Theorem C115_cross_entropy : forall w m N M d ps q k, norm_ok (np_of m) -> (1 <= d)%nat -> (1 <= N)%nat -> table N d (rows2d ps) -> table M d (rows2d q) -> (2 <= k <= M)%nat ->
    ref_apart (np_of m) k (rows2d ps) (rows2d q) ->
    continuous_in_data (fun l => kl_cross_entropy E (ksg_args w m b k) (arr 0 l) (arr 1 l)) [ps; q].
  Proof.
    intros w m N M d ps q k Hp Hd HN Tp Tq Hk Ha.
    apply (stable_continuous _ (fun ws => kl_cross_entropy E (ksg_args w m b k) (F2 (P0 ws)) (F2 (P1 ws)))).
    - cbn [map].
      apply (stable_ref (np_of m) [rows2d ps; rows2d q] k N M _ (fun es => (psi M - psi k + corr w k + ln (lp_ball G (np_of m) d (1 / 2)) + INR d * sumf (fun t => ln (2 * es t)) (seq 0 N) / INR M) / U));
        [exact Hp|reflexivity|apply Tp|apply Tq|lia|exact Ha| |].
      + intros es Pe. set (c := psi M - psi k + corr w k + ln (lp_ball G (np_of m) d (1 / 2))).
        pose proof (lim_c c U N (fun e => INR d * INR N / INR M * ln (2 * e)) es) as L.
        intros eps He. destruct (L ltac:(intros t Ht; apply cont_scal; apply (cont_comp (fun e => 2 * e) ln); [apply cont_scal, cont_id|apply cont_ln; specialize (Pe t Ht); lra]) eps He) as (de & Hde & Q).
        exists de. split; [exact Hde|]. intros es' B. specialize (Q es' B).
        assert (X : forall f, c + mean (map (fun e => INR d * INR N / INR M * ln (2 * e)) (map f (seq 0 N))) = c + INR d * sumf (fun t => ln (2 * f t)) (seq 0 N) / INR M).
        { intros f. rewrite map_map, mean_map, seq_length, sumf_scal. field. split; apply not_0_INR; lia. }
        rewrite !X in Q. exact Q.
      + exists 1. split; [lra|]. intros ws X es He Pe. inversion X as [|? v ? ws' C X']; subst. inversion X' as [|? v' ? ws'' C' X'']; subst. inversion X''; subst. cbn [nth] in He |- *.
        apply (cross_sum E w m b Hp V HG N M d (F2 v) (F2 v') k es); try assumption; cbn [rows2d]; eapply close_table; eassumption.
    - exists 1. split; [lra|]. intros l C. destruct (two_close _ _ _ _ C) as (a' & c' & -> & _ & _). cbn [arr nth map]. unfold kl_cross_entropy. reflexivity.
  Qed.
  Theorem C115_family_cross_entropy : forall f N M d ps q k r, (1 <= N)%nat -> table N d (rows2d ps) -> table M d (rows2d q) -> (2 <= k <= M)%nat -> 0 < r < INR k + 1 ->
    ref_apart (Some 2) k (rows2d ps) (rows2d q) ->
    continuous_in_data (fun l => fam_cross f E (ex_args k r b) (arr 0 l) (arr 1 l)) [ps; q].
  Proof.
    intros f N M d ps q k r HN Tp Tq Hk Hr Ha.
    set (val := fun es : nat -> R => let ds := map es (seq 0 N) in
       match f with
       | Renyi => if Req_EM_T r 1 then lps_shannon M d k ds / U else ln (lps_integral G M d k r ds) / (1 - r) / U
       | Tsallis => if Req_EM_T r 1 then lps_shannon M d k ds / U else (1 - lps_integral G M d k r ds) / (r - 1)
       end).
    assert (VAL : forall p' q' es, table N d (rows2d p') -> table M d (rows2d q') -> ref_radii (Some 2) (rows2d p') (rows2d q') k es -> (forall t, (t < N)%nat -> 0 < es t) ->
       fam_cross f E (ex_args k r b) p' q' = Ok (val es)).
    { intros p' q' es Tp' Tq' He Pe. destruct (C79_cross_value E b V HG N M d p' q' k r es Tp' Tq' HN Hk Hr He Pe) as [A B]. unfold val, fam_cross.
      destruct f; destruct (Req_EM_T r 1) as [E1|E1]; try apply (B E1); apply (A E1). }
    apply (stable_continuous _ (fun ws => fam_cross f E (ex_args k r b) (F2 (P0 ws)) (F2 (P1 ws)))).
    - cbn [map]. apply (stable_ref (Some 2) [rows2d ps; rows2d q] k N M _ val); [cbn; lra|reflexivity|apply Tp|apply Tq|lia|exact Ha| |].
      + intros es Pe. pose proof (lt_0_INR M ltac:(lia)) as Pn.
        assert (CE : forall t, (t < N)%nat -> continuity_pt (fun e => INR M * euclidean_ball d e) (es t)) by (intros; apply cont_scal, cont_euclid).
        assert (PE : forall t, (t < N)%nat -> 0 < INR M * euclidean_ball d (es t)) by (intros t Ht; apply Rmult_lt_0_compat; [exact Pn|apply euclid_pos, Pe; exact Ht]).
        assert (L1 : lim_es N (fun es => lps_shannon M d k (map es (seq 0 N)) / U) es).
        { unfold Rdiv. apply (lim_es_comp N (fun es => lps_shannon M d k (map es (seq 0 N))) es (fun x => x * / U)).
          - unfold lps_shannon. apply (lim_es_mean N (fun e => ln (INR M * euclidean_ball d e) - psi k)). intros t Ht. unfold Rminus. apply cont_shift.
            apply (cont_comp (fun e => INR M * euclidean_ball d e) ln); [apply CE; exact Ht|apply cont_ln, PE; exact Ht].
          - apply (continuity_pt_mult (fun x => x) (fun _ => / U)); [apply cont_id|apply continuity_pt_const; intros ? ?; reflexivity]. }
        assert (LI : lim_es N (fun es => lps_integral G M d k r (map es (seq 0 N))) es).
        { unfold lps_integral. apply (lim_es_comp N (fun es => mean (map (fun e => Rpower (INR M * euclidean_ball d e) (1 - r)) (map es (seq 0 N)))) es (fun x => G (INR k) / G (INR k + 1 - r) * x)).
          - apply (lim_es_mean N (fun e => Rpower (INR M * euclidean_ball d e) (1 - r))). intros t Ht.
            apply (cont_comp (fun e => INR M * euclidean_ball d e) (fun z => Rpower z (1 - r))); [apply CE; exact Ht|apply cont_rpower, PE; exact Ht].
          - apply cont_scal, cont_id. }
        assert (PI0 : 0 < lps_integral G M d k r (map es (seq 0 N))).
        { apply (lps_pos G HG); try lia; [lra|]. apply PKern3.map_ne, seq_ne. lia. }
        unfold val. destruct f; destruct (Req_EM_T r 1); try exact L1.
        * apply (lim_es_comp N (fun es => lps_integral G M d k r (map es (seq 0 N))) es (fun x => ln x / (1 - r) / U)); [exact LI|].
          unfold Rdiv. apply (continuity_pt_mult (fun x => ln x * / (1 - r)) (fun _ => / U)); [|apply continuity_pt_const; intros ? ?; reflexivity].
          apply (continuity_pt_mult ln (fun _ => / (1 - r))); [apply cont_ln; exact PI0|apply continuity_pt_const; intros ? ?; reflexivity].
        * apply (lim_es_comp N (fun es => lps_integral G M d k r (map es (seq 0 N))) es (fun x => (1 - x) / (r - 1))); [exact LI|].
          unfold Rdiv. apply (continuity_pt_mult (fun x => 1 - x) (fun _ => / (r - 1))); [|apply continuity_pt_const; intros ? ?; reflexivity].
          apply (continuity_pt_minus (fun _ => 1) (fun x => x)); [apply continuity_pt_const; intros ? ?; reflexivity|apply cont_id].
      + exists 1. split; [lra|]. intros ws X es He Pe. inversion X as [|? v ? ws' C X']; subst. inversion X' as [|? v' ? ws'' C' X'']; subst. inversion X''; subst. cbn [nth] in He |- *.
        apply VAL; try assumption; cbn [rows2d]; eapply close_table; eassumption.
    - exists 1. split; [lra|]. intros l C. destruct (two_close _ _ _ _ C) as (a' & c' & -> & _ & _). cbn [arr nth map]. rewrite fam_cross_eq. reflexivity.
  Qed.
End C115f.
Example C115_ref_apart_example : ref_apart (Some 2) 2 (rows2d (F1 [0; 1; 3])) (rows2d (F1 [0; 5; 1])).
Proof.
  intros x e Hx ((y & Hy & ->) & C & W). cbn in Hx, Hy. assert (N2 : norm_ok (Some 2)) by (cbn; lra).
  assert (D : forall a c, dst (Some 2) [a] [c] = Rabs (a - c)) by (intros; apply dst1; exact N2).
  destruct (Rle_lt_dec (dst (Some 2) x y) 0) as [Z|]; [exfalso|assumption]. revert W. cbn [rows2d map].
  assert (K : forall e, e <= 0 -> (length (filter (fun y => if Rle_dec (dst (Some 2%R) x y) e then true else false) [[0%R]; [5%R]; [1%R]]) <= 1)%nat); [|intros W; specialize (K _ Z); lia].
  clear C Z. intros e He. destruct Hx as [<-|[<-|[<-|[]]]]; cbn [filter]; rewrite !D; repeat destruct (Rle_dec _ _); cbn [length]; try lia; exfalso;
  repeat match goal with H : Rabs _ <= e |- _ => revert H end; unfold Rabs; repeat destruct (Rcase_abs _); lra.
Qed.
