(** C94 (continued): Renyi and Tsallis transfer entropy, and examples. *)
From Coq Require Import Reals Lra Lia List ZArith Arith Bool Permutation.
From Verif Require Import Res RSum Spec SpecTE SpecTEc SpecBase SpecGamma MBase PBase MTE PTE2 MPct MNorm PropsPct MEst PEst PEst2 MCont SpecKern MKern PKern PKern2 PKern3 PKern4 PKern5 PropsKern PropsKern2 PropsKern3 PTEc MKnn SpecKnn SpecKnn2 PKnn PKnn2 PropsKnn PropsKnn2 PropsKnn3 PKnn3 PropsKnn4 PropsKnn5 PKnn4 PropsKnn6 MFam PropsKnn7 SpecFam PFam PropsFam PropsFam2 PropsFam3 SpecUnits PUnits PropsUnits.
Import ListNotations.
Local Open Scope R_scope.

Lemma two_ok : norm_ok (Some 2). Proof. cbn. lra. Qed.
Lemma same_moved n d a c v : Rabs a = 1 -> table n d v -> length c = d -> same_distances n v (moved a c v).
Proof.
  intros Ha T L. split; [exists d; split; [exact T|apply moved_table; assumption]|].
  intros t u Ht Hu. rewrite (dst_moved (Some 2) n d) by (try assumption; exact two_ok). rewrite Ha. ring.
Qed.
Lemma scaled_moved n d a c v : table n d v -> length c = d -> scaled n (fun t => t) (Rabs a) v (moved a c v).
Proof.
  intros T L. split; [exists d; split; [exact T|apply moved_table; assumption]|].
  intros t u Ht Hu. apply (dst_moved (Some 2) n d); try assumption. exact two_ok.
Qed.

Section Family.
  Context (E : nenv) (b : base) (V : valid_base b).

  (** the origins of the series do not matter, nor a common reversal of the axes *)
  Theorem C94_family_te_origin : forall f n ds dd source dest cs cd l k c s rnd kn q a,
    table n ds source -> table n dd dest -> length cs = ds -> length cd = dd -> Rabs a = 1 ->
    (1 <= l)%nat -> (1 <= k)%nat -> (1 <= s)%nat ->
    let d := (Nat.max k l * s)%nat in
    (d < n)%nat -> (1 <= kn)%nat -> (1 <= nrows n d s)%nat -> 0 < q -> rnd_ok rnd (nrows n d s) ->
    fam_te f E (ex_args kn q b) 0 (F2 (moved a cs source)) (F2 (moved a cd dest)) (te_kw l k c s) rnd
      = fam_te f E (ex_args kn q b) 0 (F2 source) (F2 dest) (te_kw l k c s) rnd.
  Proof using V.
    intros f n ds dd source dest cs cd l k c s rnd kn q a Ts Td Lcs Lcd Ha Hl Hk Hs d Hd Hkn Hm Hq Hr.
    pose proof (moved_table n ds a cs source Ts Lcs) as Ts'. pose proof (moved_table n dd a cd dest Td Lcd) as Td'.
    destruct (Nat.lt_ge_cases kn (nrows n d s)) as [K|K].
    - rewrite (C81_te_is_conditional_mi E b V f n ds dd (F2 source) (F2 dest) l k c s rnd kn q Ts Td Hl Hk Hs Hd ltac:(fold d; lia) Hq Hr).
      rewrite (C81_te_is_conditional_mi E b V f n ds dd (F2 (moved a cs source)) (F2 (moved a cd dest)) l k c s rnd kn q Ts' Td' Hl Hk Hs Hd ltac:(fold d; lia) Hq Hr).
      cbn [rows2d]. fold d. set (ts := base_times n d s).
      assert (HT : forall t, In t ts -> (d <= t < n)%nat).
      { intros t Ht. unfold ts in Ht. rewrite base_times_In in Ht by exact Hs. tauto. }
      assert (LT : length ts = nrows n d s) by apply base_times_length.
      rewrite (past_moved n ds a cs source), (past_moved n dd a cd dest), present_moved, rnd_moved; try assumption.
      2, 3: intros t Ht; specialize (HT t Ht); unfold d in *; nia.
      apply (C80_distances_only f E (ex_args kn q b) (nrows n d s)); [cbn; lia| |].
      + cbn [map rows2d]. apply Forall2_cons; [|apply Forall2_cons; [|apply Forall2_nil]].
        * apply (same_moved _ (l * ds)); [exact Ha| |rewrite rep_length; congruence].
          apply rnd_table; [exact Hr|]. rewrite <- LT. apply (past_table n); auto. intros t Ht. specialize (HT t Ht). unfold d in *. nia.
        * apply (same_moved _ dd); [exact Ha| |congruence]. rewrite <- LT. apply (present_table n); auto. intros t Ht. specialize (HT t Ht). lia.
      + cbn [rows2d]. apply (same_moved _ (k * dd)); [exact Ha| |rewrite rep_length; congruence].
        rewrite <- LT. apply (past_table n); auto. intros t Ht. specialize (HT t Ht). unfold d in *. nia.
    - rewrite (C81_too_many_rejected E b f n ds dd (F2 source) (F2 dest) l k c s rnd kn q Ts Td Hl Hk Hs Hd ltac:(fold d; lia) Hq Hr).
      rewrite (C81_too_many_rejected E b f n ds dd (F2 (moved a cs source)) (F2 (moved a cd dest)) l k c s rnd kn q Ts' Td' Hl Hk Hs Hd ltac:(fold d; lia) Hq Hr).
      reflexivity.
  Qed.
  (** Renyi: nor does the common unit, if no two embedded pasts of the destination coincide *)
  Theorem C94_renyi_te_units : forall n ds dd source dest cs cd l k c s rnd kn q a, is_gamma (gam E) ->
    table n ds source -> table n dd dest -> length cs = ds -> length cd = dd -> a <> 0 ->
    (1 <= l)%nat -> (1 <= k)%nat -> (1 <= s)%nat ->
    let d := (Nat.max k l * s)%nat in
    (d < n)%nat -> (1 <= kn < nrows n d s)%nat -> 0 < q < INR kn + 1 -> rnd_ok rnd (nrows n d s) ->
    all_distinct (nrows n d s) (past_pts dest s k (base_times n d s)) ->
    exists v, fam_te Renyi E (ex_args kn q b) 0 (F2 source) (F2 dest) (te_kw l k c s) rnd = Ok v /\
      fam_te Renyi E (ex_args kn q b) 0 (F2 (moved a cs source)) (F2 (moved a cd dest)) (te_kw l k c s) rnd = Ok v.
  Proof using V.
    intros n ds dd source dest cs cd l k c s rnd kn q a HG Ts Td Lcs Lcd Ha Hl Hk Hs d Hd Hkn Hq Hr AD.
    pose proof (moved_table n ds a cs source Ts Lcs) as Ts'. pose proof (moved_table n dd a cd dest Td Lcd) as Td'.
    rewrite (C81_te_is_conditional_mi E b V Renyi n ds dd (F2 source) (F2 dest) l k c s rnd kn q Ts Td Hl Hk Hs Hd Hkn ltac:(lra) Hr).
    rewrite (C81_te_is_conditional_mi E b V Renyi n ds dd (F2 (moved a cs source)) (F2 (moved a cd dest)) l k c s rnd kn q Ts' Td' Hl Hk Hs Hd Hkn ltac:(lra) Hr).
    cbn [rows2d]. fold d. set (ts := base_times n d s) in *.
    assert (HT : forall t, In t ts -> (d <= t < n)%nat).
    { intros t Ht. unfold ts in Ht. rewrite base_times_In in Ht by exact Hs. tauto. }
    assert (LT : length ts = nrows n d s) by apply base_times_length.
    rewrite (past_moved n ds a cs source), (past_moved n dd a cd dest), present_moved, rnd_moved; try assumption.
    2, 3: intros t Ht; specialize (HT t Ht); unfold d in *; nia.
    assert (TZ : table (nrows n d s) (k * dd) (past_pts dest s k ts)).
    { rewrite <- LT. apply (past_table n); auto. intros t Ht. specialize (HT t Ht). unfold d in *. nia. }
    set (X := rnd_rows rnd (past_pts source s l ts)). set (Y := present_pts dest ts). set (Z := past_pts dest s k ts) in *.
    destruct (C80_cmi_scaling E b V HG (nrows n d s) [F2 X; F2 Y] [F2 (moved a (rep l cs) X); F2 (moved a cd Y)] (F2 Z) (F2 (moved a (rep k cd) Z)) (k * dd) kn q (fun t => t) (Rabs a))
      as (v & R1 & R2); try assumption.
    - cbn; lia.
    - apply Rabs_pos_lt. exact Ha.
    - rewrite map_id. apply Permutation_refl.
    - cbn [map rows2d]. apply Forall2_cons; [|apply Forall2_cons; [|apply Forall2_nil]].
      + apply (scaled_moved _ (l * ds)); [|rewrite rep_length; congruence].
        apply rnd_table; [exact Hr|]. rewrite <- LT. apply (past_table n); auto. intros t Ht. specialize (HT t Ht). unfold d in *. nia.
      + apply (scaled_moved _ dd); [|congruence]. rewrite <- LT. apply (present_table n); auto. intros t Ht. specialize (HT t Ht). lia.
    - cbn [rows2d]. apply (scaled_moved _ (k * dd)); [exact TZ|rewrite rep_length; congruence].
    - exists v. split; [exact R1|]. rewrite R2. f_equal. cbn [length INR]. unfold Rdiv. ring.
  Qed.
End Family.

(** the hypotheses are met, e.g. by three-dimensional positions in metres and in millimetres from another origin *)
Example C94_example : table 4 1 (rows2d (F1 [0; 1; 0; 2])) /\ table 2 3 [[1; 2; 3]; [4; 5; 6]] /\
  moved 1000 [1; 1; 1] [[1; 2; 3]; [4; 5; 6]] = [[1 + 1000 * 1; 1 + 1000 * 2; 1 + 1000 * 3]; [1 + 1000 * 4; 1 + 1000 * 5; 1 + 1000 * 6]] /\
  (1 <= 2 < nrows 4 1 1)%nat /\ all_distinct 2 [[0]; [1]].
Proof.
  repeat split; try (cbn; lia); try (repeat constructor).
  intros t u Ht Hu N. assert (D : dst (Some 2) [0] [1] = 1 /\ dst (Some 2) [1] [0] = 1).
  { rewrite !dst1 by exact two_ok. split; [replace (0 - 1) with (- (1)) by ring; rewrite Rabs_Ropp; apply Rabs_R1|replace (1 - 0) with 1 by ring; apply Rabs_R1]. }
  destruct D as [D1 D2]. destruct t as [|[|t]], u as [|[|u]]; try lia; cbn [nth]; rewrite ?D1, ?D2; lra.
Qed.
