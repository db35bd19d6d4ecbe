(** C94: conditional mutual information and transfer entropy of numeric data depend on distances between samples only:
    neither the origin, nor a common unit, nor (for conditional mutual information) the order of the samples matters. *)
From Coq Require Import Reals Lra Lia List ZArith Arith Bool Permutation.
From Verif Require Import Res RSum Spec SpecTE SpecTEc SpecBase SpecGamma MBase PBase MTE PTE2 MPct MNorm MEst PEst MCont
  SpecKern MKern PKern PKern2 PKern3 PKern4 PropsKern PropsKern2 PropsKern3 PTEc MKnn SpecKnn PKnn PKnn2 PropsKnn PropsKnn2 PropsKnn3 SpecUnits PUnits.
Import ListNotations.
Local Open Scope R_scope.

(** the other samples under a reordering *)
Lemma others_perm n (sg : nat -> nat) : Permutation (map sg (seq 0 n)) (seq 0 n) ->
  (forall t, (t < n)%nat -> (sg t < n)%nat) /\
  (forall t, (t < n)%nat -> Permutation (map sg (others n t)) (others n (sg t))).
Proof.
  intros P.
  assert (SB : forall t, (t < n)%nat -> (sg t < n)%nat).
  { intros t Ht. assert (X : In (sg t) (seq 0 n)) by (apply (Permutation_in _ P), in_map, in_seq; lia). apply in_seq in X. lia. }
  split; [exact SB|].
  assert (INJ : forall t u, (t < n)%nat -> (u < n)%nat -> sg t = sg u -> t = u).
  { intros t u Ht Hu E0. assert (ND : NoDup (map sg (seq 0 n))) by (apply (Permutation_NoDup (Permutation_sym P)), seq_NoDup).
    assert (Lm : forall i, (i < n)%nat -> nth i (map sg (seq 0 n)) (sg 0%nat) = sg i) by (intros i Hi; rewrite map_nth, seq_nth by exact Hi; reflexivity).
    apply (proj1 (NoDup_nth (map sg (seq 0 n)) (sg 0%nat)) ND t u); rewrite ?map_length, ?seq_length; try assumption.
    rewrite !Lm by assumption. exact E0. }
  intros t Ht. apply NoDup_Permutation.
  - unfold others. assert (ND : NoDup (map sg (seq 0 n))) by (apply (Permutation_NoDup (Permutation_sym P)), seq_NoDup).
    revert ND. generalize (seq 0 n). induction l as [|x l IH]; cbn; intros ND; [constructor|]. inversion ND; subst.
    destruct (negb _); cbn; [|auto]. constructor; [|auto]. intros C. apply in_map_iff in C as (y & Ey & Iy). apply filter_In in Iy as [Iy _].
    match goal with H : ~ In _ _ |- _ => apply H end. rewrite <- Ey. apply in_map. exact Iy.
  - unfold others. apply NoDup_filter, seq_NoDup.
  - intros u. rewrite others_in. split.
    + intros Hu. apply in_map_iff in Hu as (v & <- & Hvv). apply others_in in Hvv as [V1 V2]. split; [apply SB; exact V1|].
      intros C. apply V2. apply INJ; assumption.
    + intros [Hu Nu]. assert (X : In u (map sg (seq 0 n))) by (apply (Permutation_in _ (Permutation_sym P)), in_seq; lia).
      apply in_map_iff in X as (v & <- & Hvv). apply in_seq in Hvv. apply in_map. apply others_in. split; [lia|]. intros ->. apply Nu. reflexivity.
Qed.

(** distances of [x'] are [a] times those of [x], sample [t] of [x] being sample [sg t] of [x'] *)
Definition dst_scaled (p : option R) (n : nat) (sg : nat -> nat) (a : R) (x x' : farr) : Prop :=
  forall t u, (t < n)%nat -> (u < n)%nat ->
    dst p (nth (sg t) (rows2d x') []) (nth (sg u) (rows2d x') []) = a * dst p (nth t (rows2d x) []) (nth u (rows2d x) []).

Section KSG.
  Context (E : nenv) (w : variant) (m : mink) (b : base).
  Context (Hp : norm_ok (np_of m)) (V : valid_base b).
  Notation p := (np_of m).

  Lemma jdist_scaled n sg a (xs xs' : list farr) t u : 0 < a -> (forall t, (t < n)%nat -> (sg t < n)%nat) ->
    tables n (map rows2d xs) -> tables n (map rows2d xs') -> Forall2 (dst_scaled p n sg a) xs xs' -> (t < n)%nat -> (u < n)%nat ->
    jdist p (map rows2d xs') (sg t) (sg u) = a * jdist p (map rows2d xs) t u.
  Proof.
    intros Ha SB T T' F Ht Hu. rewrite !(jdist_norm p n) by (try assumption; apply SB; assumption).
    rewrite <- norm_scale by (try assumption; lra). f_equal. rewrite !map_map. clear - F Ht Hu.
    induction F as [|x x' l l' H F IH]; cbn; [reflexivity|]. rewrite IH. f_equal. apply H; assumption.
  Qed.

  (** ** KSG conditional mutual information: only the distances between the samples of each variable matter *)
  Theorem C94_ksg_cmi_distances_only : forall n vars vars' cond cond' k (sg : nat -> nat) a,
    (2 <= length vars)%nat -> tables n (map rows2d vars) -> tables n (map rows2d vars') ->
    tables n [rows2d cond] -> tables n [rows2d cond'] -> (1 <= k < n)%nat ->
    0 < a -> Permutation (map sg (seq 0 n)) (seq 0 n) ->
    Forall2 (dst_scaled p n sg a) vars vars' -> dst_scaled p n sg a cond cond' ->
    ksg_cmi E (ksg_args w m b k) (Some 0%Z) false vars' cond' = ksg_cmi E (ksg_args w m b k) (Some 0%Z) false vars cond.
  Proof using Hp V.
    intros n vars vars' cond cond' k sg a Hv T T' Tz Tz' Hk Ha P F Fz.
    destruct (others_perm n sg P) as [SB PO].
    assert (LL : length vars' = length vars) by (symmetry; clear - F; induction F; cbn; congruence).
    assert (FA : Forall2 (dst_scaled p n sg a) (vars ++ [cond]) (vars' ++ [cond'])) by (apply Forall2_app; [exact F|]; constructor; [exact Fz|constructor]).
    assert (TA : tables n (map rows2d (vars ++ [cond]))) by (rewrite map_app; apply Forall_app; split; [exact T|exact Tz]).
    assert (TA' : tables n (map rows2d (vars' ++ [cond']))) by (rewrite map_app; apply Forall_app; split; [exact T'|exact Tz']).
    destruct (radii_exist p n (map rows2d vars ++ [rows2d cond]) k Hk) as (es & He).
    destruct (radii_exist p n (map rows2d vars' ++ [rows2d cond']) k Hk) as (es' & He').
    rewrite (C72_value E w m b Hp V n vars cond k es), (C72_value E w m b Hp V n vars' cond' k es') by (try assumption; lia). do 2 f_equal.
    rewrite !mean_map, !seq_length. f_equal.
    rewrite <- (sumf_perm _ _ _ P), sumf_map. apply sumf_ext. intros t Ht. apply in_seq in Ht.
    assert (Et : es' (sg t) = a * es t).
    { eapply kth_unique; [apply He', SB; lia|].
      apply (kth_ext p p n (map rows2d vars ++ [rows2d cond]) (map rows2d vars' ++ [rows2d cond']) k t (sg t) sg a); [exact Ha|apply PO; lia| |apply He; lia].
      intros u Hu. apply others_in in Hu as [Hu _].
      pose proof (jdist_scaled n sg a _ _ t u Ha SB TA TA' FA ltac:(lia) Hu) as J. rewrite !map_app in J. exact J. }
    assert (NB : forall xs xs', tables n (map rows2d xs) -> tables n (map rows2d xs') -> Forall2 (dst_scaled p n sg a) xs xs' ->
              nbs w p n (map rows2d xs') (sg t) (es' (sg t)) = nbs w p n (map rows2d xs) t (es t)).
    { intros xs xs' T1 T2 F1. rewrite Et. apply (nbs_ext w p p n (map rows2d xs) (map rows2d xs') t (sg t) sg a); [exact Ha|apply PO; lia|].
      intros u Hu. apply others_in in Hu as [Hu _]. apply (jdist_scaled n); auto; lia. }
    unfold ksg_cond_value. f_equal.
    - f_equal. f_equal. f_equal. apply (NB [cond] [cond']); try assumption. constructor; [exact Fz|constructor].
    - clear Hv LL FA TA TA' He He'. revert T T'. induction F as [|x x' l l' H F IH]; intros T T'; [reflexivity|].
      cbn [map] in T, T'. inversion T as [|? ? Tx Tl]; subst. inversion T' as [|? ? Tx' Tl']; subst.
      unfold sumR in *. cbn [map sumf]. rewrite IH by assumption. f_equal. f_equal. f_equal.
      apply (NB [x; cond] [x'; cond']).
      + apply Forall_cons; [exact Tx|exact Tz].
      + apply Forall_cons; [exact Tx'|exact Tz'].
      + constructor; [exact H|]. constructor; [exact Fz|constructor].
  Qed.
  (** the variables and the condition measured from other origins and in another common unit *)
  Theorem C94_ksg_cmi_units : forall n vars ds cs cond dz cz k a, (2 <= length vars)%nat -> a <> 0 -> (1 <= k < n)%nat ->
    Forall2 (fun d v => table n d v) ds vars -> Forall2 (fun d c => length c = d) ds cs -> table n dz cond -> length cz = dz ->
    ksg_cmi E (ksg_args w m b k) (Some 0%Z) false (map F2 (map (fun vc => moved a (snd vc) (fst vc)) (combine vars cs))) (F2 (moved a cz cond))
      = ksg_cmi E (ksg_args w m b k) (Some 0%Z) false (map F2 vars) (F2 cond).
  Proof using Hp V.
    intros n vars ds cs cond dz cz k a Hv Ha Hk T Lc Tz Lz.
    assert (RW : forall l : list (list pt), map rows2d (map F2 l) = l) by (intros l; rewrite map_map; apply map_id).
    apply (C94_ksg_cmi_distances_only n _ _ _ _ k (fun t => t) (Rabs a)).
    - rewrite map_length. exact Hv.
    - rewrite RW. clear - T. unfold tables. induction T; constructor; [eexists; eassumption|assumption].
    - rewrite RW. clear - T Lc. unfold tables. revert cs Lc. induction T as [|d v ds vars Td T IH]; intros [|c cs] Lc; inversion Lc; subst; cbn; constructor.
      + eexists. apply moved_table; [exact Td|reflexivity].
      + apply IH. assumption.
    - constructor; [exists dz; exact Tz|constructor].
    - constructor; [|constructor]. exists dz. apply moved_table; assumption.
    - exact Hk.
    - apply Rabs_pos_lt. exact Ha.
    - rewrite map_id. apply Permutation_refl.
    - clear - T Lc Hp. revert cs Lc. induction T as [|d v ds vars Td T IH]; intros [|c cs] Lc; inversion Lc; subst; cbn [combine map fst snd]; constructor.
      + intros t u Ht Hu. cbn [rows2d]. apply (dst_moved p n (length c)); auto.
      + apply IH. assumption.
    - intros t u Ht Hu. cbn [rows2d]. apply (dst_moved p n dz); auto.
  Qed.
  (** the samples of the variables and the condition in another order *)
  Theorem C94_ksg_cmi_reorder : forall n vars cond k sigma, (2 <= length vars)%nat -> (1 <= k < n)%nat ->
    tables n vars -> tables n [cond] -> Permutation sigma (seq 0 n) ->
    ksg_cmi E (ksg_args w m b k) (Some 0%Z) false (map F2 (map (reorder sigma) vars)) (F2 (reorder sigma cond))
      = ksg_cmi E (ksg_args w m b k) (Some 0%Z) false (map F2 vars) (F2 cond).
  Proof using Hp V.
    intros n vars cond k sigma Hv Hk T Tz P.
    assert (RW : forall l : list (list pt), map rows2d (map F2 l) = l) by (intros l; rewrite map_map; apply map_id).
    assert (Ls : length sigma = n) by (rewrite (Permutation_length P), seq_length; reflexivity).
    assert (TR : forall v, tables n [v] -> tables n [reorder sigma v]).
    { intros v H. inversion H as [|? ? (d & D) _]; subst. constructor; [|constructor]. exists d. apply table_reorder; assumption. }
    symmetry.
    apply (C94_ksg_cmi_distances_only n _ _ _ _ k (fun t => nth t sigma 0%nat) 1); try lra; try assumption.
    - rewrite !map_length. exact Hv.
    - rewrite RW. unfold tables in *. clear - T TR. induction T as [|v l H T IH]; cbn [map]; constructor; [|exact IH].
      assert (X : Forall (fun v : list pt => exists d, table n d v) [reorder sigma v]) by (apply TR; constructor; [exact H|constructor]). inversion X; assumption.
    - rewrite RW. exact T.
    - apply TR. exact Tz.
    - replace (map (fun t => nth t sigma 0%nat) (seq 0 n)) with sigma; [exact P|].
      apply nth_ext with 0%nat 0%nat; [rewrite map_length, seq_length; exact Ls|].
      intros i Hi. rewrite (nth_indep (map _ _) 0%nat ((fun t => nth t sigma 0%nat) 0%nat)) by (rewrite map_length, seq_length; lia).
      rewrite (map_nth (fun t => nth t sigma 0%nat)), seq_nth by lia. reflexivity.
    - clear - Ls T. induction vars as [|v l IH]; cbn [map]; constructor; [|apply IH; inversion T; assumption].
      intros t u Ht Hu. cbn [rows2d]. unfold reorder. rewrite !(nth_map_lt _ sigma 0%nat) by lia. ring.
    - intros t u Ht Hu. cbn [rows2d]. unfold reorder. rewrite !(nth_map_lt _ sigma 0%nat) by lia. ring.
  Qed.
End KSG.

Lemma moveds_intro a n d c v : table n d v -> length c = d -> moveds a n v (moved a c v).
Proof. intros T L. exists d, c. auto. Qed.
Lemma joined_moved a n X Z cx cz dx dz : table n dx X -> table n dz Z -> length cx = dx -> length cz = dz ->
  joined n [moved a cx X; moved a cz Z] = moved a (cx ++ cz) (joined n [X; Z]).
Proof.
  intros [Lx Tx] [Lz Tz] Hx Hz. unfold joined, moved at 3. rewrite map_map. apply map_ext_in. intros t Ht. apply in_seq in Ht.
  unfold sample. cbn [map concat]. rewrite !app_nil_r, !moved_nth. symmetry. apply move_app.
  rewrite Forall_forall in Tx. rewrite Tx by (apply nth_In; lia). lia.
Qed.
Lemma joined_table n X Z dx dz : table n dx X -> table n dz Z -> table n (dx + dz) (joined n [X; Z]).
Proof.
  intros [Lx Tx] [Lz Tz]. split; [unfold joined; rewrite map_length, seq_length; reflexivity|].
  apply Forall_forall. intros r Hr. unfold joined in Hr. apply in_map_iff in Hr as (t & <- & Ht). apply in_seq in Ht.
  unfold sample. cbn [map concat]. rewrite app_nil_r, app_length. rewrite Forall_forall in Tx, Tz.
  rewrite Tx, Tz by (apply nth_In; lia). reflexivity.
Qed.

Section KSGTE.
  Context (E : nenv) (w : variant) (m : mink) (b : base).
  Context (Hp : norm_ok (np_of m)) (V : valid_base b).

  (** ** KSG transfer entropy: origins and the common unit of the two series do not matter *)
  Theorem C94_ksg_te_units : forall n ds dd source dest cs cd l k c s rnd kn a,
    table n ds source -> table n dd dest -> length cs = ds -> length cd = dd -> a <> 0 ->
    (1 <= l)%nat -> (1 <= k)%nat -> (1 <= s)%nat ->
    let d := (Nat.max k l * s)%nat in
    (d < n)%nat -> (1 <= kn)%nat -> (1 <= nrows n d s)%nat -> rnd_ok rnd (nrows n d s) ->
    ksg_te E (ksg_args w m b kn) (F2 (moved a cs source)) (F2 (moved a cd dest)) (te_kw l k c s) rnd
      = ksg_te E (ksg_args w m b kn) (F2 source) (F2 dest) (te_kw l k c s) rnd.
  Proof using Hp V.
    intros n ds dd source dest cs cd l k c s rnd kn a Ts Td Lcs Lcd Ha Hl Hk Hs d Hd Hkn Hm Hr.
    pose proof (moved_table n ds a cs source Ts Lcs) as Ts'. pose proof (moved_table n dd a cd dest Td Lcd) as Td'.
    destruct (Nat.lt_ge_cases kn (nrows n d s)) as [K|K].
    - rewrite (proj1 (C73_te_is_conditional_mi E w m b Hp V n ds dd (F2 source) (F2 dest) l k c s rnd kn Ts Td Hl Hk Hs Hd ltac:(fold d; lia) Hr)).
      rewrite (proj1 (C73_te_is_conditional_mi E w m b Hp V n ds dd (F2 (moved a cs source)) (F2 (moved a cd dest)) l k c s rnd kn Ts' Td' Hl Hk Hs Hd ltac:(fold d; lia) Hr)).
      cbn [rows2d]. fold d. set (ts := base_times n d s).
      assert (HT : forall t, In t ts -> (d <= t < n)%nat).
      { intros t Ht. unfold ts in Ht. rewrite base_times_In in Ht by exact Hs. tauto. }
      assert (LT : length ts = nrows n d s) by apply base_times_length.
      rewrite (past_moved n ds a cs source), (past_moved n dd a cd dest), present_moved, rnd_moved; try assumption.
      2, 3: intros t Ht; specialize (HT t Ht); unfold d in *; nia.
      assert (TX : table (nrows n d s) (l * ds) (rnd_rows rnd (past_pts source s l ts))).
      { apply rnd_table; [exact Hr|]. rewrite <- LT. apply (past_table n); auto. intros t Ht. specialize (HT t Ht). unfold d in *. nia. }
      assert (TZ : table (nrows n d s) (k * dd) (past_pts dest s k ts)).
      { rewrite <- LT. apply (past_table n); auto. intros t Ht. specialize (HT t Ht). unfold d in *. nia. }
      assert (TY : table (nrows n d s) dd (present_pts dest ts)).
      { rewrite <- LT. apply (present_table n); auto. intros t Ht. specialize (HT t Ht). lia. }
      apply (C94_ksg_cmi_units E w m b Hp V (nrows n d s) [rnd_rows rnd (past_pts source s l ts); present_pts dest ts] [(l * ds)%nat; dd] [rep l cs; cd]
               (past_pts dest s k ts) (k * dd)%nat (rep k cd) kn a).
      + cbn; lia.
      + exact Ha.
      + lia.
      + repeat (apply Forall2_cons; [assumption|]). apply Forall2_nil.
      + repeat (apply Forall2_cons; [rewrite ?rep_length; congruence|]). apply Forall2_nil.
      + exact TZ.
      + rewrite rep_length. congruence.
    - rewrite (C73_too_many_neighbours_refuted E w m b n ds dd (F2 source) (F2 dest) l k c s rnd kn Hp V Ts Td Hl Hk Hs Hd ltac:(fold d; lia) Hr).
      rewrite (C73_too_many_neighbours_refuted E w m b n ds dd (F2 (moved a cs source)) (F2 (moved a cd dest)) l k c s rnd kn Hp V Ts' Td' Hl Hk Hs Hd ltac:(fold d; lia) Hr).
      reflexivity.
  Qed.
  Theorem C94_ksg_cte_units : forall n ds dd dc source dest cond cs cd cc l k c s kn a,
    table n ds source -> table n dd dest -> table n dc cond -> length cs = ds -> length cd = dd -> length cc = dc -> a <> 0 ->
    (1 <= l)%nat -> (1 <= k)%nat -> (1 <= c)%nat -> (1 <= s)%nat ->
    let d := (Nat.max (Nat.max k l) c * s)%nat in
    (d < n)%nat -> (1 <= kn < nrows n d s)%nat ->
    ksg_cte E (ksg_args w m b kn) (F2 (moved a cs source)) (F2 (moved a cd dest)) (F2 (moved a cc cond)) (te_kw l k c s)
      = ksg_cte E (ksg_args w m b kn) (F2 source) (F2 dest) (F2 cond) (te_kw l k c s).
  Proof using Hp V.
    intros n ds dd dc source dest cond cs cd cc l k c s kn a Ts Td Tc Lcs Lcd Lcc Ha Hl Hk Hc Hs d Hd Hkn.
    pose proof (moved_table n ds a cs source Ts Lcs) as Ts'. pose proof (moved_table n dd a cd dest Td Lcd) as Td'.
    pose proof (moved_table n dc a cc cond Tc Lcc) as Tc'.
    rewrite (C73_cte_is_conditional_mi E w m b Hp V n ds dd dc (F2 source) (F2 dest) (F2 cond) l k c s kn Ts Td Tc Hl Hk Hc Hs Hd Hkn).
    rewrite (C73_cte_is_conditional_mi E w m b Hp V n ds dd dc (F2 (moved a cs source)) (F2 (moved a cd dest)) (F2 (moved a cc cond)) l k c s kn Ts' Td' Tc' Hl Hk Hc Hs Hd Hkn).
    cbn [rows2d]. fold d. set (ts := base_times n d s).
    assert (HT : forall t, In t ts -> (d <= t < n)%nat).
    { intros t Ht. unfold ts in Ht. rewrite base_times_In in Ht by exact Hs. tauto. }
    assert (LT : length ts = nrows n d s) by apply base_times_length.
    rewrite (past_moved n ds a cs source), (past_moved n dd a cd dest), (past_moved n dc a cc cond), present_moved; try assumption.
    2, 3, 4: intros t Ht; specialize (HT t Ht); unfold d in *; nia.
    assert (TX : table (nrows n d s) (l * ds) (past_pts source s l ts)).
    { rewrite <- LT. apply (past_table n); auto. intros t Ht. specialize (HT t Ht). unfold d in *. nia. }
    assert (TZ : table (nrows n d s) (k * dd) (past_pts dest s k ts)).
    { rewrite <- LT. apply (past_table n); auto. intros t Ht. specialize (HT t Ht). unfold d in *. nia. }
    assert (TC : table (nrows n d s) (c * dc) (past_pts cond s c ts)).
    { rewrite <- LT. apply (past_table n); auto. intros t Ht. specialize (HT t Ht). unfold d in *. nia. }
    assert (TY : table (nrows n d s) dd (present_pts dest ts)).
    { rewrite <- LT. apply (present_table n); auto. intros t Ht. specialize (HT t Ht). lia. }
    rewrite (joined_moved a _ _ _ _ _ (k * dd) (c * dc)) by (try assumption; rewrite rep_length; congruence).
    apply (C94_ksg_cmi_units E w m b Hp V (nrows n d s) [past_pts source s l ts; present_pts dest ts] [(l * ds)%nat; dd] [rep l cs; cd]
             (joined (nrows n d s) [past_pts dest s k ts; past_pts cond s c ts]) (k * dd + c * dc)%nat (rep k cd ++ rep c cc) kn a).
    - cbn; lia.
    - exact Ha.
    - lia.
    - repeat (apply Forall2_cons; [assumption|]). apply Forall2_nil.
    - repeat (apply Forall2_cons; [rewrite ?rep_length; congruence|]). apply Forall2_nil.
    - apply joined_table; assumption.
    - rewrite app_length, !rep_length. congruence.
  Qed.
  (** one-dimensional series, with any propagation time *)
  Theorem C94_ksg_te_series : forall n (xs ys : list R) l k c s q kn a cx cy,
    length xs = n -> length ys = n -> a <> 0 -> (1 <= l)%nat -> (1 <= k)%nat -> (1 <= s)%nat -> (1 <= kn)%nat -> (1 <= q)%nat ->
    (Nat.max k l * s + q * s < n)%nat ->
    let par := mkTE (NInt (Z.of_nat l)) (NInt (Z.of_nat k)) c (NInt (Z.of_nat s)) (Some (NInt (Z.of_nat q))) None in
    ksg_te E (ksg_args w m b kn) (F1 (map (fun x => a * x + cx) xs)) (F1 (map (fun y => a * y + cy) ys)) par RNone
      = ksg_te E (ksg_args w m b kn) (F1 xs) (F1 ys) par RNone.
  Proof using Hp V.
    intros n xs ys l k c s q kn a cx cy Lx Ly Ha Hl Hk Hs Hkn Hq Hd par. unfold par.
    rewrite (C73_prop_time E _ xs ys l k c s q n Lx Ly Hs Hq).
    rewrite (C73_prop_time E _ (map (fun x => a * x + cx) xs) (map (fun y => a * y + cy) ys) l k c s q n) by (rewrite ?map_length; assumption).
    rewrite firstn_map, skipn_map.
    set (us := firstn (n - q * s) xs). set (vs := skipn (q * s) ys).
    assert (Lu : length us = (n - q * s)%nat) by (unfold us; rewrite firstn_length; lia).
    assert (Lv : length vs = (n - q * s)%nat) by (unfold vs; rewrite skipn_length; lia).
    assert (T1 : forall l : list R, length l = (n - q * s)%nat -> table (n - q * s) 1 (rows2d (F1 l))).
    { intros zs Lz. cbn [rows2d]. split; [rewrite map_length; exact Lz|]. apply Forall_forall. intros r Hr. apply in_map_iff in Hr as (z & <- & _). reflexivity. }
    pose proof (C94_ksg_te_units (n - q * s) 1 1 (rows2d (F1 us)) (rows2d (F1 vs)) [cx] [cy] l k 1 s RNone kn a
      (T1 us Lu) (T1 vs Lv) eq_refl eq_refl Ha Hl Hk Hs ltac:(lia) Hkn) as G. cbn zeta in G.
    rewrite <- !moved_F1 in G.
    assert (R1 : (1 <= nrows (n - q * s) (Nat.max k l * s) s)%nat).
    { unfold nrows. apply Nat.div_le_lower_bound; lia. }
    specialize (G R1 Logic.I).
    unfold ksg_te, ksg_te_local, te_kw in *. cbn [a_prop a_offset a_step a_src a_dest] in *. cbn [rows2d] in *. exact G.
  Qed.
End KSGTE.

(** ** kernel (box): the bandwidth is given in the same unit as the data *)
Section Kernel.
  Context (E : kenv) (h : R) (w : Z) (b : base).
  Context (Hh : 0 < h) (HC : (0 < cpus E)%Z) (HW : workers_ok w) (HV : valid_base b).

  Lemma pts_moveds a n c xs : length xs = n -> moveds a n (pts xs) (pts (map (fun x => a * x + c) xs)).
  Proof using.
    intros L. exists 1%nat, [c]. split; [apply pts_table; exact L|]. split; [reflexivity|]. apply (moved_F1 a c xs).
  Qed.
  (** conditional mutual information: with a bandwidth in the new unit the result is the same for two variables; for
      m variables it grows by (m-2) log of the factor *)
  Theorem C94_kernel_cmi_units : forall n (cols : list (list R)) zs (cs : list R) cz a, (2 <= n)%nat -> (2 <= length cols)%nat -> a <> 0 ->
    all_len n cols -> length zs = n -> length cs = length cols ->
    exists v, kernel_cmi E (box_args h w b) (Some 0%Z) false (map F1 cols) (F1 zs) = Ok v /\
      kernel_cmi E (box_args (Rabs a * h) w b) (Some 0%Z) false
        (map F1 (map (fun xc => map (fun x => a * x + snd xc) (fst xc)) (combine cols cs))) (F1 (map (fun z => a * z + cz) zs))
        = Ok (v + (INR (length cols) - 2) * ln (Rabs a) / unit_of b).
  Proof using Hh HC HW HV.
    intros n cols zs cs cz a Hn Hc Ha L Lz Lcs. pose proof (Rabs_pos_lt a Ha) as Pa.
    assert (Hh' : 0 < Rabs a * h) by (apply Rmult_lt_0_compat; assumption).
    set (cols' := map (fun xc => map (fun x => a * x + snd xc) (fst xc)) (combine cols cs)).
    assert (Lc' : length cols' = length cols) by (unfold cols'; rewrite map_length, combine_length; lia).
    assert (L' : all_len n cols').
    { unfold all_len, cols' in *. apply Forall_forall. intros v Hv. apply in_map_iff in Hv as ([x c0] & <- & Hx). apply in_combine_l in Hx.
      cbn [fst snd]. rewrite map_length. rewrite Forall_forall in L. apply L. exact Hx. }
    eexists. split; [apply (kernel_cmi_ok E h w b n cols zs Hh HC HW HV ltac:(lia) Hc L Lz)|].
    rewrite (kernel_cmi_ok E (Rabs a * h) w b n cols' (map (fun z => a * z + cz) zs) Hh' HC HW HV ltac:(lia) ltac:(lia) L' ltac:(rewrite map_length; exact Lz)).
    f_equal. unfold KCMI1. rewrite Lc'.
    assert (MZ : moveds a n (pts zs) (pts (map (fun z => a * z + cz) zs))) by (apply pts_moveds; exact Lz).
    assert (FM : Forall2 (fun x x' => moveds a n (pts x) (pts x')) cols cols').
    { unfold cols'. clear - L Lcs. revert cs Lcs. induction L as [|x cols Hx L IH]; intros [|c cs] Lcs; cbn in *; try discriminate; constructor.
      - apply pts_moveds. exact Hx.
      - apply IH. lia. }
    rewrite (KH_moved h n (S (length cols)) a (map pts (cols ++ [zs])) (map pts (cols' ++ [map (fun z => a * z + cz) zs]))); try assumption; try lia.
    2: { rewrite !map_app. apply Forall2_app; [clear - FM; induction FM; cbn; constructor; assumption|]. cbn [map]. constructor; [exact MZ|constructor]. }
    rewrite (KH_moved h n 1 a [pts zs] [pts (map (fun z => a * z + cz) zs)]); try assumption; try lia.
    2: { constructor; [exact MZ|constructor]. }
    assert (SS : sumR (map (fun c => KH (Rabs a * h) n 2 [pts c; pts (map (fun z => a * z + cz) zs)]) cols')
               = sumR (map (fun c => KH h n 2 [pts c; pts zs]) cols) + INR (length cols) * (2 * ln (Rabs a))).
    { clear - FM MZ Ha Hh Hn. induction FM as [|x x' l l' H F IH]; unfold sumR in *; cbn [map sumf length]; [cbn; ring|].
      rewrite IH, S_INR. rewrite (KH_moved h n 2 a [pts x; pts zs]); try assumption; try lia; [cbn [INR]; ring|].
      constructor; [exact H|]. constructor; [exact MZ|constructor]. }
    rewrite SS, S_INR. cbn [INR]. unfold Rdiv. ring.
  Qed.
  Theorem C94_kernel_te_units : forall n ds dd source dest cs cd l k c s rnd a,
    table n ds source -> table n dd dest -> length cs = ds -> length cd = dd -> a <> 0 ->
    (1 <= l)%nat -> (1 <= k)%nat -> (1 <= s)%nat ->
    let d := (Nat.max k l * s)%nat in
    (d < n)%nat -> (2 <= nrows n d s)%nat -> rnd_ok rnd (nrows n d s) ->
    exists v, kernel_te E (box_args h w b) (F2 source) (F2 dest) (kte_kw l k c s) rnd = Ok v /\
      kernel_te E (box_args (Rabs a * h) w b) (F2 (moved a cs source)) (F2 (moved a cd dest)) (kte_kw l k c s) rnd = Ok v.
  Proof using Hh HC HW HV.
    intros n ds dd source dest cs cd l k c s rnd a Ts Td Lcs Lcd Ha Hl Hk Hs d Hd Hm Hr. pose proof (Rabs_pos_lt a Ha) as Pa.
    assert (Hh' : 0 < Rabs a * h) by (apply Rmult_lt_0_compat; assumption).
    pose proof (moved_table n ds a cs source Ts Lcs) as Ts'. pose proof (moved_table n dd a cd dest Td Lcd) as Td'.
    destruct (C62_te_is_conditional_mi E h w b n ds dd (F2 source) (F2 dest) l k c s rnd Hh HC HW HV Ts Td Hl Hk Hs Hd Hm Hr) as (v & R1 & E1 & _).
    destruct (C62_te_is_conditional_mi E (Rabs a * h) w b n ds dd (F2 (moved a cs source)) (F2 (moved a cd dest)) l k c s rnd Hh' HC HW HV Ts' Td' Hl Hk Hs Hd Hm Hr) as (v' & R2 & E2 & _).
    exists v. split; [exact R1|]. rewrite R2. f_equal. rewrite E1, E2. clear R1 R2 E1 E2 v v'.
    cbn [rows2d]. fold d. set (ts := base_times n d s).
    assert (HT : forall t, In t ts -> (d <= t < n)%nat).
    { intros t Ht. unfold ts in Ht. rewrite base_times_In in Ht by exact Hs. tauto. }
    assert (LT : length ts = nrows n d s) by apply base_times_length.
    rewrite (past_moved n ds a cs source), (past_moved n dd a cd dest), present_moved, rnd_moved; try assumption.
    2, 3: intros t Ht; specialize (HT t Ht); unfold d in *; nia.
    set (m := nrows n d s) in *.
    assert (MX : moveds a m (rnd_rows rnd (past_pts source s l ts)) (moved a (rep l cs) (rnd_rows rnd (past_pts source s l ts)))).
    { apply (moveds_intro a m (l * ds)); [|rewrite rep_length; congruence].
      apply rnd_table; [exact Hr|]. rewrite <- LT. apply (past_table n); auto. intros t Ht. specialize (HT t Ht). unfold d in *. nia. }
    assert (MZ : moveds a m (past_pts dest s k ts) (moved a (rep k cd) (past_pts dest s k ts))).
    { apply (moveds_intro a m (k * dd)); [|rewrite rep_length; congruence].
      rewrite <- LT. apply (past_table n); auto. intros t Ht. specialize (HT t Ht). unfold d in *. nia. }
    assert (MY : moveds a m (present_pts dest ts) (moved a cd (present_pts dest ts))).
    { apply (moveds_intro a m dd); [|congruence].
      rewrite <- LT. apply (present_table n); auto. intros t Ht. specialize (HT t Ht). lia. }
    set (X := rnd_rows rnd (past_pts source s l ts)) in *. set (Z := past_pts dest s k ts) in *. set (Y := present_pts dest ts) in *.
    rewrite !(KH_moved h m) with (vars := [X; Z]) by (try assumption; try lia; repeat (apply Forall2_cons; [assumption|]); apply Forall2_nil).
    rewrite !(KH_moved h m) with (vars := [Z; Y]) by (try assumption; try lia; repeat (apply Forall2_cons; [assumption|]); apply Forall2_nil).
    rewrite !(KH_moved h m) with (vars := [X; Z; Y]) by (try assumption; try lia; repeat (apply Forall2_cons; [assumption|]); apply Forall2_nil).
    rewrite !(KH_moved h m) with (vars := [Z]) by (try assumption; try lia; repeat (apply Forall2_cons; [assumption|]); apply Forall2_nil).
    rewrite !plus_INR. unfold Rdiv. ring.
  Qed.
  Theorem C94_kernel_cte_units : forall n ds dd dc source dest cond cs cd cc l k c s a,
    table n ds source -> table n dd dest -> table n dc cond -> length cs = ds -> length cd = dd -> length cc = dc -> a <> 0 ->
    (1 <= l)%nat -> (1 <= k)%nat -> (1 <= c)%nat -> (1 <= s)%nat ->
    let d := (Nat.max (Nat.max k l) c * s)%nat in
    (d < n)%nat -> (2 <= nrows n d s)%nat ->
    exists v, kernel_cte E (box_args h w b) (F2 source) (F2 dest) (F2 cond) (kte_kw l k c s) = Ok v /\
      kernel_cte E (box_args (Rabs a * h) w b) (F2 (moved a cs source)) (F2 (moved a cd dest)) (F2 (moved a cc cond)) (kte_kw l k c s) = Ok v.
  Proof using Hh HC HW HV.
    intros n ds dd dc source dest cond cs cd cc l k c s a Ts Td Tc Lcs Lcd Lcc Ha Hl Hk Hc Hs d Hd Hm. pose proof (Rabs_pos_lt a Ha) as Pa.
    assert (Hh' : 0 < Rabs a * h) by (apply Rmult_lt_0_compat; assumption).
    pose proof (moved_table n ds a cs source Ts Lcs) as Ts'. pose proof (moved_table n dd a cd dest Td Lcd) as Td'. pose proof (moved_table n dc a cc cond Tc Lcc) as Tc'.
    destruct (C62_cte_is_conditional_mi E h w b n ds dd dc (F2 source) (F2 dest) (F2 cond) l k c s Hh HC HW HV Ts Td Tc Hl Hk Hc Hs Hd Hm) as (v & R1 & E1 & _).
    destruct (C62_cte_is_conditional_mi E (Rabs a * h) w b n ds dd dc (F2 (moved a cs source)) (F2 (moved a cd dest)) (F2 (moved a cc cond)) l k c s Hh' HC HW HV Ts' Td' Tc' Hl Hk Hc Hs Hd Hm) as (v' & R2 & E2 & _).
    exists v. split; [exact R1|]. rewrite R2. f_equal. rewrite E1, E2. clear R1 R2 E1 E2 v v'.
    cbn [rows2d]. fold d. set (ts := base_times n d s).
    assert (HT : forall t, In t ts -> (d <= t < n)%nat).
    { intros t Ht. unfold ts in Ht. rewrite base_times_In in Ht by exact Hs. tauto. }
    assert (LT : length ts = nrows n d s) by apply base_times_length.
    rewrite (past_moved n ds a cs source), (past_moved n dd a cd dest), (past_moved n dc a cc cond), present_moved; try assumption.
    2, 3, 4: intros t Ht; specialize (HT t Ht); unfold d in *; nia.
    set (m := nrows n d s) in *.
    assert (MX : moveds a m (past_pts source s l ts) (moved a (rep l cs) (past_pts source s l ts))).
    { apply (moveds_intro a m (l * ds)); [|rewrite rep_length; congruence].
      rewrite <- LT. apply (past_table n); auto. intros t Ht. specialize (HT t Ht). unfold d in *. nia. }
    assert (MZ : moveds a m (past_pts dest s k ts) (moved a (rep k cd) (past_pts dest s k ts))).
    { apply (moveds_intro a m (k * dd)); [|rewrite rep_length; congruence].
      rewrite <- LT. apply (past_table n); auto. intros t Ht. specialize (HT t Ht). unfold d in *. nia. }
    assert (MC : moveds a m (past_pts cond s c ts) (moved a (rep c cc) (past_pts cond s c ts))).
    { apply (moveds_intro a m (c * dc)); [|rewrite rep_length; congruence].
      rewrite <- LT. apply (past_table n); auto. intros t Ht. specialize (HT t Ht). unfold d in *. nia. }
    assert (MY : moveds a m (present_pts dest ts) (moved a cd (present_pts dest ts))).
    { apply (moveds_intro a m dd); [|congruence].
      rewrite <- LT. apply (present_table n); auto. intros t Ht. specialize (HT t Ht). lia. }
    set (X := past_pts source s l ts) in *. set (Z := past_pts dest s k ts) in *. set (Y := present_pts dest ts) in *. set (C := past_pts cond s c ts) in *.
    rewrite !(KH_moved h m) with (vars := [X; Z; C]) by (try assumption; try lia; repeat (apply Forall2_cons; [assumption|]); apply Forall2_nil).
    rewrite !(KH_moved h m) with (vars := [Z; Y; C]) by (try assumption; try lia; repeat (apply Forall2_cons; [assumption|]); apply Forall2_nil).
    rewrite !(KH_moved h m) with (vars := [X; Z; Y; C]) by (try assumption; try lia; repeat (apply Forall2_cons; [assumption|]); apply Forall2_nil).
    rewrite !(KH_moved h m) with (vars := [Z; C]) by (try assumption; try lia; repeat (apply Forall2_cons; [assumption|]); apply Forall2_nil).
    rewrite !plus_INR. unfold Rdiv. ring.
  Qed.
  (** the samples in another order *)
  Theorem C94_kernel_cmi_reorder : forall n (cols : list (list R)) zs sigma, (2 <= n)%nat -> (2 <= length cols)%nat ->
    all_len n cols -> length zs = n -> Permutation sigma (seq 0 n) ->
    kernel_cmi E (box_args h w b) (Some 0%Z) false (map F1 (map (fun xs => map (fun i => nth i xs 0) sigma) cols)) (F1 (map (fun i => nth i zs 0) sigma))
      = kernel_cmi E (box_args h w b) (Some 0%Z) false (map F1 cols) (F1 zs).
  Proof using Hh HC HW HV.
    intros n cols zs sigma Hn Hc L Lz P.
    assert (Ls : length sigma = n) by (rewrite (Permutation_length P), seq_length; reflexivity).
    set (g := fun xs : list R => map (fun i => nth i xs 0) sigma). change (map (fun i => nth i zs 0) sigma) with (g zs).
    assert (PR : forall xs, length xs = n -> pts (g xs) = reorder sigma (pts xs)).
    { intros xs Lx. unfold pts, g, reorder. rewrite map_map. apply map_ext_in. intros i Hi.
      assert (Hi' : (i < n)%nat) by (apply (Permutation_in _ P) in Hi; apply in_seq in Hi; lia).
      rewrite (nth_map_lt (fun x => [x]) xs 0) by lia. reflexivity. }
    assert (L' : all_len n (map g cols)).
    { apply Forall_forall. intros v Hv. apply in_map_iff in Hv as (x & <- & _). unfold g. rewrite map_length. exact Ls. }
    rewrite (kernel_cmi_ok E h w b n (map g cols) (g zs) Hh HC HW HV ltac:(lia) ltac:(rewrite map_length; exact Hc) L' ltac:(unfold g; rewrite map_length; exact Ls)).
    rewrite (kernel_cmi_ok E h w b n cols zs Hh HC HW HV ltac:(lia) Hc L Lz). do 2 f_equal. unfold KCMI1. rewrite map_length.
    assert (LA : all_len n (cols ++ [zs])) by (apply Forall_app; split; [exact L|constructor; [exact Lz|constructor]]).
    assert (PM : forall cs, all_len n cs -> map pts (map g cs) = map (reorder sigma) (map pts cs)).
    { intros cs H. rewrite !map_map. apply map_ext_in. intros x Hx. apply PR. unfold all_len in H. rewrite Forall_forall in H. apply H. exact Hx. }
    f_equal; [f_equal|].
    - f_equal. rewrite map_map. apply map_ext_in. intros x Hx.
      unfold all_len in L. rewrite Forall_forall in L.
      pose proof (KH_reorder h n 2 sigma [pts x; pts zs] P) as K. cbn [map] in K. rewrite <- !PR in K by auto. exact K.
    - change [g zs] with (map g [zs]). rewrite <- map_app. rewrite PM by exact LA. apply KH_reorder. exact P.
    - pose proof (KH_reorder h n 1 sigma [pts zs] P) as K. cbn [map] in K. rewrite <- PR in K by exact Lz. exact K.
  Qed.
End Kernel.
