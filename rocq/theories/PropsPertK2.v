(** C116, continued: kernel cross-entropies and divergences, the Gaussian kernel, and samples on the edge. *)
From Coq Require Import Reals Lra Lia List ZArith Arith Bool Permutation.
From Verif Require Import Res RSum Spec SpecTE SpecTEc SpecBase SpecGamma MBase PBase MTE PTE2 MCont MKern SpecKern PKern PKern2 PKern3 PKern4 PKern5 PTEc SpecGauss PropsKern PropsKern2 PropsKern3 PropsKern4 PropsKern5 SpecKnn PKnn2 PropsKnn PropsKnn2 SpecPert PPert PPert2 PropsPert PropsPert2 PropsPert3 SpecPertK PPertK PropsPertK.
Import ListNotations.
Local Open Scope R_scope.

(** ** box kernel: cross-entropy, divergences *)
Lemma nref_same h w w' x x' : Forall2 (fun y y' => near h x' y' = near h x y) w w' -> nref h w' x' = nref h w x.
Proof. unfold nref. induction 1 as [|y y' w w' H F IH]; [reflexivity|]. cbn [filter]. rewrite H. destruct (near h x y); cbn [length]; rewrite IH; reflexivity. Qed.
Lemma map_F2_eq {A B} (P : A -> A -> Prop) (f g : A -> B) l l' : (forall x y, P x y -> f x = g y) -> Forall2 P l l' -> map f l = map g l'.
Proof. intros H F. induction F; cbn; [reflexivity|]. f_equal; auto. Qed.

Section C116b.
  Context (E : kenv) (h : R) (w : Z) (b : base).
  Hypothesis (Hh : 0 < h) (HC : (0 < cpus E)%Z) (HW : workers_ok w) (HV : valid_base b).
  Theorem C116_box_cross_entropy : forall n N d samples ref, (2 <= n)%nat -> (1 <= N)%nat -> table n d (rows2d samples) -> table N d (rows2d ref) ->
    off_edge h (rows2d samples) (rows2d ref) ->
    locally_constant (fun l => kernel_cross_entropy E (box_args h w b) (arr 0 l) (arr 1 l)) [samples; ref].
  Proof using Hh HC HW HV.
    intros n N d samples ref Hn HN Ts Tr O. eexists. split; [apply (C64_cross_entropy E h w b n N d samples ref Hh HC HW HV Hn HN Ts Tr)|].
    destruct (near_stable h _ _ O) as (e & He & Q). exists e. split; [exact He|]. intros l C.
    pose proof (close_arr _ _ _ 0 C) as C0. pose proof (close_arr _ _ _ 1 C) as C1. cbn [arr nth] in C0, C1. fold (arr 0 l) in C0. fold (arr 1 l) in C1.
    rewrite (C64_cross_entropy E h w b n N d (arr 0 l) (arr 1 l) Hh HC HW HV Hn HN (close_table _ _ _ _ _ C0 Ts) (close_table _ _ _ _ _ C1 Tr)).
    do 3 f_equal. symmetry. pose proof (Forall2_len _ _ _ C1) as LL.
    eapply map_F2_eq; [|apply (Q _ _ C0 C1)]. cbn beta. intros x x' S. unfold refdensity. rewrite (nref_same h _ _ _ _ S), LL. reflexivity.
  Qed.
  Theorem C116_box_kld : forall n N d p q, (2 <= n)%nat -> (1 <= N)%nat -> table n d (rows2d p) -> table N d (rows2d q) ->
    off_edge h (rows2d p) (rows2d p) -> off_edge h (rows2d p) (rows2d q) ->
    locally_constant (fun l => kernel_kld E (box_args h w b) (arr 0 l) (arr 1 l)) [p; q].
  Proof using Hh HC HW HV.
    intros n N d p q Hn HN Tp Tq Op Oq.
    destruct (C116_box_cross_entropy n N d p q Hn HN Tp Tq Oq) as (v1 & A1 & d1 & Hd1 & Q1).
    destruct (C116_box_entropy E h w b Hh HC HW HV n d p Hn Tp Op) as (v2 & A2 & d2 & Hd2 & Q2).
    exists (v1 - v2). unfold kernel_kld. split; [rewrite A1; cbn [bind]; cbn [arr nth] in A2 |- *; rewrite A2; reflexivity|].
    exists (Rmin d1 d2). split; [apply Rmin_pos; assumption|]. intros l C.
    rewrite (Q1 l (close_data_mono _ _ _ _ (Rmin_l d1 d2) C)). cbn [bind].
    assert (C2 : close_data d2 [p] [arr 0 l]) by (constructor; [apply (close_arr d2 [p; q] l 0); apply (close_data_mono _ _ _ _ (Rmin_r d1 d2) C)|constructor]).
    assert (X : kernel_entropy E (box_args h w b) (FArr (arr 0 l)) = Ok v2) by exact (Q2 _ C2). rewrite X. reflexivity.
  Qed.
  (** Jensen-Shannon divergence of tables of the same width: no sample on the edge of the box of any other *)
  Theorem C116_box_jsd : forall ns d data, data <> [] -> Forall2 (fun n v => (2 <= n)%nat /\ table n d v) ns data -> off_edge h (concat data) (concat data) ->
    locally_constant (fun l => kernel_jsd E (box_args h w b) (map (fun a => F2 (rows2d a)) l)) (map F2 data).
  Proof using Hh HC HW HV.
    intros ns d data NE F O. eexists. split; [rewrite map_map; cbn [rows2d]; apply (kernel_jsd_ok E h w b d ns data Hh HC HW HV NE F)|].
    destruct (near_stable h _ _ O) as (e & He & Q). exists e. split; [exact He|]. intros l C. rewrite <- (map_map rows2d F2). set (data' := map rows2d l).
    assert (N : near_all e data data') by (pose proof (close_near _ _ _ C) as N; rewrite map_map in N; cbn [rows2d] in N; rewrite map_id in N; exact N).
    assert (F' : Forall2 (fun n v => (2 <= n)%nat /\ table n d v) ns data').
    { clear - F N. revert ns F. induction N as [|v u vs us H N IH]; intros ns F; inversion F as [|? ? ? ? [K T] F0]; subst; constructor; [split; [exact K|eapply close_table; eassumption]|apply IH; assumption]. }
    rewrite (kernel_jsd_ok E h w b d ns data' Hh HC HW HV) by (try assumption; inversion N; subst; congruence).
    assert (CC : forall vs us, near_all e vs us -> close e (concat vs) (concat us)) by (clear; induction 1; cbn; [constructor|apply Forall2_app; assumption]).
    specialize (Q _ _ (CC _ _ N) (CC _ _ N)).
    assert (KP : forall v u, Forall2 (fun x x' => Forall2 (fun y y' => near h x' y' = near h x y) v u) v u -> KHp h d u = KHp h d v).
    { intros v u S. unfold KHp. pose proof (Forall2_len _ _ _ S) as LL. f_equal. symmetry. eapply map_F2_eq; [|exact S]. cbn beta. intros x x' H. unfold refdensity. rewrite (nref_same h _ _ _ _ H), LL. reflexivity. }
    rewrite (KP _ _ Q), <- (Forall2_len _ _ _ N). do 4 f_equal.
    unfold sumR. f_equal. symmetry.
    assert (SP : Forall2 (fun v u => Forall2 (fun x x' => Forall2 (fun y y' => near h x' y' = near h x y) v u) v u) data data').
    { assert (AP : forall A (P : A -> A -> Prop) a a' c c', length a = length a' -> Forall2 P (a ++ c) (a' ++ c') -> Forall2 P a a' /\ Forall2 P c c').
      { clear. intros A P a. induction a as [|x a IH]; intros [|x' a'] c c' L G; try discriminate; [split; [constructor|exact G]|]. cbn in *. inversion G; subst. destruct (IH a' c c') as [? ?]; [congruence|assumption|]. split; [constructor; assumption|assumption]. }
      assert (SUB : forall A (P Q : A -> A -> Prop) a a', (forall x y, P x y -> Q x y) -> Forall2 P a a' -> Forall2 Q a a') by (intros; eapply Forall2_imp; eassumption).
      clear - N Q AP SUB. revert Q. generalize (eq_refl : True = True). intros _.
      induction N as [|v u vs us H N IH]; intros Q; [constructor|]. cbn [concat] in Q. pose proof (Forall2_len _ _ _ H) as LL.
      destruct (AP _ _ _ _ _ _ LL Q) as [Q1 Q2]. constructor.
      - eapply SUB; [|exact Q1]. cbn beta. intros x x' G. apply (AP _ _ _ _ _ _ LL G).
      - apply IH. eapply SUB; [|exact Q2]. cbn beta. intros x x' G. apply (AP _ _ _ _ _ _ LL G). }
    eapply map_F2_eq; [|exact SP]. cbn beta. intros v u S. symmetry. apply KP. exact S.
  Qed.
End C116b.

(** ** Gaussian kernel, one-dimensional data: continuous *)
Lemma lim_es_mult n f g es : lim_es n f es -> lim_es n g es -> lim_es n (fun es => f es * g es) es.
Proof.
  intros Hf Hg.
  assert (SQ : forall k, lim_es n k es -> lim_es n (fun es => k es ^ 2) es) by (intros k Hk; apply (lim_es_comp n k es (fun x => x ^ 2) Hk); apply cont_pow).
  assert (OP : forall k, lim_es n k es -> lim_es n (fun es => - k es) es) by (intros k Hk; apply (lim_es_comp n k es (fun x => - x) Hk); apply (continuity_pt_opp (fun x => x)); apply cont_id).
  assert (P : lim_es n (fun es => / 4 * ((f es + g es) ^ 2 + - (f es + - g es) ^ 2)) es).
  { apply (lim_es_comp n (fun es => (f es + g es) ^ 2 + - (f es + - g es) ^ 2) es (fun x => / 4 * x)); [|apply cont_scal, cont_id].
    apply lim_es_plus; [apply (SQ (fun es => f es + g es)); apply lim_es_plus; assumption|]. apply (OP (fun es => (f es + - g es) ^ 2)). apply (SQ (fun es => f es + - g es)). apply lim_es_plus; [exact Hf|apply OP; exact Hg]. }
  intros eps He. destruct (P eps He) as (d & Hd & Q). exists d. split; [exact Hd|]. intros es' B. specialize (Q es' B).
  replace (f es' * g es' - f es * g es) with (/ 4 * ((f es' + g es') ^ 2 + - (f es' + - g es') ^ 2) - / 4 * ((f es + g es) ^ 2 + - (f es + - g es) ^ 2)) by field. exact Q.
Qed.
Lemma lim_es_sums n (F : nat -> (nat -> R) -> R) l es : (forall t, In t l -> lim_es n (F t) es) -> lim_es n (fun es => sumf (fun t => F t es) l) es.
Proof.
  induction l as [|t l IH]; intros H; cbn [sumf]; [apply lim_es_const|]. apply lim_es_plus; [apply H; left; reflexivity|]. apply IH. intros u Hu. apply H. right. exact Hu.
Qed.
Lemma lim_es_ext n f g es : (forall es, f es = g es) -> lim_es n f es -> lim_es n g es.
Proof. intros H L eps He. destruct (L eps He) as (d & Hd & Q). exists d. split; [exact Hd|]. intros es' B. rewrite <- !H. apply Q. exact B. Qed.
Lemma lim_es_scal n c f es : lim_es n f es -> lim_es n (fun es => c * f es) es.
Proof. intros H. apply (lim_es_comp n f es (fun x => c * x) H). apply cont_scal, cont_id. Qed.
Lemma lim_es_sub n f g es : lim_es n f es -> lim_es n g es -> lim_es n (fun es => f es - g es) es.
Proof.
  intros Hf Hg. apply (lim_es_ext n (fun es => f es + (-1) * g es)); [intros; ring|]. apply lim_es_plus; [exact Hf|apply lim_es_scal; exact Hg].
Qed.
Lemma lim_es_div n f g es : lim_es n f es -> lim_es n g es -> g es <> 0 -> lim_es n (fun es => f es / g es) es.
Proof.
  intros Hf Hg N. unfold Rdiv. apply (lim_es_mult n f (fun es => / g es)); [exact Hf|]. apply (lim_es_comp n g es (fun x => / x) Hg).
  apply (continuity_pt_inv (fun x => x)); [apply cont_id|exact N].
Qed.
Lemma cont_exp x : continuity_pt exp x.
Proof. apply derivable_continuous_pt, derivable_pt_exp. Qed.
Lemma cont_sqrt x : 0 < x -> continuity_pt sqrt x.
Proof. intros H. apply sqrt_continuity_pt. exact H. Qed.

(** the data as functions of one sequence: the samples [0 .. n-1] and the reference [n .. n+N-1] *)
Definition part (o n : nat) (es : nat -> R) : list R := map es (seq o n).
Lemma sum_part (F : R -> R) o n es : sumf F (part o n es) = sumf (fun t => F (es t)) (seq o n).
Proof. unfold part. rewrite sumf_map. reflexivity. Qed.
Lemma len_part o n es : length (part o n es) = n.
Proof. unfold part. rewrite map_length, seq_length. reflexivity. Qed.
Section GaussCont.
  Variables (M o n : nat).
  Hypothesis (HM : (o + n <= M)%nat) (Hn : (2 <= n)%nat).
  Lemma mean_part es : lim_es M (fun es => mean (part o n es)) es.
  Proof using HM Hn.
    apply (lim_es_ext M (fun es => / INR n * sumf (fun t => es t) (seq o n))).
    - intros f. unfold part. rewrite mean_map, seq_length. change (sumf (fun t : nat => f t) (seq o n)) with (sumf f (seq o n)). unfold Rdiv. ring.
    - apply lim_es_scal. apply (lim_es_sums M (fun t es => es t)). intros t Ht. apply in_seq in Ht. apply lim_es_point. lia.
  Qed.
  Lemma stdev_part es : varied (part o n es) -> lim_es M (fun es => stdev (part o n es)) es.
  Proof using HM Hn.
    intros V. apply (lim_es_comp M (fun es => sumf (fun x => (x - mean (part o n es)) ^ 2) (part o n es) / (INR (length (part o n es)) - 1)) es sqrt).
    - apply (lim_es_ext M (fun es => / (INR n - 1) * sumf (fun t => (es t - mean (part o n es)) ^ 2) (seq o n))).
      + intros f. rewrite len_part, sum_part. unfold Rdiv. ring.
      + apply lim_es_scal. apply (lim_es_sums M (fun t es => (es t - mean (part o n es)) ^ 2)). intros t Ht. apply in_seq in Ht.
        apply (lim_es_comp M (fun es => es t - mean (part o n es)) es (fun x => x ^ 2)); [|apply cont_pow].
        apply lim_es_sub; [apply lim_es_point; lia|apply mean_part].
    - apply cont_sqrt. apply (sample_var_pos _ V).
  Qed.
  Lemma normal_lim (m s q : (nat -> R) -> R) es : lim_es M m es -> lim_es M s es -> lim_es M q es -> 0 < s es -> lim_es M (fun es => normal (m es) (s es) (q es)) es.
  Proof using HM Hn.
    intros Lm Ls Lq P. unfold normal. assert (P2 : 0 < sqrt (2 * PI)) by (apply sqrt_lt_R0; pose proof PI_RGT_0; lra).
    apply (lim_es_div M (fun es => exp (- ((q es - m es) / s es) ^ 2 / 2)) (fun es => s es * sqrt (2 * PI))).
    - apply (lim_es_comp M (fun es => - ((q es - m es) / s es) ^ 2 / 2) es exp); [|apply cont_exp].
      apply (lim_es_ext M (fun es => (- / 2) * ((q es - m es) / s es) ^ 2)); [intros f; generalize ((q f - m f) / s f); intros r; field|]. apply lim_es_scal.
      apply (lim_es_comp M (fun es => (q es - m es) / s es) es (fun x => x ^ 2)); [|apply cont_pow].
      apply lim_es_div; [apply lim_es_sub; assumption|exact Ls|lra].
    - apply (lim_es_ext M (fun es => sqrt (2 * PI) * s es)); [intros; ring|]. apply lim_es_scal. exact Ls.
    - apply Rgt_not_eq. nra.
  Qed.
  Lemma gdensity_part h (q : (nat -> R) -> R) es : 0 < h -> varied (part o n es) -> lim_es M q es -> lim_es M (fun es => gdensity h (part o n es) (q es)) es.
  Proof using HM Hn.
    intros Hh V Lq. apply (lim_es_ext M (fun es => / INR n * sumf (fun t => normal (es t) (h * stdev (part o n es)) (q es)) (seq o n))).
    - intros f. unfold gdensity. rewrite mean_map, len_part, sum_part. unfold Rdiv. ring.
    - apply lim_es_scal. apply (lim_es_sums M (fun t es => normal (es t) (h * stdev (part o n es)) (q es))). intros t Ht. apply in_seq in Ht.
      apply (normal_lim (fun es => es t) (fun es => h * stdev (part o n es)) q); [apply lim_es_point; lia|apply lim_es_scal, stdev_part; exact V|exact Lq|].
      apply Rmult_lt_0_compat; [exact Hh|apply stdev_pos; exact V].
  Qed.
End GaussCont.
Lemma cross_part h M o n N es : 0 < h -> (o + n <= M)%nat -> (N <= M)%nat -> (2 <= n)%nat -> varied (part o n es) ->
  lim_es M (fun es => mean (map (fun q => - ln (gdensity h (part o n es) q)) (part 0 N es))) es.
Proof.
  intros Hh HM HN Hn V. apply (lim_es_ext M (fun es => (- / INR N) * sumf (fun t => ln (gdensity h (part o n es) (es t))) (seq 0 N))).
  - intros f. rewrite mean_map, sumf_opp, len_part, sum_part. unfold Rdiv. ring.
  - apply lim_es_scal. apply (lim_es_sums M (fun t es => ln (gdensity h (part o n es) (es t)))). intros t Ht. apply in_seq in Ht.
    apply (lim_es_comp M (fun es => gdensity h (part o n es) (es t)) es ln); [apply (gdensity_part M o n HM Hn h (fun es => es t)); [exact Hh|exact V|apply lim_es_point; lia]|].
    apply cont_ln. apply gdensity_pos; assumption.
Qed.
Lemma part_of xs : part 0 (length xs) (fun t => nth t xs 0) = xs.
Proof. unfold part. apply nth_ext with (d := 0) (d' := 0); [rewrite map_length, seq_length; reflexivity|]. intros i Hi. rewrite map_length, seq_length in Hi.
  rewrite (nth_indep _ 0 (nth 0 xs 0)) by (rewrite map_length, seq_length; exact Hi). rewrite (map_nth (fun t => nth t xs 0)), seq_nth by exact Hi. reflexivity. Qed.

Lemma close_pts' d xs v : close d (pts xs) v -> exists ys, v = pts ys /\ Forall2 (rel d) xs ys.
Proof.
  revert v. induction xs as [|x xs IH]; intros v C; inversion C as [|? p ? v' P C']; subst; [exists []; split; [reflexivity|constructor]|].
  destruct (IH v' C') as (ys & -> & L). inversion P as [|? y ? q X Q]; subst. inversion Q; subst. exists (y :: ys). split; [reflexivity|]. constructor; [exact X|exact L].
Qed.
Lemma varied_near xs : varied xs -> exists d, 0 < d /\ forall ys, Forall2 (rel d) xs ys -> varied ys.
Proof.
  intros (x & y & Hx & Hy & N). exists (Rabs (x - y) / 3). assert (P : 0 < Rabs (x - y)) by (apply Rabs_pos_lt; lra). split; [lra|]. intros ys F.
  apply (In_nth _ _ 0) in Hx as (i & Hi & EX). apply (In_nth _ _ 0) in Hy as (j & Hj & EY). pose proof (Forall2_len _ _ _ F) as L.
  exists (nth i ys 0), (nth j ys 0). split; [apply nth_In; lia|]. split; [apply nth_In; lia|]. intros X.
  assert (RR : rel (Rabs (x - y) / 3) 0 0) by (unfold rel; rewrite Rminus_diag_eq, Rabs_R0 by reflexivity; lra).
  pose proof (Forall2_nth_def _ _ _ 0 0 i F RR) as A. pose proof (Forall2_nth_def _ _ _ 0 0 j F RR) as B. rewrite EX in A. rewrite EY in B. unfold rel in A, B.
  assert (T : Rabs (x - y) <= Rabs (x - nth i ys 0) + Rabs (y - nth j ys 0)).
  { replace (x - y) with ((x - nth i ys 0) + - (y - nth j ys 0)) by (rewrite X; ring). eapply Rle_trans; [apply Rabs_triang|]. rewrite Rabs_Ropp. lra. }
  lra.
Qed.
Lemma same_rows E a x ys : rows2d x = pts ys -> kernel_entropy E a (FArr x) = kernel_entropy E a (FArr (F1 ys)).
Proof. intros H. unfold kernel_entropy, kernel_entropy_local, make_rows. rewrite H. reflexivity. Qed.
Lemma same_rows2 E a x y xs ys : rows2d x = pts xs -> rows2d y = pts ys -> kernel_cross_entropy E a x y = kernel_cross_entropy E a (F1 xs) (F1 ys).
Proof. intros H K. unfold kernel_cross_entropy. rewrite H, K. reflexivity. Qed.
Lemma part_app0 xs ys : part 0 (length xs) (fun t => nth t (xs ++ ys) 0) = xs.
Proof. transitivity (part 0 (length xs) (fun t => nth t xs 0)); [|apply part_of]. unfold part. apply map_ext_in. intros t Ht. apply in_seq in Ht. rewrite app_nth1 by lia. reflexivity. Qed.
Lemma part_app1 xs ys : part (length xs) (length ys) (fun t => nth t (xs ++ ys) 0) = ys.
Proof.
  unfold part. apply nth_ext with (d := 0) (d' := 0); [rewrite map_length, seq_length; reflexivity|]. intros i Hi. rewrite map_length, seq_length in Hi.
  set (f := fun t => nth t (xs ++ ys) 0). rewrite (nth_indep _ 0 (f 0%nat)) by (rewrite map_length, seq_length; exact Hi). rewrite map_nth, seq_nth by exact Hi. unfold f.
  rewrite app_nth2 by lia. f_equal. lia.
Qed.
Lemma rel_fun d xs ys : Forall2 (rel d) xs ys -> forall t, Rabs (nth t ys 0 - nth t xs 0) <= Rmax d 0.
Proof.
  intros F t. pose proof (Rmax_l d 0). pose proof (Rmax_r d 0). assert (G : rel (Rmax d 0) (nth t xs 0) (nth t ys 0)).
  { apply Forall2_nth_def; [eapply Forall2_imp; [|exact F]; unfold rel; intros; lra|]. unfold rel. rewrite Rminus_diag_eq, Rabs_R0 by reflexivity. lra. }
  unfold rel in G. rewrite Rabs_minus_sym. exact G.
Qed.

Section C116c.
  Context (E : kenv) (h : R) (w : Z) (b : base).
  Hypothesis (Hh : 0 < h) (HC : (0 < cpus E)%Z) (HW : workers_ok w) (HV : valid_base b).
  Theorem C116_gauss_cross_entropy : forall xs ref, (2 <= length xs)%nat -> varied ref ->
    continuous_in_data (fun l => kernel_cross_entropy E (gauss_args h w b) (arr 0 l) (arr 1 l)) [F1 xs; F1 ref].
  Proof using Hh HC HW HV.
    intros xs ref Lx V. eexists. split; [apply (C63_cross_entropy E h w b Hh HC HW HV xs ref V Lx)|]. intros eps He.
    destruct (varied_near ref V) as (d1 & Hd1 & Q1). pose proof (varied_length ref V) as Lr.
    assert (UP : 0 < Rabs (unit_of b)) by (apply Rabs_pos_lt, unit_ne; exact HV).
    pose proof (cross_part h (length xs + length ref) (length xs) (length ref) (length xs) (fun t => nth t (xs ++ ref) 0) Hh ltac:(lia) ltac:(lia) Lr) as LIM.
    rewrite part_app1 in LIM. specialize (LIM V (eps * Rabs (unit_of b)) ltac:(nra)) as (d2 & Hd2 & Q2). rewrite part_app0, part_app1 in Q2.
    exists (Rmin d1 (d2 / 2)). split; [apply Rmin_pos; lra|]. intros l C. pose proof (Rmin_l d1 (d2 / 2)) as M1. pose proof (Rmin_r d1 (d2 / 2)) as M2.
    pose proof (close_arr _ _ _ 0 C) as C0. pose proof (close_arr _ _ _ 1 C) as C1. cbn [arr nth rows2d] in C0, C1. fold (arr 0 l) in C0. fold (arr 1 l) in C1.
    destruct (close_pts' _ xs _ C0) as (ys & E0 & F0). destruct (close_pts' _ ref _ C1) as (zs & E1 & F1').
    assert (VZ : varied zs) by (apply Q1; eapply Forall2_imp; [|exact F1']; unfold rel; intros; lra).
    pose proof (Forall2_len _ _ _ F0) as L0. pose proof (Forall2_len _ _ _ F1') as L1.
    eexists. split; [rewrite (same_rows2 E _ _ _ ys zs E0 E1); apply (C63_cross_entropy E h w b Hh HC HW HV ys zs VZ ltac:(lia))|].
    specialize (Q2 (fun t => nth t (ys ++ zs) 0)). rewrite L0, L1, part_app0, part_app1 in Q2.
    unfold Rdiv. rewrite <- Rmult_minus_distr_r, Rabs_mult, Rabs_inv.
    apply Rmult_lt_reg_r with (Rabs (unit_of b)); [exact UP|]. rewrite Rmult_assoc, Rinv_l, Rmult_1_r by lra. apply Q2.
    intros t _. eapply Rle_lt_trans; [apply (rel_fun (d2 / 2) (xs ++ ref) (ys ++ zs))|rewrite Rmax_left; lra].
    apply Forall2_app; (eapply Forall2_imp; [|eassumption]); unfold rel; intros; lra.
  Qed.
  Theorem C116_gauss_entropy : forall xs, varied xs -> continuous_in_data (fun l => kernel_entropy E (gauss_args h w b) (FArr (arr 0 l))) [F1 xs].
  Proof using Hh HC HW HV.
    intros xs V. destruct (C116_gauss_cross_entropy xs xs (varied_length xs V) V) as (v & A & Q). destruct (varied_near xs V) as (d1 & Hd1 & Q1).
    assert (SAME : forall ys, varied ys -> kernel_entropy E (gauss_args h w b) (FArr (F1 ys)) = kernel_cross_entropy E (gauss_args h w b) (F1 ys) (F1 ys)).
    { intros ys VY. rewrite (proj2 (C63_gaussian_entropy E h w b Hh HC HW HV ys VY)), (proj1 (C63_cross_entropy E h w b Hh HC HW HV ys ys VY (varied_length ys VY))). reflexivity. }
    exists v. split; [cbn [arr nth]; rewrite SAME by exact V; exact A|]. intros eps He. destruct (Q eps He) as (d & Hd & Q'). exists (Rmin d d1). split; [apply Rmin_pos; assumption|].
    intros l C. pose proof (close_arr _ _ _ 0 C) as C0. cbn [arr nth rows2d] in C0. fold (arr 0 l) in C0. pose proof (Rmin_l d d1) as M1. pose proof (Rmin_r d d1) as M2.
    destruct (close_pts' _ xs _ C0) as (ys & E0 & F0). assert (VY : varied ys) by (apply Q1; eapply Forall2_imp; [|exact F0]; unfold rel; intros; lra).
    rewrite (same_rows E _ _ ys E0), SAME by exact VY. apply (Q' [F1 ys; F1 ys]).
    assert (CY : close d (pts xs) (pts ys)).
    { rewrite <- E0. eapply Forall2_imp; [|exact C0]. intros p q. apply Forall2_imp. intros; lra. }
    constructor; [exact CY|constructor; [exact CY|constructor]].
  Qed.
  Theorem C116_gauss_kld : forall xs ref, varied xs -> varied ref ->
    continuous_in_data (fun l => kernel_kld E (gauss_args h w b) (arr 0 l) (arr 1 l)) [F1 xs; F1 ref].
  Proof using Hh HC HW HV.
    intros xs ref V VR. destruct (C116_gauss_cross_entropy xs ref (varied_length xs V) VR) as (v1 & A1 & Q1). destruct (C116_gauss_entropy xs V) as (v2 & A2 & Q2).
    exists (v1 - v2). unfold kernel_kld. split; [rewrite A1; cbn [bind]; cbn [arr nth] in A2 |- *; rewrite A2; reflexivity|]. intros eps He.
    destruct (Q1 (eps / 2) ltac:(lra)) as (d1 & Hd1 & R1). destruct (Q2 (eps / 2) ltac:(lra)) as (d2 & Hd2 & R2). exists (Rmin d1 d2). split; [apply Rmin_pos; assumption|]. intros l C.
    destruct (R1 l (close_data_mono _ _ _ _ (Rmin_l d1 d2) C)) as (u1 & B1 & N1).
    assert (C2 : close_data d2 [F1 xs] [arr 0 l]) by (constructor; [apply (close_arr d2 [F1 xs; F1 ref] l 0); apply (close_data_mono _ _ _ _ (Rmin_r d1 d2) C)|constructor]).
    destruct (R2 _ C2) as (u2 & B2 & N2). exists (u1 - u2). split; [rewrite B1; cbn [bind]; change (arr 0 l) with (arr 0 [arr 0 l]); rewrite B2; reflexivity|].
    replace (u1 - u2 - (v1 - v2)) with ((u1 - v1) - (u2 - v2)) by ring. eapply Rle_lt_trans; [apply Rabs_triang|]. rewrite Rabs_Ropp. lra.
  Qed.

  (** on the edge: moving one of two samples away by any amount raises the box-kernel entropy by ln 2 *)
  Theorem C116_edge_refuted : forall del, 0 < del ->
    kernel_entropy E (box_args h w b) (FArr (F1 [0; h / 2])) = Ok (ln h / unit_of b) /\
    kernel_entropy E (box_args h w b) (FArr (F1 [0; h / 2 + del])) = Ok ((ln h + ln 2) / unit_of b).
  Proof using Hh HC HW HV.
    intros del Hd.
    assert (NE : forall x, 0 < x -> forall t, (t < 2)%nat -> nnear h 2 [rows2d (F1 [0; x])] t = if Rle_dec x (h / 2) then 2%nat else 1%nat).
    { intros x Hx t Ht. unfold nnear. cbn [seq filter forallb rows2d map nth].
      assert (A0 : forall y, near h [y] [y] = true) by (intros y; unfold near; cbn [combine forallb fst snd]; rewrite Rminus_diag_eq, Rabs_R0 by reflexivity; destruct (Rle_dec 0 (h / 2)); [reflexivity|lra]).
      assert (A1 : near h [0] [x] = if Rle_dec x (h / 2) then true else false) by (unfold near; cbn [combine forallb fst snd]; rewrite Rabs_left by lra; replace (- (0 - x)) with x by ring; destruct (Rle_dec x (h / 2)); reflexivity).
      assert (A2 : near h [x] [0] = if Rle_dec x (h / 2) then true else false) by (unfold near; cbn [combine forallb fst snd]; rewrite Rminus_0_r, Rabs_right by lra; destruct (Rle_dec x (h / 2)); reflexivity).
      destruct t as [|[|t]]; [| |lia]; cbn [nth]; rewrite A0, ?A1, ?A2; destruct (Rle_dec x (h / 2)); reflexivity. }
    assert (V : forall x, 0 < x -> kernel_entropy E (box_args h w b) (FArr (F1 [0; x])) = Ok ((ln h + (if Rle_dec x (h / 2) then 0 else ln 2)) / unit_of b)).
    { intros x Hx. rewrite (proj2 (C59_kernel_entropy E h w b Hh HC HW HV (F1 [0; x]) 2 1 ltac:(lia) ltac:(repeat constructor))). do 2 f_equal.
      unfold KH. cbn [seq map]. unfold kdensity. rewrite !NE by (try exact Hx; lia). unfold mean, sumR. cbn [sumf length].
      assert (L : - ln (INR (if Rle_dec x (h / 2) then 2 else 1)%nat / INR 2 / h ^ 1) = ln h + (if Rle_dec x (h / 2) then 0 else ln 2)).
      { replace (INR 2) with 2 by (cbn; ring). rewrite pow_1. destruct (Rle_dec x (h / 2)).
        - replace (INR 2) with 2 by (cbn; ring). replace (2 / 2 / h) with (/ h) by (field; lra). rewrite ln_Rinv by exact Hh. ring.
        - replace (INR 1 / 2 / h) with (/ (h * 2)) by (cbn; field; lra). rewrite ln_Rinv, ln_mult by lra. ring. }
      rewrite L. replace (INR 2) with 2 by (cbn; ring). field. }
    split; rewrite V by lra.
    - destruct (Rle_dec (h / 2) (h / 2)); [|lra]. rewrite Rplus_0_r. reflexivity.
    - destruct (Rle_dec (h / 2 + del) (h / 2)); [lra|]. reflexivity.
  Qed.
End C116c.

(** the hypotheses are met *)
Example C116_example : off_edge 1 (rows2d (F1 [0; 1; 3])) (rows2d (F1 [0; 1; 3])) /\ varied [0; 1; 3].
Proof.
  split; [|exists 0, 1; cbn; split; [tauto|split; [tauto|lra]]].
  intros x y Hx Hy. cbn in Hx, Hy.
  destruct Hx as [<-|[<-|[<-|[]]]]; destruct Hy as [<-|[<-|[<-|[]]]]; (constructor; [|constructor]); intros X; revert X; unfold Rabs; destruct (Rcase_abs _); lra.
Qed.
