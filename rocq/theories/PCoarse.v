(** Proofs: coarse-graining a sample (log-sum inequality). *)
From Coq Require Import Reals Lra Lia List ZArith Arith Bool Permutation.
From Verif Require Import Res RSum Spec SpecBase SpecDiv SpecPool Info Info2 Gibbs PBase PEst4 PDiv PDiv2 PStab PPool.
Import ListNotations.
Local Open Scope R_scope.

Section Coarse.
Context {A B : Type} `{EqDec A} `{EqDec B}.

(** a sum over sample points, grouped by value *)
Lemma points_group {C} `{EqDec C} (l : list C) (g : C -> R) : sumf g l = sumf (fun v => INR (count l v) * g v) (distinct l).
Proof.
  transitivity (sumf (fun s => g ((fun x : C => x) s)) l); [reflexivity|].
  rewrite <- (group l (fun x => x) (distinct l) g).
  - apply sumf_ext. intros v _. rewrite cnt_count, map_id. reflexivity.
  - apply NoDup_nodup.
  - intros s Hs. apply nodup_In. exact Hs.
Qed.

Lemma prob_sum1 {C} `{EqDec C} (l : list C) : l <> [] -> sumf (prob l) (distinct l) = 1.
Proof. intros NE. apply (prob_pmf_distinct l NE). Qed.

Lemma prob_ge0 {C} `{EqDec C} (l : list C) v : 0 <= prob l v.
Proof.
  unfold prob. destruct l as [|x l]; [simpl; unfold Rdiv; rewrite Rmult_0_l; lra|].
  apply Rmult_le_pos; [apply pos_INR|]. left. apply Rinv_0_lt_compat, INR_pos. simpl. lia.
Qed.

(** symbols of [U] with image [w] do not occur more often than [w] in the image *)
Lemma coarse_count (f : A -> B) (U qs : list A) w : NoDup U ->
  sumf (fun v => ind (eqb (f v) w) * INR (count qs v)) U <= INR (count (map f qs) w).
Proof.
  intros ND. induction qs as [|y qs IH].
  - rewrite (sumf_ext _ (fun _ => 0)); [rewrite sumf_zero; simpl; lra|]. intros v _. simpl. ring.
  - cbn [map]. rewrite count_cons.
    rewrite (sumf_ext _ (fun v => ind (eqb (f v) w) * INR (count qs v) + ind (eqb (f v) w) * (if eq_dec y v then 1 else 0))).
    2:{ intros v _. rewrite count_cons, plus_INR. destruct (eq_dec y v); simpl; ring. }
    rewrite sumf_plus, plus_INR.
    assert (L : sumf (fun v => ind (eqb (f v) w) * (if eq_dec y v then 1 else 0)) U <= INR (if eq_dec (f y) w then 1 else 0)).
    { clear IH. induction ND as [|u U Nu ND IHU]; cbn [sumf]; [destruct (eq_dec (f y) w); simpl; lra|].
      destruct (eq_dec y u) as [->|N].
      - rewrite (sumf_ext _ (fun _ => 0)), sumf_zero.
        + unfold eqb. destruct (eq_dec (f u) w); simpl; lra.
        + intros v Hv. destruct (eq_dec u v) as [->|_]; [contradiction|ring].
      - rewrite Rmult_0_r, Rplus_0_l. exact IHU. }
    lra.
Qed.

Lemma coarse_prob (f : A -> B) (U qs : list A) w : NoDup U ->
  sumf (fun v => ind (eqb (f v) w) * prob qs v) U <= prob (map f qs) w.
Proof.
  intros ND. unfold prob. rewrite map_length.
  rewrite (sumf_ext _ (fun v => ind (eqb (f v) w) * INR (count qs v) / INR (length qs))) by (intros; unfold Rdiv; ring).
  rewrite sumf_div. destruct qs as [|y qs].
  - simpl. rewrite (sumf_ext _ (fun _ => 0)), sumf_zero by (intros; ring). unfold Rdiv. lra.
  - apply Rmult_le_compat_r; [left; apply Rinv_0_lt_compat, INR_pos; simpl; lia|]. apply coarse_count. exact ND.
Qed.

(** the log-sum inequality on sample points, with equality *)
Lemma coarse_points (f : A -> B) (ps : list A) (q : A -> R) (Q : B -> R) : ps <> [] ->
  (forall x, In x ps -> 0 < q x) -> (forall x, In x ps -> 0 < Q (f x)) ->
  (forall x, In x ps -> sumf (fun v => ind (eqb (f v) (f x)) * q v) (distinct ps) <= Q (f x)) ->
  sumf (fun x => ln (prob (map f ps) (f x) / Q (f x))) ps <= sumf (fun x => ln (prob ps x / q x)) ps /\
  (sumf (fun x => ln (prob (map f ps) (f x) / Q (f x))) ps = sumf (fun x => ln (prob ps x / q x)) ps <->
   forall x, In x ps -> prob ps x * Q (f x) = q x * prob (map f ps) (f x)).
Proof.
  intros NE Pq PQ HQ. assert (N : 0 < INR (length ps)) by (apply INR_pos; destruct ps; [congruence|simpl; lia]).
  assert (Pp : forall x, In x ps -> 0 < prob ps x) by (intros x Hx; apply prob_pos; exact Hx).
  assert (PP : forall x, In x ps -> 0 < prob (map f ps) (f x)) by (intros x Hx; apply prob_pos, in_map; exact Hx).
  set (t := fun x => (prob ps x * Q (f x)) / (q x * prob (map f ps) (f x))).
  assert (T0 : forall x, In x ps -> 0 < t x).
  { intros x Hx. unfold t. apply Rdiv_lt_0_compat; apply Rmult_lt_0_compat; auto. }
  assert (D : forall x, In x ps -> ln (prob ps x / q x) = ln (prob (map f ps) (f x) / Q (f x)) + ln (t x)).
  { intros x Hx. pose proof (Pp x Hx). pose proof (PP x Hx). pose proof (Pq x Hx). pose proof (PQ x Hx).
    unfold t. set (pp := prob ps x) in *. set (pf := prob (map f ps) (f x)) in *. clearbody pp pf. rewrite !ln_div by (try apply Rmult_lt_0_compat; assumption). rewrite !ln_mult by assumption. ring. }
  rewrite (sumf_ext (fun x => ln (prob ps x / q x)) _ ps D), sumf_plus.
  assert (INV : sumf (fun x => / t x) ps <= INR (length ps)).
  { rewrite points_group.
    rewrite (sumf_ext _ (fun v => INR (length ps) * (q v * (prob (map f ps) (f v) / Q (f v))))).
    2:{ intros v Hv. apply nodup_In in Hv. pose proof (Pp v Hv). pose proof (PP v Hv). pose proof (Pq v Hv). pose proof (PQ v Hv).
        assert (C : INR (count ps v) = INR (length ps) * prob ps v) by (unfold prob; field; lra).
        rewrite C. unfold t. field. repeat split; lra. }
    rewrite sumf_scal. rewrite <- (Rmult_1_r (INR (length ps))) at 2. apply Rmult_le_compat_l; [lra|].
    set (W := distinct (map f ps)).
    apply Rle_trans with (sumf (fun w => sumf (fun v => ind (eqb (f v) w) * q v) (distinct ps) * (prob (map f ps) w / Q w)) W).
    - right. rewrite (sumf_ext (fun w => sumf (fun v => ind (eqb (f v) w) * q v) (distinct ps) * (prob (map f ps) w / Q w))
        (fun w => sumf (fun v => ind (eqb (f v) w) * q v * (prob (map f ps) w / Q w)) (distinct ps))) by (intros w _; rewrite sumf_scal_r; reflexivity).
      rewrite sumf_swap. apply sumf_ext. intros v Hv. apply nodup_In in Hv.
      symmetry. assert (IW : In (f v) W) by (apply nodup_In, in_map; exact Hv). assert (ND : NoDup W) by apply NoDup_nodup.
      clearbody W. revert IW. induction ND as [|w W Nw ND IH]; [intros []|]. intros [->|IW]; cbn [sumf].
      + rewrite (sumf_ext _ (fun _ => 0)), sumf_zero.
        * unfold eqb. destruct (eq_dec (f v) (f v)); [unfold ind; ring|congruence].
        * intros w Hw. unfold eqb. destruct (eq_dec (f v) w) as [<-|_]; [contradiction|unfold ind; ring].
      + rewrite (IH IW). unfold eqb. destruct (eq_dec (f v) w) as [<-|_]; [contradiction|unfold ind; ring].
    - rewrite <- (prob_sum1 (map f ps)) by (destruct ps; [congruence|discriminate]). apply sumf_le. intros w Hw.
      apply nodup_In, in_map_iff in Hw. destruct Hw as (x & <- & Hx). pose proof (PQ x Hx). pose proof (PP x Hx).
      apply Rle_trans with (Q (f x) * (prob (map f ps) (f x) / Q (f x))); [|right; field; lra].
      apply Rmult_le_compat_r; [left; apply Rdiv_lt_0_compat; assumption|]. apply HQ. exact Hx. }
  assert (LB : INR (length ps) - sumf (fun x => / t x) ps <= sumf (fun x => ln (t x)) ps).
  { rewrite <- (Rmult_1_r (INR (length ps))), <- sumf_const, <- sumf_minus. apply sumf_le. intros x Hx. apply ln_ge_1inv, T0, Hx. }
  split; [lra|]. split.
  - intros E x Hx. assert (E0 : sumf (fun x => ln (t x) - (1 - / t x)) ps = 0).
    { apply Rle_antisym; [|apply sumf_nonneg; intros y Hy; pose proof (ln_ge_1inv (t y) (T0 y Hy)); lra].
      rewrite sumf_minus, sumf_minus, sumf_const. lra. }
    assert (Ex : ln (t x) - (1 - / t x) = 0).
    { apply (sumf_zero_all (fun x => ln (t x) - (1 - / t x)) ps); [|exact E0|exact Hx]. intros y Hy. pose proof (ln_ge_1inv (t y) (T0 y Hy)). lra. }
    destruct (Req_dec (t x) 1) as [T1|T1]; [|pose proof (ln_gt_1inv (t x) (T0 x Hx) T1); lra].
    unfold t in T1. pose proof (Pq x Hx). pose proof (PP x Hx).
    assert (Z0 : q x * prob (map f ps) (f x) <> 0) by (apply Rmult_integral_contrapositive; lra).
    apply (Rmult_eq_reg_r (/ (q x * prob (map f ps) (f x)))); [|apply Rinv_neq_0_compat; exact Z0].
    fold (prob ps x * Q (f x) / (q x * prob (map f ps) (f x))). rewrite T1. field. split; lra.
  - intros E. rewrite (sumf_ext (fun x => ln (t x)) (fun _ => 0)), sumf_zero; [ring|].
    intros x Hx. unfold t. rewrite (E x Hx). pose proof (Pq x Hx). pose proof (PP x Hx).
    replace (q x * prob (map f ps) (f x) / (q x * prob (map f ps) (f x))) with 1 by (field; split; lra). apply ln_1.
Qed.

Lemma KL_coarse (f : A -> B) (ps qs : list A) : ps <> [] -> incl ps qs ->
  KL (map f ps) (map f qs) <= KL ps qs /\
  (KL (map f ps) (map f qs) = KL ps qs <-> forall x, In x ps -> prob ps x * prob (map f qs) (f x) = prob qs x * prob (map f ps) (f x)).
Proof.
  intros NE I0. assert (N : 0 < INR (length ps)) by (apply INR_pos; destruct ps; [congruence|simpl; lia]).
  assert (NEf : map f ps <> []) by (destruct ps; [congruence|discriminate]).
  assert (If : incl (map f ps) (map f qs)) by (intros w Hw; apply in_map_iff in Hw; destruct Hw as (x & <- & Hx); apply in_map, I0, Hx).
  pose proof (KL_points ps qs NE I0) as K1. pose proof (KL_points (map f ps) (map f qs) NEf If) as K2.
  rewrite map_length, sumf_map in K2.
  destruct (coarse_points f ps (prob qs) (prob (map f qs)) NE) as [L E].
  - intros x Hx. apply prob_pos, I0, Hx.
  - intros x Hx. apply prob_pos, in_map, I0, Hx.
  - intros x Hx. apply coarse_prob. apply NoDup_nodup.
  - rewrite <- K1, <- K2 in L, E. split.
    + apply (Rmult_le_reg_l (INR (length ps))); assumption.
    + rewrite <- E. split; [intros ->; reflexivity|]. intros Q. apply (Rmult_eq_reg_l (INR (length ps))); lra.
Qed.
End Coarse.

(** the Jensen-Shannon divergence as mean divergence from the mixture, on sample points *)
Lemma mix_pos {A} `{EqDec A} (ds : list (list A)) d x : In d ds -> In x d -> 0 < mixprob ds x.
Proof.
  intros Hd Hx. unfold mixprob. apply Rdiv_lt_0_compat; [|apply INR_pos; destruct ds; [destruct Hd|simpl; lia]].
  apply Rlt_le_trans with (prob d x); [apply prob_pos; exact Hx|].
  apply (sumf_In_le (fun d => prob d x)); [|exact Hd]. intros e _. apply prob_ge0.
Qed.

Lemma JSD_points {A} `{EqDec A} (ds : list (list A)) : ds <> [] -> Forall (fun d => d <> []) ds ->
  JSD ds = sumf (fun d => sumf (fun x => ln (prob d x / mixprob ds x)) d / INR (length d)) ds / INR (length ds).
Proof.
  intros NE F. rewrite JSD_PJSD, js_kl.
  2:{ destruct ds; [congruence|discriminate]. }
  2:{ intros d Hd. apply in_map_iff in Hd. destruct Hd as (c & <- & Hc). rewrite Forall_forall in F. apply prob_pmf_distinct, F, Hc. }
  rewrite map_length, sumf_map. f_equal. apply sumf_ext. intros d Hd. cbn [fst snd].
  rewrite points_group. rewrite <- sumf_div. unfold PKL. apply sumf_ext. intros v _.
  assert (E : pmix (map (fun d0 => (distinct d0, prob d0)) ds) v = mixprob ds v).
  { unfold pmix, mixprob. rewrite map_length, sumf_map. reflexivity. }
  rewrite E. unfold prob at 1, Rdiv. ring.
Qed.

Lemma JSD_coarse {A B} `{EqDec A} `{EqDec B} (f : A -> B) (ds : list (list A)) : ds <> [] -> Forall (fun d => d <> []) ds ->
  JSD (map (map f) ds) <= JSD ds /\
  (JSD (map (map f) ds) = JSD ds <->
   forall d x, In d ds -> In x d -> prob d x * mixprob (map (map f) ds) (f x) = mixprob ds x * prob (map f d) (f x)).
Proof.
  intros NE F. assert (NEf : map (map f) ds <> []) by (destruct ds; [congruence|discriminate]).
  assert (Ff : Forall (fun d => d <> []) (map (map f) ds)).
  { apply Forall_forall. intros d Hd. apply in_map_iff in Hd. destruct Hd as (c & <- & Hc). rewrite Forall_forall in F. specialize (F c Hc). destruct c; [congruence|discriminate]. }
  assert (NK : 0 < INR (length ds)) by (apply INR_pos; destruct ds; [congruence|simpl; lia]).
  rewrite (JSD_points ds NE F), (JSD_points _ NEf Ff), map_length, sumf_map.
  set (M := mixprob (map (map f) ds)). set (m := mixprob ds).
  set (a := fun d => sumf (fun x => ln (prob (map f d) (f x) / M (f x))) d / INR (length d)).
  set (c := fun d => sumf (fun x => ln (prob d x / m x)) d / INR (length d)).
  rewrite (sumf_ext (fun s => sumf (fun x => ln (prob (map f s) x / M x)) (map f s) / INR (length (map f s))) a).
  2:{ intros d _. unfold a. rewrite map_length, sumf_map. reflexivity. }
  fold c.
  assert (P : forall d, In d ds -> a d <= c d /\ (a d = c d <-> forall x, In x d -> prob d x * M (f x) = m x * prob (map f d) (f x))).
  { intros d Hd. rewrite Forall_forall in F. pose proof (F d Hd) as ND. assert (N : 0 < INR (length d)) by (apply INR_pos; destruct d; [congruence|simpl; lia]).
    destruct (coarse_points f d m M ND) as [L E].
    - intros x Hx. apply (mix_pos ds d); assumption.
    - intros x Hx. apply (mix_pos _ (map f d)); apply in_map; assumption.
    - intros x Hx. unfold M, m, mixprob. rewrite map_length, sumf_map.
      rewrite (sumf_ext _ (fun v => sumf (fun e => ind (eqb (f v) (f x)) * prob e v) ds / INR (length ds))) by (intros v _; rewrite sumf_scal; unfold Rdiv; ring).
      rewrite sumf_div. apply Rmult_le_compat_r; [left; apply Rinv_0_lt_compat; exact NK|].
      rewrite sumf_swap. apply sumf_le. intros e _. apply coarse_prob, NoDup_nodup.
    - unfold a, c. split.
      + apply Rmult_le_compat_r; [left; apply Rinv_0_lt_compat; exact N|exact L].
      + rewrite <- E. split; [|intros ->; reflexivity]. intros Q. apply (Rmult_eq_reg_r (/ INR (length d))); [exact Q|apply Rinv_neq_0_compat; lra]. }
  split.
  - apply Rmult_le_compat_r; [left; apply Rinv_0_lt_compat; exact NK|]. apply sumf_le. intros d Hd. apply P. exact Hd.
  - split.
    + intros Q d x Hd Hx. assert (Z0 : sumf (fun d => c d - a d) ds = 0).
      { rewrite sumf_minus. apply Rmult_eq_reg_r in Q; [lra|apply Rinv_neq_0_compat; lra]. }
      apply (proj1 (proj2 (P d Hd))); [|exact Hx].
      assert (c d - a d = 0); [|lra]. apply (sumf_zero_all (fun d => c d - a d) ds); [|exact Z0|exact Hd]. intros e He. pose proof (proj1 (P e He)). lra.
    + intros Q. f_equal. apply sumf_ext. intros d Hd. apply (proj2 (proj2 (P d Hd))). intros x Hx. apply Q; assumption.
Qed.

(** a function of the symbols keeps the entropy exactly when it is one-to-one on them *)
Lemma Ent_coarse {A B} `{EqDec A} `{EqDec B} (f : A -> B) (xs : list A) :
  Ent (map f xs) = Ent xs <-> (forall x y, In x xs -> In y xs -> f x = f y -> x = y).
Proof.
  split; [|apply Ent_map_inj]. intros E x y Hx Hy Exy.
  assert (C : Ent (combine (map f xs) xs) = Ent xs).
  { rewrite <- (Ent_map_inj (fun x => (f x, x)) xs) by (intros u v _ _ Q; congruence). f_equal. clear. induction xs as [|x xs IH]; [reflexivity|]. cbn [map combine]. rewrite IH. reflexivity. }
  rewrite <- E in C. apply Ent_determined in C; [|apply map_length].
  assert (I2 : forall z, In z xs -> In (f z, z) (combine (map f xs) xs)).
  { clear. intros z. induction xs as [|x xs IH]; [intros []|]. intros [->|Hz]; [left; reflexivity|right; apply IH; exact Hz]. }
  apply (C (f x) x y); [apply I2; exact Hx|rewrite Exy; apply I2; exact Hy].
Qed.
