(** Lemmas on [moved]. *)
From Coq Require Import Reals Lra Lia List ZArith Arith Bool Permutation.
From Verif Require Import Res RSum Spec SpecTE SpecTEc SpecBase SpecGamma MBase PBase MTE PTE2 MPct MNorm MEst PEst MCont SpecKern PKern PKern2 PKern3 PTEc MKnn SpecKnn PKnn PKnn2 SpecUnits.
Import ListNotations.
Local Open Scope R_scope.

Lemma vadd_nil c : vadd c [] = [].
Proof. unfold vadd. destruct c; reflexivity. Qed.
Lemma move_nil a c : move_pt a c [] = [].
Proof. apply vadd_nil. Qed.
Lemma move_length a c x : length x = length c -> length (move_pt a c x) = length c.
Proof. intros H. unfold move_pt, vadd. rewrite map_length, combine_length, map_length. lia. Qed.
Lemma moved_nth a c v t : nth t (moved a c v) [] = move_pt a c (nth t v []).
Proof. unfold moved. rewrite <- (move_nil a c) at 1. apply map_nth. Qed.
Lemma moved_table n d a c v : table n d v -> length c = d -> table n d (moved a c v).
Proof.
  intros [L F] Hc. split; [unfold moved; rewrite map_length; exact L|].
  apply Forall_forall. intros y Hy. apply in_map_iff in Hy as (x & <- & Hx). rewrite Forall_forall in F.
  rewrite move_length; [exact Hc|rewrite (F x Hx); lia].
Qed.

Lemma vsub_move a c x y : length x = length c -> length y = length c ->
  vsub (move_pt a c x) (move_pt a c y) = map (Rmult a) (vsub x y).
Proof.
  unfold move_pt, vadd, vsub. revert x y. induction c as [|e c IH]; intros [|p x] [|q y] Hx Hy; cbn in *; try lia; try reflexivity.
  rewrite IH by lia. f_equal. ring.
Qed.
Lemma norm_scale_abs p a v : norm_ok p -> norm p (map (Rmult a) v) = Rabs a * norm p v.
Proof.
  intros Hp. rewrite <- (norm_scale p (Rabs a) v Hp (Rabs_pos a)). unfold norm. destruct p as [p|].
  - f_equal. f_equal. rewrite !map_map. apply map_ext. intros x. rewrite !Rabs_mult, Rabs_Rabsolu. reflexivity.
  - induction v as [|x v IH]; cbn; [reflexivity|]. rewrite IH, !Rabs_mult, Rabs_Rabsolu. reflexivity.
Qed.
Lemma dst_move p a c x y : norm_ok p -> length x = length c -> length y = length c ->
  dst p (move_pt a c x) (move_pt a c y) = Rabs a * dst p x y.
Proof. intros Hp Hx Hy. unfold dst. rewrite vsub_move by assumption. apply norm_scale_abs. exact Hp. Qed.
Lemma dst_moved p n d a c v t u : norm_ok p -> table n d v -> length c = d -> (t < n)%nat -> (u < n)%nat ->
  dst p (nth t (moved a c v) []) (nth u (moved a c v) []) = Rabs a * dst p (nth t v []) (nth u v []).
Proof.
  intros Hp [L F] Hc Ht Hu. rewrite !moved_nth. rewrite Forall_forall in F.
  apply dst_move; [exact Hp| |]; rewrite F by (apply nth_In; lia); lia.
Qed.

Lemma near_move h a c x y : a <> 0 -> length x = length c -> length y = length c ->
  near (Rabs a * h) (move_pt a c x) (move_pt a c y) = near h x y.
Proof.
  intros Ha. pose proof (Rabs_pos_lt a Ha) as Pa. unfold near, move_pt, vadd. revert x y.
  induction c as [|e c IH]; intros [|p x] [|q y] Hx Hy; cbn in *; try lia; try reflexivity.
  rewrite IH by lia. f_equal. replace (e + a * p - (e + a * q)) with (a * (p - q)) by ring. rewrite Rabs_mult.
  destruct (Rle_dec _ _) as [X|X], (Rle_dec _ _) as [Y|Y]; try reflexivity; exfalso.
  - apply Y. apply (Rmult_le_reg_l (Rabs a)); [exact Pa|]. lra.
  - apply X. replace (Rabs a * h / 2) with (Rabs a * (h / 2)) by field. apply Rmult_le_compat_l; lra.
Qed.

(** variables moved by one vector each, all with the same factor *)
Definition moveds (a : R) (n : nat) (v v' : list (list R)) : Prop :=
  exists d c, table n d v /\ length c = d /\ v' = moved a c v.
Lemma nnear_moved h n a vars vars' t : a <> 0 -> Forall2 (moveds a n) vars vars' -> (t < n)%nat ->
  nnear (Rabs a * h) n vars' t = nnear h n vars t.
Proof.
  intros Ha F Ht. unfold nnear. f_equal. apply filter_ext_in'. intros u Hu. apply in_seq in Hu.
  induction F as [|v v' vars vars' (d & c & [L T] & Hc & ->) F IH]; cbn [forallb]; [reflexivity|].
  rewrite IH. f_equal. rewrite !moved_nth. rewrite Forall_forall in T.
  apply near_move; [exact Ha| |]; rewrite T by (apply nth_In; lia); lia.
Qed.
Lemma KH_moved h n d a vars vars' : a <> 0 -> 0 < h -> (0 < n)%nat -> Forall2 (moveds a n) vars vars' ->
  KH (Rabs a * h) n d vars' = KH h n d vars + INR d * ln (Rabs a).
Proof.
  intros Ha Hh Hn F. pose proof (Rabs_pos_lt a Ha) as Pa. unfold KH. rewrite !mean_map.
  rewrite (sumf_ext (fun t => - ln (kdensity (Rabs a * h) n d vars' t)) (fun t => - ln (kdensity h n d vars t) + INR d * ln (Rabs a))).
  - rewrite sumf_plus, sumf_const, seq_length. field. apply not_0_INR. lia.
  - intros t Ht. apply in_seq in Ht.
    assert (KD : kdensity (Rabs a * h) n d vars' t = kdensity h n d vars t / Rabs a ^ d).
    { unfold kdensity. rewrite (nnear_moved h n a vars vars' t Ha F) by lia. rewrite Rpow_mult_distr. field.
      repeat split; try (apply pow_nonzero; lra). apply not_0_INR. lia. }
    rewrite KD. unfold Rdiv. rewrite ln_mult, ln_Rinv, ln_pow; [lra| | | |].
    + exact Pa.
    + apply pow_lt; exact Pa.
    + apply kdensity_pos; [exact Hh|lia].
    + apply Rinv_0_lt_compat. apply pow_lt. exact Pa.
Qed.

(** the embedding of a moved series is the moved embedding *)
Fixpoint rep {A} (k : nat) (c : list A) : list A := match k with 0%nat => [] | S k => c ++ rep k c end.
Lemma rep_length {A} k (c : list A) : length (rep k c) = (k * length c)%nat.
Proof. induction k; cbn; [reflexivity|]. rewrite app_length. lia. Qed.
Lemma move_app a c x c' x' : length x = length c -> move_pt a (c ++ c') (x ++ x') = move_pt a c x ++ move_pt a c' x'.
Proof.
  unfold move_pt, vadd. revert x. induction c as [|e c IH]; intros [|p x] H; cbn in *; try lia; [reflexivity|].
  rewrite IH by lia. reflexivity.
Qed.
Lemma move_concat a c xs : Forall (fun x => length x = length c) xs ->
  concat (map (move_pt a c) xs) = move_pt a (rep (length xs) c) (concat xs).
Proof.
  induction 1 as [|x xs H F IH]; cbn [map concat length rep]; [symmetry; apply move_nil|]. rewrite move_app by exact H. rewrite IH. reflexivity.
Qed.
Lemma past_moved n d a c rows s len ts : table n d rows -> length c = d -> (1 <= s)%nat -> (forall b, In b ts -> (len * s <= b < n)%nat) ->
  past_pts (moved a c rows) s len ts = moved a (rep len c) (past_pts rows s len ts).
Proof.
  intros [L T] Hc Hs HT. unfold past_pts, pasts, moved at 2. rewrite !map_map. apply map_ext_in. intros b Hb. specialize (HT b Hb).
  rewrite Forall_forall in T. replace (past [] (moved a c rows) s len b) with (map (move_pt a c) (past [] rows s len b)).
  - rewrite move_concat; [unfold past; rewrite map_length, seq_length; reflexivity|].
    apply Forall_forall. intros x Hx. unfold past in Hx. apply in_map_iff in Hx as (j & <- & Hj). apply in_seq in Hj.
    rewrite T; [lia|]. apply nth_In. nia.
  - unfold past. rewrite map_map. apply map_ext. intros j. symmetry. apply moved_nth.
Qed.
Lemma present_moved a c rows ts : present_pts (moved a c rows) ts = moved a c (present_pts rows ts).
Proof. unfold present_pts, presents, moved at 2. rewrite map_map. apply map_ext. intros b. apply moved_nth. Qed.
Lemma rnd_moved a c rnd sh : rnd_rows rnd (moved a c sh) = moved a c (rnd_rows rnd sh).
Proof.
  destruct rnd; cbn [rnd_rows]; try reflexivity; unfold moved at 2; rewrite map_map; apply map_ext; intros j; apply moved_nth.
Qed.
(** one-dimensional series *)
Lemma moved_F1 a c xs : rows2d (F1 (map (fun x => a * x + c) xs)) = moved a [c] (rows2d (F1 xs)).
Proof. cbn [rows2d]. unfold moved. rewrite !map_map. apply map_ext. intros x. cbn. f_equal. ring. Qed.
