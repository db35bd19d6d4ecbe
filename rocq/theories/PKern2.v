(** Proofs: invariances of box-kernel counts. *)
From Coq Require Import Reals Lra Lia List ZArith Arith Bool Permutation.
From Verif Require Import Res RSum Spec SpecBase SpecKern PKern.
Import ListNotations.
Local Open Scope R_scope.

Lemma perm_filter_len {A} (p : A -> bool) l l' : Permutation l l' -> length (filter p l) = length (filter p l').
Proof.
  induction 1; cbn; auto.
  - destruct (p x); cbn; lia.
  - destruct (p x), (p y); cbn; lia.
  - congruence.
Qed.

Lemma map_nth_seq {A B} (f : A -> B) (s : list A) d : map (fun t => f (nth t s d)) (seq 0 (length s)) = map f s.
Proof.
  induction s as [|x s IH]; [reflexivity|]. cbn [length seq map nth]. f_equal.
  rewrite <- seq_shift, map_map. exact IH.
Qed.

Lemma nth_map_lt {A B} (f : A -> B) l d d' t : (t < length l)%nat -> nth t (map f l) d' = f (nth t l d).
Proof. intros H. rewrite (nth_indep _ d' (f d)) by (rewrite map_length; exact H). apply map_nth. Qed.

Lemma nnear_reorder h n sigma vars t : Permutation sigma (seq 0 n) -> (t < n)%nat ->
  nnear h n (map (reorder sigma) vars) t = nnear h n vars (nth t sigma 0%nat).
Proof.
  intros P Ht. pose proof (Permutation_length P) as L. rewrite seq_length in L.
  unfold nnear.
  rewrite (filter_ext_in' _ (fun u => forallb (fun v => near h (nth (nth t sigma 0%nat) v []) (nth (nth u sigma 0%nat) v [])) vars)).
  - rewrite <- (filter_map_length (fun u => nth u sigma 0%nat)
                  (fun u => forallb (fun v => near h (nth (nth t sigma 0%nat) v []) (nth u v [])) vars)).
    rewrite <- L at 1. rewrite (map_nth_seq (fun u => u)), map_id. apply perm_filter_len. exact P.
  - intros u Hu. apply in_seq in Hu. clear -Ht Hu L.
    induction vars as [|v vars IH]; cbn [map forallb]; [reflexivity|]. rewrite IH. f_equal.
    unfold reorder. rewrite !(nth_map_lt _ sigma 0%nat) by lia. reflexivity.
Qed.

Lemma sumf_perm' {A} (f : A -> R) l l' : Permutation l l' -> sumf f l = sumf f l'.
Proof. induction 1; cbn; lra. Qed.

Lemma KH_reorder h n d sigma vars : Permutation sigma (seq 0 n) ->
  KH h n d (map (reorder sigma) vars) = KH h n d vars.
Proof.
  intros P. unfold KH. rewrite !mean_map. f_equal.
  pose proof (Permutation_length P) as L. rewrite seq_length in L.
  rewrite (sumf_ext _ (fun t => (fun u => - ln (kdensity h n d vars u)) (nth t sigma 0%nat))).
  - rewrite <- (sumf_map (fun t => nth t sigma 0%nat) (fun u => - ln (kdensity h n d vars u))).
    rewrite <- L at 1. rewrite (map_nth_seq (fun u => u)), map_id. apply sumf_perm'. exact P.
  - intros t Ht. apply in_seq in Ht. unfold kdensity. rewrite nnear_reorder by (auto; lia). reflexivity.
Qed.

Lemma KH_perm_vars h n d vars vars' : Permutation vars vars' -> KH h n d vars = KH h n d vars'.
Proof.
  intros P. unfold KH. f_equal. apply map_ext. intros t. unfold kdensity.
  rewrite (nnear_perm h n vars vars' t P). reflexivity.
Qed.

Lemma near_translate h c x y : (length x <= length c)%nat -> (length y <= length c)%nat ->
  near h (vadd c x) (vadd c y) = near h x y.
Proof.
  unfold near, vadd. revert x y. induction c as [|a c IH]; intros [|b x] [|b' y] Hx Hy; cbn in *; try reflexivity; try lia.
  rewrite IH by lia. replace (a + b - (a + b')) with (b - b') by ring. reflexivity.
Qed.

Lemma near_rescale h a x y : 0 < a -> near (a * h) (map (Rmult a) x) (map (Rmult a) y) = near h x y.
Proof.
  intros Ha. unfold near. revert y. induction x as [|b x IH]; intros [|b' y]; cbn in *; try reflexivity.
  rewrite IH. f_equal. replace (a * b - a * b') with (a * (b - b')) by ring.
  rewrite Rabs_mult, (Rabs_pos_eq a) by lra.
  destruct (Rle_dec _ _) as [X|X], (Rle_dec _ _) as [Y|Y]; try reflexivity; exfalso.
  - apply Y. apply (Rmult_le_reg_l a); [exact Ha|]. lra.
  - apply X. replace (a * h / 2) with (a * (h / 2)) by field. apply Rmult_le_compat_l; lra.
Qed.

(** per-variable maps of the points that preserve nearness preserve the counts *)
Lemma nnear_maps h h' n (vars : list (list (list R))) (gs : list (list R -> list R)) t :
  Forall2 (fun v g => length v = n /\
    forall x y, In x v -> In y v -> near h' (g x) (g y) = near h x y) vars gs -> (t < n)%nat ->
  nnear h' n (map (fun vg => map (snd vg) (fst vg)) (combine vars gs)) t = nnear h n vars t.
Proof.
  intros F Ht. unfold nnear. f_equal. apply filter_ext_in'. intros u Hu. apply in_seq in Hu.
  induction F as [|v g vars gs [L H] F IH]; cbn [combine map forallb fst snd]; [reflexivity|].
  rewrite IH. f_equal. rewrite !(nth_map_lt g v []) by lia. apply H; apply nth_In; lia.
Qed.

Lemma KH_maps h n d vars gs :
  Forall2 (fun v g => length v = n /\
    forall x y, In x v -> In y v -> near h (g x) (g y) = near h x y) vars gs ->
  KH h n d (map (fun vg => map (snd vg) (fst vg)) (combine vars gs)) = KH h n d vars.
Proof.
  intros F. unfold KH. f_equal. apply map_ext_in. intros t Ht. apply in_seq in Ht. unfold kdensity.
  rewrite (nnear_maps h h) by (auto; lia). reflexivity.
Qed.

Lemma map_combine_map {A B C} (f : A -> B -> C) (vars : list A) (g : A -> B) :
  map (fun vg => f (fst vg) (snd vg)) (combine vars (map g vars)) = map (fun v => f v (g v)) vars.
Proof. induction vars; cbn; [reflexivity|]. f_equal. assumption. Qed.

(** the variables moved by one vector each *)
Lemma KH_translate h n d (vars : list (list (list R))) (cs : list (list R)) :
  Forall2 (fun v c => length v = n /\ Forall (fun p => length p = length c) v) vars cs ->
  KH h n d (map (fun vc => translate (snd vc) (fst vc)) (combine vars cs)) = KH h n d vars.
Proof.
  intros F.
  replace (map (fun vc => translate (snd vc) (fst vc)) (combine vars cs))
    with (map (fun vg => map (snd vg) (fst vg)) (combine vars (map vadd cs))).
  - apply KH_maps. induction F as [|v c vars cs [L H] F IH]; cbn; constructor; [|exact IH].
    split; [exact L|]. intros x y Hx Hy. rewrite Forall_forall in H. apply near_translate; rewrite H by assumption; lia.
  - clear F. revert cs. induction vars as [|v vars IH]; intros [|c cs]; cbn; try reflexivity. f_equal. apply IH.
Qed.

Lemma kdensity_rescale h n d a vars t : 0 < a -> 0 < h -> Forall (fun v => length v = n) vars -> (t < n)%nat ->
  kdensity (a * h) n d (map (rescale a) vars) t = kdensity h n d vars t / a ^ d.
Proof.
  intros Ha Hh F Ht. unfold kdensity.
  replace (nnear (a * h) n (map (rescale a) vars) t) with (nnear h n vars t).
  - rewrite Rpow_mult_distr. field.
    repeat split; try (apply pow_nonzero; lra). apply not_0_INR. lia.
  - symmetry. unfold nnear. f_equal. apply filter_ext_in'. intros u Hu. apply in_seq in Hu.
    induction F as [|v vars L F IH]; cbn [map forallb]; [reflexivity|].
    rewrite IH. f_equal. unfold rescale. rewrite !(nth_map_lt _ v []) by lia. apply near_rescale. exact Ha.
Qed.

Lemma KH_rescale h n d a vars : 0 < a -> 0 < h -> (0 < n)%nat -> Forall (fun v => length v = n) vars ->
  KH (a * h) n d (map (rescale a) vars) = KH h n d vars + INR d * ln a.
Proof.
  intros Ha Hh Hn F. unfold KH. rewrite !mean_map.
  rewrite (sumf_ext _ (fun t => - ln (kdensity h n d vars t) + INR d * ln a)).
  - rewrite sumf_plus, sumf_const, seq_length. field. apply not_0_INR. lia.
  - intros t Ht. apply in_seq in Ht. rewrite kdensity_rescale by (auto; lia).
    unfold Rdiv. rewrite ln_mult, ln_Rinv, ln_pow; [lra| | | |].
    + exact Ha.
    + apply pow_lt; exact Ha.
    + apply kdensity_pos; [exact Hh|lia].
    + apply Rinv_0_lt_compat. apply pow_lt. exact Ha.
Qed.

Lemma KH_bounds h n d vars : 0 < h -> (0 < n)%nat ->
  INR d * ln h <= KH h n d vars <= ln (INR n) + INR d * ln h.
Proof.
  intros Hh Hn. assert (Hs : seq 0 n <> []) by (destruct n; [lia|discriminate]).
  assert (HN : 0 < INR n) by (apply lt_0_INR; lia). pose proof (pow_lt h d Hh) as Hd.
  unfold KH. split; [apply mean_ge|apply mean_le]; auto; intros t Ht; apply in_seq in Ht;
    pose proof (kdensity_bounds h n d vars t Hh ltac:(lia)) as [B1 B2];
    pose proof (kdensity_pos h n d vars t Hh ltac:(lia)) as B0.
  - assert (ln (kdensity h n d vars t) <= ln (1 / h ^ d)) by (destruct B2 as [B2| ->]; [left; apply ln_increasing; lra|lra]).
    unfold Rdiv in H. rewrite Rmult_1_l, ln_Rinv, ln_pow in H by assumption. lra.
  - assert (ln (1 / (INR n * h ^ d)) <= ln (kdensity h n d vars t)).
    { destruct B1 as [B1| ->]; [left; apply ln_increasing; [|exact B1]|lra]. apply Rdiv_lt_0_compat; [lra|nra]. }
    unfold Rdiv in H. rewrite Rmult_1_l, ln_Rinv, ln_mult, ln_pow in H; try assumption; [lra|nra].
Qed.

(** adding variables never lowers the number of bins *)
Lemma KH_mono h n d d' vars vars' : 0 < h -> (0 < n)%nat -> incl vars vars' ->
  KH h n d vars - INR d * ln h <= KH h n d' vars' - INR d' * ln h.
Proof.
  intros Hh Hn I. assert (Hs : seq 0 n <> []) by (destruct n; [lia|discriminate]).
  assert (HN : 0 < INR n) by (apply lt_0_INR; lia).
  unfold KH. rewrite !mean_map, seq_length.
  assert (forall d vars, sumf (fun t => - ln (kdensity h n d vars t)) (seq 0 n) / INR n - INR d * ln h
     = sumf (fun t => - ln (INR (nnear h n vars t) / INR n)) (seq 0 n) / INR n) as E.
  { intros d0 vs. rewrite (sumf_ext _ (fun t => - ln (INR (nnear h n vs t) / INR n) + INR d0 * ln h)).
    - rewrite sumf_plus, sumf_const, seq_length. field. lra.
    - intros t Ht. apply in_seq in Ht. unfold kdensity.
      pose proof (le_INR _ _ (nnear_pos h n vs t Hh ltac:(lia))) as P. cbn [INR] in P.
      unfold Rdiv at 1. rewrite ln_mult, ln_Rinv, ln_pow; [lra|exact Hh|apply pow_lt; exact Hh| |].
      + apply Rdiv_lt_0_compat; lra.
      + apply Rinv_0_lt_compat. apply pow_lt. exact Hh. }
  rewrite !E. unfold Rdiv at 1 3. apply Rmult_le_compat_r; [left; apply Rinv_0_lt_compat; exact HN|].
  apply sumf_le. intros t Ht. apply in_seq in Ht.
  pose proof (le_INR _ _ (nnear_incl h n vars' vars t I)) as P.
  pose proof (le_INR _ _ (nnear_pos h n vars' t Hh ltac:(lia))) as P1. cbn [INR] in P1.
  apply Ropp_le_contravar. destruct P as [P| ->]; [|lra]. left. apply ln_increasing.
  - apply Rdiv_lt_0_compat; lra.
  - unfold Rdiv. apply Rmult_lt_compat_r; [apply Rinv_0_lt_compat; exact HN|exact P].
Qed.
