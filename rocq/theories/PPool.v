(** Proofs: entropy of pooled samples. *)
From Coq Require Import Reals Lra Lia List ZArith Arith Bool Permutation.
From Verif Require Import Res RSum Spec SpecBase SpecDiv SpecPool Info Info2 Gibbs PBase PEst4 PDiv PDiv2 PStab.
Import ListNotations.
Local Open Scope R_scope.

Section Points.
Context {A : Type} `{EqDec A}.

Lemma count_pos_in (l : list A) x : In x l -> 0 < INR (count l x).
Proof. intros I0. apply INR_pos. unfold count. apply count_occ_In. exact I0. Qed.

(** the entropy as a sum over the sample points *)
Lemma Ent_points (xs : list A) :
  INR (length xs) * Ent xs = sumf (fun x => ln (INR (length xs)) - ln (INR (count xs x))) xs.
Proof.
  destruct xs as [|x0 r]; [simpl; ring|]. set (xs := x0 :: r).
  assert (NE : xs <> []) by discriminate. assert (N : 0 < INR (length xs)) by (apply INR_pos; simpl; lia).
  rewrite <- (map_id xs) at 2. rewrite (hs_eq_Ent xs (fun x => x) NE). unfold hs.
  replace (INR (length xs) * - (sumf (fun s => ln (cnt xs (fun x => x) s / INR (length xs))) xs / INR (length xs)))
    with (- sumf (fun s => ln (cnt xs (fun x => x) s / INR (length xs))) xs) by (field; lra).
  rewrite <- sumf_opp. apply sumf_ext. intros x Hx. rewrite cnt_count, map_id.
  rewrite ln_div by (try apply count_pos_in; assumption). ring.
Qed.

Lemma count_app (l m : list A) v : count (l ++ m) v = (count l v + count m v)%nat.
Proof. unfold count. apply count_occ_app. Qed.
Lemma count_notin (l : list A) v : ~ In v l -> count l v = 0%nat.
Proof. unfold count. apply count_occ_not_In. Qed.

(** a sum over the points of disjoint blocks *)
Lemma blocks (g : nat -> R) (Bs : list (list A)) : disjoint_alphabets Bs ->
  sumf (fun x => g (count (concat Bs) x)) (concat Bs) = sumf (fun B => sumf (fun x => g (count B x)) B) Bs.
Proof.
  intros D. induction D as [|B r D1 D2 IH]; [reflexivity|]. cbn [concat sumf]. rewrite sumf_app, <- IH. f_equal.
  - apply sumf_ext. intros x Hx. rewrite count_app, (count_notin (concat r)), Nat.add_0_r; [reflexivity|].
    intros I0. apply in_concat in I0. destruct I0 as (e & He & Hv). rewrite Forall_forall in D1. exact (D1 e He x Hx Hv).
  - apply sumf_ext. intros x Hx. rewrite count_app, (count_notin B); [reflexivity|].
    intros I0. apply in_concat in Hx. destruct Hx as (e & He & Hv). rewrite Forall_forall in D1. exact (D1 e He x I0 Hv).
Qed.

(** grouping: the entropy of disjoint blocks *)
Lemma Ent_blocks (Bs : list (list A)) : disjoint_alphabets Bs ->
  INR (length (concat Bs)) * Ent (concat Bs) =
  sumf (fun B => INR (length B) * (ln (INR (length (concat Bs))) - ln (INR (length B)))) Bs + sumf (fun B => INR (length B) * Ent B) Bs.
Proof.
  intros D. rewrite Ent_points. set (N := INR (length (concat Bs))).
  rewrite (blocks (fun c => ln N - ln (INR c)) Bs D), <- sumf_plus. apply sumf_ext. intros B _.
  rewrite Ent_points, !sumf_minus, !sumf_const. ring.
Qed.

(** pooling: the gain is the average divergence from the pooled distribution *)
Lemma length_concat_sum (ds : list (list A)) : INR (length (concat ds)) = sumf (fun d => INR (length d)) ds.
Proof. induction ds as [|d r IH]; [reflexivity|]. cbn [concat sumf]. rewrite app_length, plus_INR, IH. reflexivity. Qed.

Lemma sumf_concat (f : A -> R) (ds : list (list A)) : sumf f (concat ds) = sumf (fun d => sumf f d) ds.
Proof. induction ds as [|d r IH]; [reflexivity|]. cbn [concat sumf]. rewrite sumf_app, IH. reflexivity. Qed.

Lemma KL_points (ps qs : list A) : ps <> [] -> incl ps qs ->
  INR (length ps) * KL ps qs = sumf (fun x => ln (prob ps x / prob qs x)) ps.
Proof.
  intros NE I0. assert (N : 0 < INR (length ps)) by (apply INR_pos; destruct ps; [congruence|simpl; lia]).
  transitivity (sumf (fun s => (fun v => ln (prob ps v / prob qs v)) ((fun x : A => x) s)) ps); [|reflexivity].
  rewrite <- (group ps (fun x => x) (distinct ps) (fun v => ln (prob ps v / prob qs v))).
  - unfold KL. rewrite <- sumf_scal. apply sumf_ext. intros v _. rewrite cnt_count, map_id. unfold prob at 1. field. lra.
  - apply NoDup_nodup.
  - intros s Hs. apply nodup_In. exact Hs.
Qed.

Lemma pool_KL (ds : list (list A)) : Forall (fun d => d <> []) ds ->
  INR (length (concat ds)) * Ent (concat ds) - sumf (fun d => INR (length d) * Ent d) ds
  = sumf (fun d => INR (length d) * KL d (concat ds)) ds.
Proof.
  intros F. rewrite Ent_points, sumf_concat, <- sumf_minus. apply sumf_ext. intros d Hd. rewrite Forall_forall in F.
  assert (I0 : incl d (concat ds)) by (intros v Hv; apply in_concat; exists d; split; assumption).
  rewrite (KL_points d (concat ds) (F d Hd) I0), Ent_points, <- sumf_minus. apply sumf_ext. intros x Hx.
  pose proof (count_pos_in d x Hx) as P1. pose proof (count_pos_in (concat ds) x (I0 x Hx)) as P2.
  assert (N1 : 0 < INR (length d)) by (apply INR_pos; destruct d; [destruct Hx|simpl; lia]).
  assert (N2 : 0 < INR (length (concat ds))) by (apply INR_pos; specialize (I0 x Hx); destruct (concat ds); [destruct I0|simpl; lia]).
  unfold prob. rewrite ln_div by (apply Rdiv_lt_0_compat; assumption). rewrite !ln_div by assumption. ring.
Qed.

Lemma KL_nonneg (ps qs : list A) : ps <> [] -> incl ps qs -> 0 <= KL ps qs.
Proof.
  intros NP I0. assert (NQ : qs <> []) by (destruct ps as [|x ps]; [congruence|intros ->; destruct (I0 x (or_introl eq_refl))]).
  apply (PKL_nonneg (distinct ps) (distinct qs) (prob ps) (prob qs)); [apply prob_pmf_distinct; exact NP|apply prob_pmf_distinct; exact NQ|].
  intros v Hv. apply nodup_In. apply I0. apply (nodup_In eq_dec). exact Hv.
Qed.
Lemma KL_zero_iff (ps qs : list A) : ps <> [] -> incl ps qs -> KL ps qs = 0 <-> forall v, prob ps v = prob qs v.
Proof.
  intros NP I0. assert (NQ : qs <> []) by (destruct ps as [|x ps]; [congruence|intros ->; destruct (I0 x (or_introl eq_refl))]).
  apply (PKL_zero (distinct ps) (distinct qs) (prob ps) (prob qs)); [apply prob_pmf_distinct; exact NP|apply prob_pmf_distinct; exact NQ|].
  intros v Hv. apply nodup_In. apply I0. apply (nodup_In eq_dec). exact Hv.
Qed.
End Points.

(** labelled pool *)
Lemma labels_length {A} k (ds : list (list A)) : length (labels k ds) = length (concat ds).
Proof. revert k. induction ds as [|d r IH]; intros k; [reflexivity|]. cbn [labels concat]. rewrite !app_length, repeat_length, IH. reflexivity. Qed.

Fixpoint pool {A} (k : Z) (ds : list (list A)) : list (list (Z * A)) :=
  match ds with [] => [] | d :: r => map (Datatypes.pair k) d :: pool (k + 1) r end.
Fixpoint lblocks {A} (k : Z) (ds : list (list A)) : list (list Z) :=
  match ds with [] => [] | d :: r => repeat k (length d) :: lblocks (k + 1) r end.

Lemma combine_app2 {A B} (a c : list A) (b d : list B) : length a = length b -> combine (a ++ c) (b ++ d) = combine a b ++ combine c d.
Proof.
  revert b. induction a as [|x a IH]; intros [|y b] L; try discriminate; [reflexivity|]. cbn [app combine]. rewrite IH by (simpl in L; lia). reflexivity.
Qed.
Lemma combine_repeat {A} (k : Z) (d : list A) : combine (repeat k (length d)) d = map (Datatypes.pair k) d.
Proof. induction d as [|x d IH]; [reflexivity|]. cbn [length repeat combine map]. rewrite IH. reflexivity. Qed.
Lemma pool_combine {A} k (ds : list (list A)) : combine (labels k ds) (concat ds) = concat (pool k ds).
Proof.
  revert k. induction ds as [|d r IH]; intros k; [reflexivity|]. cbn [labels concat pool].
  rewrite combine_app2 by apply repeat_length. rewrite combine_repeat, IH. reflexivity.
Qed.
Lemma labels_blocks {A} k (ds : list (list A)) : labels k ds = concat (lblocks k ds).
Proof. revert k. induction ds as [|d r IH]; intros k; [reflexivity|]. cbn [labels concat lblocks]. rewrite IH. reflexivity. Qed.

Lemma pool_ge {A} k (ds : list (list A)) B p : In B (pool k ds) -> In p B -> (k <= fst p)%Z.
Proof.
  revert k. induction ds as [|d r IH]; intros k HB Hp; [destruct HB|]. destruct HB as [<-|HB].
  - apply in_map_iff in Hp. destruct Hp as (x & <- & _). cbn [fst]. lia.
  - pose proof (IH (k + 1)%Z HB Hp). lia.
Qed.
Lemma lblocks_ge {A} k (ds : list (list A)) B p : In B (lblocks k ds) -> In p B -> (k <= p)%Z.
Proof.
  revert k. induction ds as [|d r IH]; intros k HB Hp; [destruct HB|]. destruct HB as [<-|HB].
  - apply repeat_spec in Hp. lia.
  - pose proof (IH (k + 1)%Z HB Hp). lia.
Qed.
Lemma pool_disjoint {A} k (ds : list (list A)) : disjoint_alphabets (pool k ds).
Proof.
  revert k. induction ds as [|d r IH]; intros k; [constructor|]. constructor; [|apply IH].
  apply Forall_forall. intros e He v Hv Hv'. apply in_map_iff in Hv. destruct Hv as (x & <- & _). pose proof (pool_ge _ _ _ _ He Hv'). cbn [fst] in *. lia.
Qed.
Lemma lblocks_disjoint {A} k (ds : list (list A)) : disjoint_alphabets (lblocks k ds).
Proof.
  revert k. induction ds as [|d r IH]; intros k; [constructor|]. constructor; [|apply IH].
  apply Forall_forall. intros e He v Hv Hv'. apply repeat_spec in Hv. pose proof (lblocks_ge _ _ _ _ He Hv'). lia.
Qed.
Lemma Ent_repeat (k : Z) n : Ent (repeat k n) = 0.
Proof.
  destruct n; [apply Ent_nil|]. apply Ent_zero_iff; [discriminate|]. intros x y Hx Hy. apply repeat_spec in Hx, Hy. congruence.
Qed.
Lemma sumf_lblocks {A} k (ds : list (list A)) (f : nat -> R) : sumf (fun B => f (length B)) (lblocks k ds) = sumf (fun d => f (length d)) ds.
Proof. revert k. induction ds as [|d r IH]; intros k; [reflexivity|]. cbn [lblocks sumf]. rewrite repeat_length, IH. reflexivity. Qed.
Lemma sumf_pool {A} k (ds : list (list A)) (f : nat -> R) : sumf (fun B => f (length B)) (pool k ds) = sumf (fun d => f (length d)) ds.
Proof. revert k. induction ds as [|d r IH]; intros k; [reflexivity|]. cbn [pool sumf]. rewrite map_length, IH. reflexivity. Qed.
Lemma Ent_pool {A} `{EqDec A} k (ds : list (list A)) : sumf (fun B => INR (length B) * Ent B) (pool k ds) = sumf (fun d => INR (length d) * Ent d) ds.
Proof.
  revert k. induction ds as [|d r IH]; intros k; [reflexivity|]. cbn [pool sumf]. rewrite map_length, IH. f_equal. f_equal.
  apply Ent_map_inj. intros x y _ _ E. congruence.
Qed.
Lemma Ent_lblocks {A} k (ds : list (list A)) : sumf (fun B => INR (length B) * Ent B) (lblocks k ds) = 0.
Proof. revert k. induction ds as [|d r IH]; intros k; [reflexivity|]. cbn [lblocks sumf]. rewrite Ent_repeat, IH. ring. Qed.

(** label entropy *)
Lemma Ent_labels {A} k (ds : list (list A)) :
  INR (length (concat ds)) * Ent (labels k ds) = sumf (fun d => INR (length d) * (ln (INR (length (concat ds))) - ln (INR (length d)))) ds.
Proof.
  rewrite <- (labels_length k ds), labels_blocks, (Ent_blocks _ (lblocks_disjoint k ds)), Ent_lblocks, Rplus_0_r.
  apply (sumf_lblocks k ds (fun n => INR n * (ln (INR (length (concat (lblocks k ds)))) - ln (INR n)))).
Qed.

(** chain rule with the label *)
Lemma Ent_label_pool {A} `{EqDec A} k (ds : list (list A)) :
  INR (length (concat ds)) * Ent (combine (labels k ds) (concat ds)) =
  INR (length (concat ds)) * Ent (labels k ds) + sumf (fun d => INR (length d) * Ent d) ds.
Proof.
  assert (L : length (concat (pool k ds)) = length (concat ds)).
  { rewrite <- (pool_combine k ds), combine_length, labels_length. lia. }
  rewrite pool_combine, <- L, (Ent_blocks _ (pool_disjoint k ds)), Ent_pool. f_equal. rewrite L, Ent_labels.
  apply (sumf_pool k ds (fun n => INR n * (ln (INR (length (concat ds))) - ln (INR n)))).
Qed.

(** ** A sequence decides another one exactly when pairing adds no entropy *)
Section Det.
Context {A B : Type} `{EqDec A} `{EqDec B}.
Lemma count_fst_ge (xs : list A) (ys : list B) x y : (count (combine xs ys) (x, y) <= count xs x)%nat.
Proof.
  revert ys. induction xs as [|a xs IH]; intros [|b ys]; try (simpl; lia). cbn [combine].
  specialize (IH ys). unfold count in *. cbn [count_occ].
  destruct (eq_dec (a, b) (x, y)) as [E|E], (eq_dec a x) as [E1|E1]; try lia. congruence.
Qed.
Lemma count_fst_eq (xs : list A) (ys : list B) x y : length xs = length ys -> In (x, y) (combine xs ys) ->
  (count (combine xs ys) (x, y) = count xs x <-> forall y', In (x, y') (combine xs ys) -> y' = y).
Proof.
  intros L _. revert ys L. induction xs as [|a xs IH]; intros [|b ys] L; try discriminate.
  - split; [intros _ y' []|reflexivity].
  - cbn [combine]. specialize (IH ys ltac:(simpl in L; lia)). pose proof (count_fst_ge xs ys x y) as G. unfold count in *. cbn [count_occ].
    destruct (eq_dec (a, b) (x, y)) as [E|E], (eq_dec a x) as [E1|E1].
    + split.
      * intros Q y' [Q'|Q']; [congruence|]. apply (proj1 IH); [lia|exact Q'].
      * intros Q. f_equal. apply (proj2 IH). intros y' Hy. apply Q. right. exact Hy.
    + congruence.
    + split; [intros Q; lia|]. intros Q. exfalso. apply E. subst a. f_equal. apply Q. left. reflexivity.
    + split.
      * intros Q y' [Q'|Q']; [congruence|]. apply (proj1 IH); [exact Q|exact Q'].
      * intros Q. apply (proj2 IH). intros y' Hy. apply Q. right. exact Hy.
Qed.
Lemma Ent_pair_points (xs : list A) (ys : list B) : length xs = length ys ->
  INR (length xs) * (Ent (combine xs ys) - Ent xs) =
  sumf (fun p => ln (INR (count xs (fst p))) - ln (INR (count (combine xs ys) p))) (combine xs ys).
Proof.
  intros L. assert (LC : length (combine xs ys) = length xs) by (rewrite combine_length; lia).
  assert (E : sumf (fun x => ln (INR (length xs)) - ln (INR (count xs x))) xs = sumf (fun p => ln (INR (length xs)) - ln (INR (count xs (fst p)))) (combine xs ys)).
  { rewrite <- (sumf_map fst (fun x => ln (INR (length xs)) - ln (INR (count xs x)))). f_equal.
    clear -L. revert ys L. induction xs as [|a xs IH]; intros [|b ys] L; try discriminate; [reflexivity|]. cbn [combine map fst]. f_equal. apply IH. simpl in L. lia. }
  rewrite Rmult_minus_distr_l. rewrite <- LC at 1. rewrite !Ent_points, E, LC, <- sumf_minus. apply sumf_ext. intros p _. ring.
Qed.
Lemma pair_term (xs : list A) (ys : list B) p : In p (combine xs ys) -> 0 <= ln (INR (count xs (fst p))) - ln (INR (count (combine xs ys) p)).
Proof.
  intros Hp. pose proof (count_pos_in _ _ Hp). destruct p as [x y]. cbn [fst]. pose proof (le_INR _ _ (count_fst_ge xs ys x y)).
  assert (ln (INR (count (combine xs ys) (x, y))) <= ln (INR (count xs x))) by (apply ln_monotone; assumption). lra.
Qed.
Lemma Ent_determined (xs : list A) (ys : list B) : length xs = length ys ->
  Ent (combine xs ys) = Ent xs <-> determines xs ys.
Proof.
  intros L. destruct xs as [|x0 r].
  { destruct ys; [|discriminate]. split; [intros _ x y y' []|intros _; rewrite !Ent_nil; reflexivity]. }
  set (xs := x0 :: r) in *. assert (N : 0 < INR (length xs)) by (apply INR_pos; simpl; lia).
  pose proof (Ent_pair_points xs ys L) as P. split.
  - intros E x y y' I1 I2. rewrite E, Rminus_diag_eq, Rmult_0_r in P by reflexivity. symmetry in P.
    pose proof (sumf_zero_all _ _ (pair_term xs ys) P (x, y) I1) as Z. cbn [fst] in Z.
    assert (C : count (combine xs ys) (x, y) = count xs x).
    { apply INR_eq. apply ln_inv; [apply count_pos_in; exact I1|apply count_pos_in; apply (in_combine_l xs ys x y); exact I1|]. lra. }
    symmetry. apply (proj1 (count_fst_eq xs ys x y L I1) C). exact I2.
  - intros D. assert (Z : sumf (fun p => ln (INR (count xs (fst p))) - ln (INR (count (combine xs ys) p))) (combine xs ys) = 0).
    { rewrite (sumf_ext _ (fun _ => 0)); [apply sumf_zero|]. intros [x y] I1. cbn [fst].
      rewrite (proj2 (count_fst_eq xs ys x y L I1)); [lra|]. intros y' I2. symmetry. exact (D x y y' I1 I2). }
    rewrite Z in P. apply Rmult_integral in P. destruct P as [P|P]; lra.
Qed.
End Det.
