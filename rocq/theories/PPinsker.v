(** Proofs: Pinsker's inequality. *)
From Coq Require Import Reals Lra Lia List ZArith Arith Bool Permutation.
From Verif Require Import Res RSum Spec SpecBase SpecDiv SpecPool SpecPinsker Info Info2 Gibbs PBase PEst4 PDiv PDiv2 PStab PropsDiv PPool PCoarse.
Import ListNotations.
Local Open Scope R_scope.

(** ** the binary case *)
Lemma mvt_mono (g g' : R -> R) a c : a <= c -> (forall x, a <= x <= c -> derivable_pt_lim g x (g' x)) ->
  (forall x, a < x < c -> 0 <= g' x) -> g a <= g c.
Proof.
  intros L D P. destruct (Req_dec a c) as [->|N]; [lra|]. assert (L' : a < c) by lra.
  destruct (MVT_cor2 g g' a c L' D) as (x & E & Hx). specialize (P x Hx). assert (0 <= g' x * (c - a)) by (apply Rmult_le_pos; lra). lra.
Qed.

Lemma d_lnc x c : 0 < x -> derivable_pt_lim (fun y => c * ln y) x (c / x).
Proof. intros P. unfold Rdiv. apply (derivable_pt_lim_scal ln c x (/ x)). apply derivable_pt_lim_ln. exact P. Qed.
Lemma d_ln1c x c : x < 1 -> derivable_pt_lim (fun y => c * ln (1 - y)) x (- (c / (1 - x))).
Proof.
  intros P. replace (- (c / (1 - x))) with (c * (/ (1 - x) * -1)) by (field; lra).
  apply (derivable_pt_lim_scal (fun y => ln (1 - y)) c x).
  apply (derivable_pt_lim_comp (fun y => 1 - y) ln x (-1) (/ (1 - x))).
  - replace (-1) with (0 - 1) by ring. apply (derivable_pt_lim_minus (fct_cte 1) id x 0 1); [apply derivable_pt_lim_const|apply derivable_pt_lim_id].
  - apply derivable_pt_lim_ln. lra.
Qed.
Lemma d_sq p x : derivable_pt_lim (fun y => 2 * (p - y)²) x (- (4 * (p - x))).
Proof.
  replace (- (4 * (p - x))) with (2 * (2 * (p - x) * -1)) by ring.
  apply (derivable_pt_lim_scal (fun y => (p - y)²) 2 x).
  apply (derivable_pt_lim_comp (fun y => p - y) Rsqr x (-1) (2 * (p - x))); [|apply derivable_pt_lim_Rsqr].
  replace (-1) with (0 - 1) by ring. apply (derivable_pt_lim_minus (fct_cte p) id x 0 1); [apply derivable_pt_lim_const|apply derivable_pt_lim_id].
Qed.

Definition G (p y : R) : R := - (p * ln y) - (1 - p) * ln (1 - y) - 2 * (p - y)².
Lemma dG p x : 0 < x < 1 -> derivable_pt_lim (G p) x ((x - p) * (1 / (x * (1 - x)) - 4)).
Proof.
  intros P. replace ((x - p) * (1 / (x * (1 - x)) - 4)) with (- (p / x) - - ((1 - p) / (1 - x)) - - (4 * (p - x))) by (field; lra).
  apply (derivable_pt_lim_minus (fun y => - (p * ln y) - (1 - p) * ln (1 - y)) (fun y => 2 * (p - y)²)); [|apply d_sq].
  apply (derivable_pt_lim_minus (fun y => - (p * ln y)) (fun y => (1 - p) * ln (1 - y))); [|apply d_ln1c; lra].
  apply (derivable_pt_lim_opp (fun y => p * ln y)). apply d_lnc. lra.
Qed.
Lemma four x : 0 < x < 1 -> 0 <= 1 / (x * (1 - x)) - 4.
Proof.
  intros P. assert (Q : 0 < x * (1 - x)) by (apply Rmult_lt_0_compat; lra).
  replace (1 / (x * (1 - x)) - 4) with ((2 * x - 1)² / (x * (1 - x))) by (unfold Rsqr; field; lra).
  apply Rmult_le_pos; [apply Rle_0_sqr|left; apply Rinv_0_lt_compat; exact Q].
Qed.

Lemma G_min p q : 0 < p < 1 -> 0 < q < 1 -> G p p <= G p q.
Proof.
  intros P Q. destruct (Rle_dec p q) as [L|L].
  - apply (mvt_mono (G p) (fun x => (x - p) * (1 / (x * (1 - x)) - 4))); [exact L|intros x Hx; apply dG; lra|].
    intros x Hx. apply Rmult_le_pos; [lra|apply four; lra].
  - assert (- G p q <= - G p p); [|lra].
    apply (mvt_mono (fun y => - G p y) (fun x => - ((x - p) * (1 / (x * (1 - x)) - 4)))); [lra|intros x Hx; apply (derivable_pt_lim_opp (G p)), dG; lra|].
    intros x Hx. rewrite Ropp_mult_distr_l. apply Rmult_le_pos; [lra|apply four; lra].
Qed.

Definition kl2 (p q : R) : R := p * ln (p / q) + (1 - p) * ln ((1 - p) / (1 - q)).

Lemma kl2_0 q : 0 < q < 1 -> 2 * q² <= - ln (1 - q).
Proof.
  intros Q. assert (E : - (1 * ln (1 - 0)) - 2 * (0 - 0)² <= - (1 * ln (1 - q)) - 2 * (0 - q)²).
  - apply (mvt_mono (fun y => - (1 * ln (1 - y)) - 2 * (0 - y)²) (fun x => - - (1 / (1 - x)) - - (4 * (0 - x)))); [lra| |].
    + intros x Hx. apply (derivable_pt_lim_minus (fun y => - (1 * ln (1 - y))) (fun y => 2 * (0 - y)²)); [|apply d_sq].
      apply (derivable_pt_lim_opp (fun y => 1 * ln (1 - y))). apply d_ln1c. lra.
    + intros x Hx. replace (- - (1 / (1 - x)) - - (4 * (0 - x))) with ((2 * x - 1)² / (1 - x)) by (unfold Rsqr; field; lra).
      apply Rmult_le_pos; [apply Rle_0_sqr|left; apply Rinv_0_lt_compat; lra].
  - rewrite Rminus_0_r, ln_1 in E. unfold Rsqr in *. lra.
Qed.

Lemma pinsker2 p q : 0 <= p <= 1 -> 0 < q < 1 -> 2 * (p - q)² <= kl2 p q.
Proof.
  intros P Q. unfold kl2. destruct (Req_dec p 0) as [->|N0].
  - rewrite Rmult_0_l, Rplus_0_l, Rminus_0_r, Rmult_1_l. rewrite ln_div, ln_1 by lra. pose proof (kl2_0 q Q). unfold Rsqr in *. lra.
  - destruct (Req_dec p 1) as [->|N1].
    + replace (1 - 1) with 0 by ring. rewrite Rmult_0_l, Rplus_0_r, Rmult_1_l. rewrite ln_div, ln_1 by lra.
      assert (Q' : 0 < 1 - q < 1) by lra. pose proof (kl2_0 (1 - q) Q') as K. replace (1 - (1 - q)) with q in K by ring. unfold Rsqr in *. lra.
    + assert (P' : 0 < p < 1) by lra. pose proof (G_min p q P' Q) as K. unfold G in K. rewrite !ln_div by lra.
      unfold Rsqr in *. lra.
Qed.

(** ** events *)
Section Event.
Context {T : Type} `{EqDec T}.

Lemma freq_prob (A : T -> bool) (xs : list T) : share A xs = prob (map A xs) true.
Proof.
  unfold share, prob. rewrite map_length. f_equal. f_equal. unfold count.
  induction xs as [|x xs IH]; [reflexivity|]. cbn [map filter]. destruct (A x) eqn:E.
  - rewrite count_occ_cons_eq by reflexivity. cbn [length]. rewrite IH. reflexivity.
  - rewrite count_occ_cons_neq by discriminate. exact IH.
Qed.
Lemma bool_compl (l : list bool) : l <> [] -> prob l false = 1 - prob l true.
Proof.
  intros NE. assert (N : 0 < INR (length l)) by (apply INR_pos; destruct l; [congruence|simpl; lia]).
  assert (C : INR (count l true) + INR (count l false) = INR (length l)).
  { rewrite <- plus_INR. f_equal. unfold count. clear. induction l as [|[|] l IH]; [reflexivity| |].
    - rewrite count_occ_cons_eq, count_occ_cons_neq by (reflexivity || discriminate). cbn [length]. lia.
    - rewrite count_occ_cons_neq, count_occ_cons_eq by (reflexivity || discriminate). cbn [length]. lia. }
  unfold prob. rewrite <- C. field. lra.
Qed.
Lemma bool_sum (l : list bool) (g : bool -> R) : l <> [] ->
  sumf (fun v => prob l v * g v) (distinct l) = prob l true * g true + (1 - prob l true) * g false.
Proof.
  intros NE. rewrite <- (sumf_support (distinct l) [true; false]).
  - cbn [sumf]. rewrite (bool_compl l NE). ring.
  - apply NoDup_nodup.
  - repeat constructor; simpl; intuition discriminate.
  - intros [|] _; simpl; auto.
  - intros v _ N. unfold prob, count. rewrite (proj1 (count_occ_not_In eq_dec l v)); [simpl; unfold Rdiv; ring|].
    intros I0. apply N, nodup_In. exact I0.
Qed.

Lemma prob_le1 {C} `{EqDec C} (l : list C) v : prob l v <= 1.
Proof.
  unfold prob. destruct l as [|x l]; [simpl; unfold Rdiv; lra|]. apply (Rmult_le_reg_r (INR (length (x :: l)))); [apply INR_pos; simpl; lia|].
  unfold Rdiv. rewrite Rmult_assoc, Rinv_l, Rmult_1_r, Rmult_1_l by (apply not_0_INR; discriminate). apply le_INR, count_occ_bound.
Qed.

Lemma pinsker_event (A : T -> bool) (ps qs : list T) : ps <> [] -> incl ps qs -> 2 * (share A ps - share A qs)² <= KL ps qs.
Proof.
  intros NE I0. apply Rle_trans with (KL (map A ps) (map A qs)); [|apply KL_coarse; assumption].
  rewrite !freq_prob. set (P := map A ps). set (Q := map A qs).
  assert (NP : P <> []) by (unfold P; destruct ps; [congruence|discriminate]).
  assert (IP : incl P Q) by (intros w Hw; apply in_map_iff in Hw; destruct Hw as (x & <- & Hx); apply in_map, I0, Hx).
  assert (NQ : Q <> []) by (intros E; rewrite E in IP; destruct P as [|v P]; [congruence|destruct (IP v (or_introl eq_refl))]).
  clearbody P Q. pose proof (KL_nonneg P Q NP IP) as K0.
  destruct (in_dec eq_dec true Q) as [T1|T1].
  - destruct (in_dec eq_dec false Q) as [F1|F1].
    + unfold KL. rewrite (bool_sum P (fun v => ln (prob P v / prob Q v)) NP), (bool_compl P NP), (bool_compl Q NQ).
      apply (pinsker2 (prob P true) (prob Q true)); [split; [apply prob_ge0|apply prob_le1]|].
      pose proof (prob_pos Q true T1). pose proof (prob_pos Q false F1) as PF. rewrite bool_compl in PF by exact NQ. lra.
    + assert (E1 : prob Q false = 0) by (unfold prob, count; rewrite (proj1 (count_occ_not_In eq_dec Q false) F1); simpl; unfold Rdiv; ring).
      assert (E2 : prob P false = 0).
      { unfold prob, count. rewrite (proj1 (count_occ_not_In eq_dec P false)); [simpl; unfold Rdiv; ring|]. intros J. apply F1, IP, J. }
      rewrite bool_compl in E1, E2 by assumption. replace (prob P true - prob Q true) with 0 by lra. rewrite Rsqr_0. lra.
  - assert (E1 : prob Q true = 0) by (unfold prob, count; rewrite (proj1 (count_occ_not_In eq_dec Q true) T1); simpl; unfold Rdiv; ring).
    assert (E2 : prob P true = 0).
    { unfold prob, count. rewrite (proj1 (count_occ_not_In eq_dec P true)); [simpl; unfold Rdiv; ring|]. intros J. apply T1, IP, J. }
    rewrite E1, E2, Rminus_0_r, Rsqr_0. lra.
Qed.

(** frequency of an event by values *)
Lemma freq_sum (A : T -> bool) (xs U : list T) : NoDup U -> incl xs U ->
  share A xs = sumf (fun v => ind (A v) * prob xs v) U.
Proof.
  intros ND I0. unfold share. rewrite <- (sumf_ind_length A xs).
  assert (E : sumf (fun x => ind (A x)) xs = sumf (fun v => ind (A v) * INR (count xs v)) U).
  { transitivity (sumf (fun s => (fun v => ind (A v)) ((fun x : T => x) s)) xs); [reflexivity|].
    rewrite <- (group xs (fun x => x) U (fun v => ind (A v)) ND I0). apply sumf_ext. intros v _. rewrite cnt_count, map_id. ring. }
  rewrite E, <- sumf_div. apply sumf_ext. intros v _. unfold prob, Rdiv. ring.
Qed.
Lemma prob_sum_over (xs U : list T) : xs <> [] -> NoDup U -> incl xs U -> sumf (prob xs) U = 1.
Proof.
  intros NE ND I0. rewrite <- (prob_sum1 xs NE). apply sumf_support; [apply NoDup_nodup|exact ND| |].
  - intros v Hv. apply I0. apply (nodup_In eq_dec). exact Hv.
  - intros v _ N. unfold prob, count. rewrite (proj1 (count_occ_not_In eq_dec xs v)); [simpl; unfold Rdiv; ring|].
    intros J. apply N, nodup_In. exact J.
Qed.

Definition above (ps qs : list T) (v : T) : bool := if Rlt_dec (prob qs v) (prob ps v) then true else false.

(** the total variation is the largest difference of event frequencies *)
Lemma TV_attained (ps qs : list T) : ps <> [] -> qs <> [] -> TV ps qs = share (above ps qs) ps - share (above ps qs) qs.
Proof.
  intros NP NQ. unfold TV. set (U := distinct (ps ++ qs)).
  assert (ND : NoDup U) by apply NoDup_nodup.
  assert (I1 : incl ps U) by (intros v Hv; apply nodup_In, in_or_app; left; exact Hv).
  assert (I2 : incl qs U) by (intros v Hv; apply nodup_In, in_or_app; right; exact Hv).
  rewrite (freq_sum _ ps U ND I1), (freq_sum _ qs U ND I2), <- sumf_minus.
  pose proof (prob_sum_over ps U NP ND I1) as S1. pose proof (prob_sum_over qs U NQ ND I2) as S2.
  assert (E : sumf (fun v => Rabs (prob ps v - prob qs v)) U =
    2 * sumf (fun x => ind (above ps qs x) * prob ps x - ind (above ps qs x) * prob qs x) U - (sumf (prob ps) U - sumf (prob qs) U)).
  { rewrite <- sumf_scal, <- sumf_minus, <- sumf_minus. apply sumf_ext. intros v _. unfold above. destruct (Rlt_dec (prob qs v) (prob ps v)).
    - rewrite Rabs_pos_eq by lra. unfold ind. ring.
    - rewrite Rabs_left1 by lra. unfold ind. ring. }
  rewrite E, S1, S2. field.
Qed.
Lemma TV_ge (A : T -> bool) (ps qs : list T) : ps <> [] -> qs <> [] -> Rabs (share A ps - share A qs) <= TV ps qs.
Proof.
  intros NP NQ. unfold TV. set (U := distinct (ps ++ qs)).
  assert (ND : NoDup U) by apply NoDup_nodup.
  assert (I1 : incl ps U) by (intros v Hv; apply nodup_In, in_or_app; left; exact Hv).
  assert (I2 : incl qs U) by (intros v Hv; apply nodup_In, in_or_app; right; exact Hv).
  rewrite (freq_sum _ ps U ND I1), (freq_sum _ qs U ND I2), <- sumf_minus.
  pose proof (prob_sum_over ps U NP ND I1) as S1. pose proof (prob_sum_over qs U NQ ND I2) as S2.
  set (d := fun v => prob ps v - prob qs v).
  assert (D0 : sumf d U = 0) by (unfold d; rewrite sumf_minus; lra).
  assert (Hb : forall s, (s = 1 \/ s = -1) -> s * sumf (fun x => ind (A x) * prob ps x - ind (A x) * prob qs x) U <= sumf (fun v => Rabs (prob ps v - prob qs v)) U / 2).
  { intros s Hs. assert (E : s * sumf (fun x => ind (A x) * prob ps x - ind (A x) * prob qs x) U = sumf (fun x => s * (ind (A x) * d x) - s * (d x / 2)) U).
    { rewrite (sumf_minus (fun x => s * (ind (A x) * d x)) (fun x => s * (d x / 2))), (sumf_scal s (fun x => ind (A x) * d x)), (sumf_scal s (fun x => d x / 2)), (sumf_div 2 d), D0.
      unfold Rdiv. rewrite Rmult_0_l, Rmult_0_r, Rminus_0_r. f_equal. apply sumf_ext. intros v _. unfold d. ring. }
    rewrite E, <- sumf_div. apply sumf_le. intros v _. fold (d v). unfold ind. pose proof (Rle_abs (d v)). pose proof (Rle_abs (- d v)) as Q. rewrite Rabs_Ropp in Q.
    destruct (A v), Hs as [-> | ->]; lra. }
  apply Rabs_le. pose proof (Hb 1 (or_introl eq_refl)). pose proof (Hb (-1) (or_intror eq_refl)). lra.
Qed.
End Event.

(** ** mutual information as divergence of the joint sample from the product sample *)
Section Prod.
Context {A B : Type} `{EqDec A} `{EqDec B}.

Lemma count_list_prod (xs : list A) (ys : list B) x y : count (list_prod xs ys) (x, y) = (count xs x * count ys y)%nat.
Proof.
  induction xs as [|a xs IH]; [reflexivity|]. cbn [list_prod]. rewrite count_app, IH, count_cons.
  assert (E : count (map (fun y0 => (a, y0)) ys) (x, y) = if eq_dec a x then count ys y else 0%nat).
  { clear IH. unfold count. induction ys as [|c ys IHy]; [destruct (eq_dec a x); reflexivity|]. cbn [map].
    destruct (eq_dec a x) as [->|N].
    - destruct (eq_dec c y) as [->|N].
      + rewrite !count_occ_cons_eq by reflexivity. rewrite IHy. reflexivity.
      + rewrite !count_occ_cons_neq by congruence. exact IHy.
    - rewrite count_occ_cons_neq by congruence. exact IHy. }
  rewrite E. destruct (eq_dec a x); lia.
Qed.
Lemma prob_list_prod (xs : list A) (ys : list B) x y : xs <> [] -> ys <> [] -> prob (list_prod xs ys) (x, y) = prob xs x * prob ys y.
Proof.
  intros N1 N2. unfold prob. rewrite count_list_prod, prod_length, !mult_INR.
  assert (0 < INR (length xs)) by (apply INR_pos; destruct xs; [congruence|simpl; lia]).
  assert (0 < INR (length ys)) by (apply INR_pos; destruct ys; [congruence|simpl; lia]).
  field. split; lra.
Qed.
Lemma combine_in_prod (xs : list A) (ys : list B) : incl (combine xs ys) (list_prod xs ys).
Proof. intros [x y] J. apply in_prod_iff. split; [apply in_combine_l in J|apply in_combine_r in J]; exact J. Qed.

Lemma MI_is_KL (xs : list A) (ys : list B) : length xs = length ys -> xs <> [] -> MI xs ys = KL (combine xs ys) (list_prod xs ys).
Proof.
  intros L NE. assert (NY : ys <> []) by (intros ->; destruct xs; [congruence|discriminate]).
  assert (LC : length (combine xs ys) = length xs) by (rewrite combine_length; lia).
  assert (NC : combine xs ys <> []) by (intros E; rewrite E in LC; destruct xs; [congruence|discriminate]).
  assert (N : 0 < INR (length xs)) by (apply INR_pos; destruct xs; [congruence|simpl; lia]).
  apply (Rmult_eq_reg_l (INR (length xs))); [|lra].
  rewrite <- LC at 2. rewrite (KL_points _ _ NC (combine_in_prod xs ys)).
  unfold MI. replace (INR (length xs) * (Ent xs + Ent ys - Ent (combine xs ys))) with
    (INR (length xs) * Ent xs + INR (length ys) * Ent ys - INR (length (combine xs ys)) * Ent (combine xs ys)) by (rewrite LC, <- L; ring).
  rewrite !Ent_points.
  assert (E1 : forall g : A -> R, sumf g xs = sumf (fun p => g (fst p)) (combine xs ys)).
  { intros g. clear -L. revert ys L. induction xs as [|x xs IH]; intros [|y ys] L; try discriminate; [reflexivity|]. cbn [combine sumf fst]. rewrite (IH ys) by (injection L; auto). reflexivity. }
  assert (E2 : forall g : B -> R, sumf g ys = sumf (fun p => g (snd p)) (combine xs ys)).
  { intros g. clear -L. revert ys L. induction xs as [|x xs IH]; intros [|y ys] L; try discriminate; [reflexivity|]. cbn [combine sumf snd]. rewrite (IH ys) by (injection L; auto). reflexivity. }
  rewrite (E1 (fun x => ln (INR (length xs)) - ln (INR (count xs x)))), (E2 (fun y => ln (INR (length ys)) - ln (INR (count ys y)))).
  rewrite <- sumf_plus, <- sumf_minus. apply sumf_ext. intros [x y] J. cbn [fst snd].
  rewrite (prob_list_prod xs ys x y NE NY). unfold prob. rewrite LC, <- L.
  pose proof (count_pos_in _ _ J) as C0. pose proof (count_pos_in xs x (in_combine_l _ _ _ _ J)) as C1. pose proof (count_pos_in ys y (in_combine_r _ _ _ _ J)) as C2.
  set (n := INR (length xs)) in *. set (c0 := INR (count (combine xs ys) (x, y))) in *. set (c1 := INR (count xs x)) in *. set (c2 := INR (count ys y)) in *. clearbody n c0 c1 c2.
  assert (0 < c0 / n /\ 0 < c1 / n /\ 0 < c2 / n) as (Q0 & Q1 & Q2) by (repeat split; apply Rdiv_lt_0_compat; assumption).
  rewrite (ln_div (c0 / n) (c1 / n * (c2 / n))) by (assumption || (apply Rmult_lt_0_compat; assumption)). rewrite (ln_mult (c1 / n) (c2 / n)) by assumption. rewrite !ln_div by assumption. ring.
Qed.
End Prod.

(** ** the Jensen-Shannon divergence bounds event frequencies *)
Lemma pinsker2_edge p m : 0 <= p <= 1 -> 0 <= m <= 1 -> (m = 0 -> p = 0) -> (m = 1 -> p = 1) -> 2 * (p - m)² <= kl2 p m.
Proof.
  intros P M E0 E1. destruct (Req_dec m 0) as [Z|NZ].
  - rewrite Z, (E0 Z). unfold kl2. rewrite !Rminus_0_r, Rmult_0_l, Rplus_0_l, Rsqr_0, Rmult_1_l, Rmult_0_r. replace (1 / 1) with 1 by field. rewrite ln_1. lra.
  - destruct (Req_dec m 1) as [Z1|N1].
    + rewrite Z1, (E1 Z1). unfold kl2. replace (1 - 1) with 0 by ring. rewrite Rmult_0_l, Rplus_0_r, Rsqr_0, Rmult_1_l, Rmult_0_r. replace (1 / 1) with 1 by field. rewrite ln_1. lra.
    + apply pinsker2; lra.
Qed.

Lemma avg_eq {T} (h : T -> R) (l : list T) x c : (forall y, In y l -> h y <= c) -> sumf h l = INR (length l) * c -> In x l -> h x = c.
Proof.
  intros LE E Hx. assert (Z : sumf (fun y => c - h y) l = 0) by (rewrite sumf_minus, sumf_const, E; ring).
  assert (c - h x = 0); [|lra]. apply (sumf_zero_all (fun y => c - h y) l); [|exact Z|exact Hx]. intros y Hy. pose proof (LE y Hy). lra.
Qed.

Lemma jsd_event {T} `{EqDec T} (A : T -> bool) (ds : list (list T)) d e : ds <> [] -> Forall (fun c => c <> []) ds -> In d ds -> In e ds ->
  (share A d - share A e)² <= INR (length ds) * JSD ds.
Proof.
  intros NE F Hd He. assert (NK : 0 < INR (length ds)) by (apply INR_pos; destruct ds; [congruence|simpl; lia]).
  destruct (JSD_facts ds NE F) as [[J0 _] _].
  destruct (list_eq_dec eq_dec d e) as [<-|Nde].
  { rewrite Rminus_eq_0, Rsqr_0. apply Rmult_le_pos; lra. }
  apply Rle_trans with (INR (length ds) * JSD (map (map A) ds)); [|apply Rmult_le_compat_l; [lra|apply JSD_coarse; assumption]].
  assert (NEf : map (map A) ds <> []) by (destruct ds; [congruence|discriminate]).
  assert (Ff : Forall (fun d => d <> []) (map (map A) ds)).
  { apply Forall_forall. intros c Hc. apply in_map_iff in Hc. destruct Hc as (c0 & <- & Hc). rewrite Forall_forall in F. specialize (F c0 Hc). destruct c0; [congruence|discriminate]. }
  rewrite (JSD_points _ NEf Ff), map_length, sumf_map. set (M := mixprob (map (map A) ds)).
  set (m := M true).
  assert (Mt : m = sumf (fun c => share A c) ds / INR (length ds)).
  { unfold m, M, mixprob. rewrite map_length, sumf_map. f_equal. apply sumf_ext. intros c _. symmetry. apply freq_prob. }
  assert (Mf : M false = 1 - m).
  { rewrite Mt. unfold M, mixprob. rewrite map_length, sumf_map. rewrite (sumf_ext _ (fun c => 1 - share A c)).
    - rewrite (sumf_minus (fun _ => 1) (fun c => share A c)), (sumf_const 1 ds). field. lra.
    - intros c Hc. rewrite freq_prob. apply bool_compl. rewrite Forall_forall in F. specialize (F c Hc). destruct c; [congruence|discriminate]. }
  assert (FB : forall c, 0 <= share A c <= 1) by (intros c; rewrite freq_prob; split; [apply prob_ge0|apply prob_le1]).
  assert (MB : 0 <= m <= 1).
  { rewrite Mt. split.
    - apply Rmult_le_pos; [apply sumf_nonneg; intros c _; apply FB|left; apply Rinv_0_lt_compat; exact NK].
    - apply (Rmult_le_reg_r (INR (length ds))); [exact NK|]. unfold Rdiv. rewrite Rmult_assoc, Rinv_l, Rmult_1_r, Rmult_1_l by lra.
      rewrite <- (Rmult_1_r (INR (length ds))), <- sumf_const. apply sumf_le. intros c _. apply FB. }
  assert (ME : sumf (fun c => share A c) ds = INR (length ds) * m) by (rewrite Mt; field; lra).
  set (t := fun c => sumf (fun x => ln (prob (map A c) x / M x)) (map A c) / INR (length (map A c))).
  assert (TK : forall c, In c ds -> 2 * (share A c - m)² <= t c).
  { intros c Hc. assert (NC : map A c <> []) by (rewrite Forall_forall in F; specialize (F c Hc); destruct c; [congruence|discriminate]).
    assert (NL : 0 < INR (length (map A c))) by (apply INR_pos; destruct (map A c); [congruence|simpl; lia]).
    assert (E : t c = kl2 (share A c) m).
    { unfold t. rewrite points_group, <- sumf_div.
      rewrite (sumf_ext _ (fun v => prob (map A c) v * ln (prob (map A c) v / M v))) by (intros v _; unfold prob at 2, Rdiv; ring).
      rewrite (bool_sum (map A c) (fun v => ln (prob (map A c) v / M v)) NC), (bool_compl _ NC), Mf, <- freq_prob. reflexivity. }
    rewrite E. apply pinsker2_edge; [apply FB|exact MB| |].
    - intros Z. rewrite Z, Rmult_0_r in ME. apply (sumf_zero_all (fun c => share A c) ds); [intros y _; apply FB|exact ME|exact Hc].
    - intros Z. rewrite Z in ME. apply (avg_eq (fun c => share A c) ds c 1); [intros y _; apply FB|exact ME|exact Hc]. }
  replace (INR (length ds) * (sumf t ds / INR (length ds))) with (sumf t ds) by (field; lra).
  assert (T0 : forall c, In c ds -> 0 <= t c) by (intros c Hc; pose proof (TK c Hc); pose proof (Rle_0_sqr (share A c - m)); lra).
  assert (TWO : t d + t e <= sumf t ds).
  { clearbody t. clear -Hd He Nde T0. induction ds as [|c r IH]; [destruct Hd|]. cbn [sumf].
    assert (T1 : forall c, In c r -> 0 <= t c) by (intros c' Hc'; apply T0; right; exact Hc').
    destruct Hd as [->|Hd], He as [->|He]; try congruence.
    - pose proof (sumf_In_le t r e T1 He). lra.
    - pose proof (sumf_In_le t r d T1 Hd). lra.
    - pose proof (IH Hd He T1). pose proof (T0 c (or_introl eq_refl)). lra. }
  pose proof (TK d Hd) as K1. pose proof (TK e He) as K2.
  assert (SQ : (share A d - share A e)² <= 2 * (share A d - m)² + 2 * (share A e - m)²).
  { unfold Rsqr. set (u := share A d - m). set (w := share A e - m). replace (share A d - share A e) with (u - w) by (unfold u, w; ring). pose proof (Rle_0_sqr (u + w)) as Q. unfold Rsqr in Q. lra. }
  lra.
Qed.
