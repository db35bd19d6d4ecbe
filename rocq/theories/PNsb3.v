(** Proofs: the integrands of the NSB estimator are continuous up to 0, its integrals exist and the normalisation is positive. *)
From Coq Require Import Reals Lra Lia List ZArith Arith.
From Coquelicot Require Import Coquelicot.
From Verif Require Import RSum Spec Info2 SpecGamma SpecEst PEst SpecNsb PNsb PNsb2.
Import ListNotations.
Local Open Scope R_scope.

(** continuity on [0, oo), by extension with the value at 0 *)
Definition cont0 (g : R -> R) : Prop := forall x, continuity_pt (fun b => g (Rmax 0 b)) x.
Lemma cont0_const c : cont0 (fun _ => c).
Proof. intros x. apply (continuity_pt_const (fun _ => c)). intros a b. reflexivity. Qed.
Lemma cont0_id : cont0 (fun b => b).
Proof.
  intros x eps He. exists eps. split; [exact He|]. intros y (_ & Hy). cbn in *. unfold R_dist in *.
  unfold Rmax. destruct (Rle_dec 0 y), (Rle_dec 0 x); unfold Rabs in *; repeat destruct Rcase_abs; lra.
Qed.
Lemma cont0_plus f g : cont0 f -> cont0 g -> cont0 (fun b => f b + g b).
Proof. intros Hf Hg x. apply (continuity_pt_plus (fun b => f (Rmax 0 b)) (fun b => g (Rmax 0 b))); auto. Qed.
Lemma cont0_minus f g : cont0 f -> cont0 g -> cont0 (fun b => f b - g b).
Proof. intros Hf Hg x. apply (continuity_pt_minus (fun b => f (Rmax 0 b)) (fun b => g (Rmax 0 b))); auto. Qed.
Lemma cont0_mult f g : cont0 f -> cont0 g -> cont0 (fun b => f b * g b).
Proof. intros Hf Hg x. apply (continuity_pt_mult (fun b => f (Rmax 0 b)) (fun b => g (Rmax 0 b))); auto. Qed.
Lemma cont0_div f g : cont0 f -> cont0 g -> (forall b, 0 <= b -> g b <> 0) -> cont0 (fun b => f b / g b).
Proof. intros Hf Hg N x. apply (continuity_pt_div (fun b => f (Rmax 0 b)) (fun b => g (Rmax 0 b))); auto. apply N, Rmax_l. Qed.
Lemma cont0_pow f n : cont0 f -> cont0 (fun b => f b ^ n).
Proof. intros Hf. induction n as [|n IH]; cbn; [apply cont0_const|apply cont0_mult; assumption]. Qed.
Lemma cont0_sumf {A} (f : A -> R -> R) l : (forall a, cont0 (f a)) -> cont0 (fun b => sumf (fun a => f a b) l).
Proof. intros Hf. induction l as [|a l IH]; cbn [sumf]; [apply cont0_const|apply cont0_plus; auto]. Qed.
Lemma cont0_prod {A} (f : A -> R -> R) l : (forall a, cont0 (f a)) -> cont0 (fun b => prodR (map (fun a => f a b) l)).
Proof. intros Hf. induction l as [|a l IH]; cbn; [apply cont0_const|apply cont0_mult; auto]. Qed.
Lemma cont0_rising f n : cont0 f -> cont0 (fun b => rising (f b) n).
Proof. intros Hf. induction n as [|n IH]; cbn [rising]; [apply cont0_const|apply cont0_mult; [exact IH|apply cont0_plus; [exact Hf|apply cont0_const]]]. Qed.
Lemma cont0_lip C g h : 0 <= C -> (forall x y, 1 <= x -> x <= y -> Rabs (g y - g x) <= C * (y - x)) -> cont0 h -> (forall b, 0 <= b -> 1 <= h b) ->
  cont0 (fun b => g (h b)).
Proof.
  intros HC Hg Hh H1 x eps He. destruct (Hh x (eps / (C + 1)) ltac:(apply Rdiv_lt_0_compat; lra)) as (d & Hd & Hd'). exists d. split; [exact Hd|].
  intros y Hy. specialize (Hd' y Hy). cbn in *. unfold R_dist in *. set (u := h (Rmax 0 y)) in *. set (v := h (Rmax 0 x)) in *.
  assert (1 <= u) by (apply H1, Rmax_l). assert (1 <= v) by (apply H1, Rmax_l).
  assert (X : Rabs (g u - g v) <= C * Rabs (u - v)).
  { destruct (Rle_dec v u) as [L|L].
    - rewrite (Rabs_right (u - v)) by lra. apply Hg; assumption.
    - rewrite (Rabs_minus_sym (g u)), (Rabs_minus_sym u). rewrite (Rabs_right (v - u)) by lra. apply Hg; [assumption|lra]. }
  apply Rle_lt_trans with (1 := X). apply Rle_lt_trans with ((C + 1) * Rabs (u - v)); [pose proof (Rabs_pos (u - v)); nra|].
  apply Rlt_le_trans with ((C + 1) * (eps / (C + 1))); [apply Rmult_lt_compat_l; lra|]. right. field. lra.
Qed.

Lemma rising_pos x n : 0 < x -> 0 < rising x n.
Proof. intros Hx. induction n as [|n IH]; cbn [rising]; [lra|]. apply Rmult_lt_0_compat; [exact IH|]. pose proof (pos_INR n). lra. Qed.
Lemma rising_S x n : rising x (S n) = x * rising (x + 1) n.
Proof.
  induction n as [|n IH]; [cbn; ring|]. change (rising x (S (S n))) with (rising x (S n) * (x + INR (S n))). rewrite IH. cbn [rising]. rewrite S_INR. ring.
Qed.
Lemma prodR_pos {A} (f : A -> R) l : (forall a, In a l -> 0 < f a) -> 0 < prodR (map f l).
Proof. intros H. induction l as [|a l IH]; cbn; [lra|]. apply Rmult_lt_0_compat; [apply H; left; reflexivity|apply IH; intros; apply H; right; assumption]. Qed.
Lemma prodR_ext {A} (f g : A -> R) l : (forall a, In a l -> f a = g a) -> prodR (map f l) = prodR (map g l).
Proof. intros H. f_equal. apply map_ext_in. exact H. Qed.
Lemma prodR_mult {A} (f g : A -> R) l : prodR (map (fun a => f a * g a) l) = prodR (map f l) * prodR (map g l).
Proof. induction l as [|a l IH]; cbn; [ring|]. fold (prodR (map (fun a => f a * g a) l)) (prodR (map f l)) (prodR (map g l)). rewrite IH. ring. Qed.
Lemma prodR_pow {A} x (n : A -> nat) l : prodR (map (fun a => x ^ n a) l) = x ^ fold_right Nat.add 0%nat (map n l).
Proof. induction l as [|a l IH]; cbn; [reflexivity|]. fold (prodR (map (fun a => x ^ n a) l)). rewrite IH, pow_add. reflexivity. Qed.

Section nsb.
Context {A : Type} `{EqDec A}.
Implicit Types xs : list A.
Context (D T : R -> R) (HD : is_digamma D) (HT : is_trigamma T).

Lemma count_pos xs v : In v (distinct xs) -> (1 <= count xs v)%nat.
Proof. intros Hv. unfold distinct in Hv. apply nodup_In in Hv. unfold count. apply (count_occ_In eq_dec). exact Hv. Qed.

Lemma count_total xs : fold_right Nat.add 0%nat (map (count xs) (distinct xs)) = length xs.
Proof.
  apply INR_eq. rewrite <- (bycount_id xs). unfold bycount. generalize (distinct xs). intros l. induction l as [|a l IH]; cbn [map fold_right sumf]; [reflexivity|].
  rewrite plus_INR, IH. reflexivity.
Qed.

(** the weight without its removable singularity *)
Definition weight0 (K : nat) xs (beta : R) : R :=
  beta ^ (length xs - 1) * prodR (map (fun v => rising (beta + 1) (count xs v - 1) ^ count xs v) (distinct xs)) /
  (INR K * rising (INR K * beta + 1) (length xs - 1)).
Lemma weight_eq K xs beta : (1 <= K)%nat -> xs <> [] -> 0 < beta -> weight K xs beta = weight0 K xs beta.
Proof.
  intros HK NE Hb. unfold weight, weight0. assert (PK : 0 < INR K) by (apply lt_0_INR; lia). assert (0 < INR K * beta) by (apply Rmult_lt_0_compat; assumption).
  rewrite (prodR_ext _ (fun v => beta ^ count xs v * rising (beta + 1) (count xs v - 1) ^ count xs v)).
  2:{ intros v Hv. pose proof (count_pos xs v Hv) as P. rewrite <- Rpow_mult_distr. f_equal.
      replace (count xs v) with (S (count xs v - 1)) at 1 by lia. apply rising_S. }
  rewrite prodR_mult, prodR_pow, count_total. assert (PN : (1 <= length xs)%nat) by (destruct xs; [congruence|cbn; lia]).
  destruct (length xs) as [|m]; [lia|]. replace (S m - 1)%nat with m by lia. rewrite rising_S, <- tech_pow_Rmult. field.
  repeat split; try lra. apply Rgt_not_eq, rising_pos. lra.
Qed.
Lemma weight_pos K xs beta : (1 <= K)%nat -> 0 < beta -> 0 < weight K xs beta.
Proof.
  intros HK Hb. assert (PK : 0 < INR K) by (apply lt_0_INR; lia). unfold weight. apply Rdiv_lt_0_compat.
  - apply prodR_pos. intros v _. apply pow_lt, rising_pos. exact Hb.
  - apply rising_pos, Rmult_lt_0_compat; assumption.
Qed.
Lemma weight0_cont K xs : (1 <= K)%nat -> cont0 (weight0 K xs).
Proof.
  intros HK. assert (PK : 0 < INR K) by (apply lt_0_INR; lia). unfold weight0. apply cont0_div.
  - apply cont0_mult; [apply cont0_pow, cont0_id|]. apply (cont0_prod (fun v b => rising (b + 1) (count xs v - 1) ^ count xs v)). intros v.
    apply cont0_pow, cont0_rising, cont0_plus; [apply cont0_id|apply cont0_const].
  - apply cont0_mult; [apply cont0_const|]. apply cont0_rising, cont0_plus; [apply cont0_mult; [apply cont0_const|apply cont0_id]|apply cont0_const].
  - intros b Hb. apply Rgt_not_eq, Rmult_lt_0_compat; [exact PK|]. apply rising_pos. assert (0 <= INR K * b) by (apply Rmult_le_pos; lra). lra.
Qed.
Lemma T_lip x y : 1 <= x -> x <= y -> Rabs (T y - T x) <= 4 * (y - x).
Proof. intros Hx Hy. pose proof (tri_lip T HT x y Hx Hy). rewrite Rabs_minus_sym. rewrite Rabs_right; lra. Qed.
Lemma D_lip x y : 1 <= x -> x <= y -> Rabs (D y - D x) <= 2 * (y - x).
Proof. intros Hx Hy. pose proof (di_lip D HD x y Hx Hy). rewrite Rabs_right; lra. Qed.
Lemma xi_cont K : cont0 (xi_density T K).
Proof.
  unfold xi_density. assert (PK : 0 <= INR K) by apply pos_INR.
  apply cont0_minus; [apply cont0_mult; [apply cont0_const|]|].
  - apply (cont0_lip 4 T (fun b => 1 + INR K * b)); [lra|exact T_lip| |].
    + apply cont0_plus; [apply cont0_const|apply cont0_mult; [apply cont0_const|apply cont0_id]].
    + intros b Hb. assert (0 <= INR K * b) by (apply Rmult_le_pos; assumption). lra.
  - apply (cont0_lip 4 T (fun b => 1 + b)); [lra|exact T_lip| |intros; lra]. apply cont0_plus; [apply cont0_const|apply cont0_id].
Qed.
Lemma post_cont xs : xs <> [] -> cont0 (posterior_entropy D xs).
Proof.
  intros NE. unfold posterior_entropy, bycount. cbv zeta.
  assert (PN : 1 <= INR (length xs)) by (destruct xs; [congruence|apply (le_INR 1); cbn; lia]). assert (PK : 0 <= INR (nvals xs)) by apply pos_INR.
  assert (CS : cont0 (fun b => INR (length xs) + INR (nvals xs) * b)) by (apply cont0_plus; [apply cont0_const|apply cont0_mult; [apply cont0_const|apply cont0_id]]).
  assert (PS : forall b, 0 <= b -> 1 <= INR (length xs) + INR (nvals xs) * b) by (intros b Hb; assert (0 <= INR (nvals xs) * b) by (apply Rmult_le_pos; assumption); lra).
  apply cont0_minus.
  - apply (cont0_lip 2 D (fun b => INR (length xs) + INR (nvals xs) * b + 1)); [lra|exact D_lip|apply cont0_plus; [exact CS|apply cont0_const]|].
    intros b Hb. specialize (PS b Hb). lra.
  - apply (cont0_sumf (fun v b => (INR (count xs v) + b) / (INR (length xs) + INR (nvals xs) * b) * D (INR (count xs v) + b + 1))). intros v.
    assert (Pv : 0 <= INR (count xs v)) by apply pos_INR. assert (Cv : cont0 (fun b => INR (count xs v) + b)) by (apply cont0_plus; [apply cont0_const|apply cont0_id]).
    apply cont0_mult.
    + apply cont0_div; [exact Cv|exact CS|]. intros b Hb. specialize (PS b Hb). lra.
    + apply (cont0_lip 2 D (fun b => INR (count xs v) + b + 1)); [lra|exact D_lip|apply cont0_plus; [exact Cv|apply cont0_const]|intros; lra].
Qed.

(** integrability *)
Lemma cont0_int g g0 c : cont0 g0 -> (forall b, 0 < b -> g b = g0 b) -> 0 <= c -> exists v, is_RInt g 0 c v.
Proof.
  intros C E Hc. destruct (ex_RInt_continuous (V := R_CompleteNormedModule) (fun b => g0 (Rmax 0 b)) 0 c) as (v & Hv).
  - intros z _. apply continuity_pt_filterlim. apply C.
  - exists v. apply is_RInt_ext with (2 := Hv). rewrite Rmin_left, Rmax_right by exact Hc. intros x Hx. rewrite Rmax_right by lra. symmetry. apply E. lra.
Qed.
Lemma int_pos g g0 c v : cont0 g0 -> (forall b, 0 < b -> g b = g0 b) -> 0 < c -> (forall b, 0 < b < c -> 0 < g b) -> is_RInt g 0 c v -> 0 < v.
Proof.
  intros C E Hc P Hv. rewrite <- (is_RInt_unique _ _ _ _ Hv).
  rewrite (RInt_ext g (fun b => g0 (Rmax 0 b))).
  - apply RInt_gt_0; [exact Hc| |].
    + intros x Hx. rewrite Rmax_right by lra. rewrite <- E by lra. apply P. exact Hx.
    + intros x _. apply continuity_pt_filterlim. apply C.
  - rewrite Rmin_left, Rmax_right by lra. intros x Hx. rewrite Rmax_right by lra. apply E. lra.
Qed.
Lemma lnK_pos K : (2 <= K)%nat -> 0 < ln (INR K).
Proof. intros HK. apply ln_pos. apply Rlt_le_trans with 2; [lra|apply (le_INR 2); exact HK]. Qed.

Lemma nsb_integrals K xs : (2 <= K)%nat -> xs <> [] -> exists num den,
  is_RInt (fun beta => weight K xs beta * xi_density T K beta * posterior_entropy D xs beta) 0 (ln (INR K)) num /\
  is_RInt (fun beta => weight K xs beta * xi_density T K beta) 0 (ln (INR K)) den /\ 0 < den /\
  0 <= num <= ln (INR (nvals xs)) * den.
Proof.
  intros HK NE. pose proof (lnK_pos K HK) as PL.
  assert (C1 : cont0 (fun b => weight0 K xs b * xi_density T K b)) by (apply cont0_mult; [apply weight0_cont; lia|apply xi_cont]).
  assert (E1 : forall b, 0 < b -> weight K xs b * xi_density T K b = weight0 K xs b * xi_density T K b) by (intros b Hb; rewrite weight_eq; [reflexivity|lia|assumption|exact Hb]).
  destruct (cont0_int (fun b => weight K xs b * xi_density T K b) _ (ln (INR K)) C1 E1 ltac:(lra)) as (den & Hden).
  assert (C2 : cont0 (fun b => weight0 K xs b * xi_density T K b * posterior_entropy D xs b)) by (apply cont0_mult; [exact C1|apply post_cont; assumption]).
  destruct (cont0_int (fun b => weight K xs b * xi_density T K b * posterior_entropy D xs b) _ (ln (INR K)) C2
    ltac:(intros b Hb; apply (f_equal (fun u => u * posterior_entropy D xs b)), E1, Hb) ltac:(lra)) as (num & Hnum).
  assert (PG : forall b, 0 < b -> 0 < weight K xs b * xi_density T K b).
  { intros b Hb. apply Rmult_lt_0_compat; [apply weight_pos; [lia|exact Hb]|]. unfold xi_density. apply dxi_pos; [exact HT|exact HK|lra]. }
  exists num, den. split; [exact Hnum|]. split; [exact Hden|]. split; [|split].
  - apply (int_pos _ _ _ _ C1 E1 PL) with (2 := Hden). intros b Hb. apply PG. lra.
  - apply (is_RInt_le (fun _ => 0) (fun b => weight K xs b * xi_density T K b * posterior_entropy D xs b) 0 (ln (INR K)) 0 num); [lra| |exact Hnum|].
    + assert (X : is_RInt (V := R_NormedModule) (fun _ : R => 0) 0 (ln (INR K)) ((ln (INR K) - 0) * 0)) by apply (is_RInt_const (V := R_NormedModule)).
      rewrite Rmult_0_r in X. exact X.
    + intros x Hx. apply Rmult_le_pos; [left; apply PG; lra|]. apply (posterior_bounds D HD); [exact NE|lra].
  - apply (is_RInt_le (fun b => weight K xs b * xi_density T K b * posterior_entropy D xs b) (fun b => scal (ln (INR (nvals xs))) (weight K xs b * xi_density T K b)) 0 (ln (INR K))
      num (ln (INR (nvals xs)) * den)); [lra|exact Hnum| |].
    + apply (is_RInt_scal (V := R_CompleteNormedModule) _ _ _ _ den). exact Hden.
    + intros x Hx. unfold scal; cbn; unfold mult; cbn. rewrite (Rmult_comm (ln _)). apply Rmult_le_compat_l; [left; apply PG; lra|].
      apply (posterior_bounds D HD); [exact NE|lra].
Qed.
Lemma is_nsb_unique K xs h h' : is_nsb D T K xs h -> is_nsb D T K xs h' -> h = h'.
Proof.
  intros (n & d & Hn & Hd & P & ->) (n' & d' & Hn' & Hd' & P' & ->).
  rewrite <- (is_RInt_unique _ _ _ _ Hn), <- (is_RInt_unique _ _ _ _ Hd), (is_RInt_unique _ _ _ _ Hn'), (is_RInt_unique _ _ _ _ Hd'). reflexivity.
Qed.
Lemma is_nsb_range K xs h : (2 <= K)%nat -> xs <> [] -> is_nsb D T K xs h -> 0 <= h <= ln (INR (nvals xs)).
Proof.
  intros HK NE Hh. destruct (nsb_integrals K xs HK NE) as (num & den & H1 & H2 & P & B).
  rewrite (is_nsb_unique K xs h (num / den) Hh) by (exists num, den; auto). split.
  - apply Rmult_le_pos; [lra|left; apply Rinv_0_lt_compat; exact P].
  - apply Rmult_le_reg_r with den; [exact P|]. unfold Rdiv. rewrite Rmult_assoc, Rinv_l by lra. lra.
Qed.
End nsb.

(** the weight depends on the multiset of counts only *)
Lemma prodR_exp {A} (f : A -> R) l : (forall a, In a l -> 0 < f a) -> prodR (map f l) = exp (sumf (fun a => ln (f a)) l).
Proof.
  intros P. induction l as [|a l IH]; cbn [map prodR fold_right sumf]; [symmetry; apply exp_0|]. rewrite exp_plus, exp_ln by (apply P; left; reflexivity).
  fold (prodR (map f l)). rewrite IH by (intros; apply P; right; assumption). reflexivity.
Qed.
Lemma weight_partition {A B} `{EqDec A} `{EqDec B} K (xs : list A) (ys : list B) beta : 0 < beta ->
  same_partition xs ys -> length xs = length ys -> weight K xs beta = weight K ys beta.
Proof.
  intros Hb P L. unfold weight. rewrite L. f_equal.
  rewrite !prodR_exp by (intros; apply pow_lt, rising_pos; exact Hb). f_equal.
  apply (bycount_partition xs ys (fun n => ln (rising beta n ^ n)) P).
Qed.
Lemma posterior_partition {A B} `{EqDec A} `{EqDec B} D (xs : list A) (ys : list B) beta :
  same_partition xs ys -> length xs = length ys -> posterior_entropy D xs beta = posterior_entropy D ys beta.
Proof.
  intros P L. unfold posterior_entropy. rewrite L, (nvals_partition xs ys P). f_equal.
  apply (bycount_partition xs ys (fun n => (INR n + beta) / (INR (length ys) + INR (nvals ys) * beta) * D (INR n + beta + 1)) P).
Qed.
Lemma is_nsb_partition {A B} `{EqDec A} `{EqDec B} D T K (xs : list A) (ys : list B) h : (1 <= K)%nat ->
  same_partition xs ys -> length xs = length ys -> is_nsb D T K xs h -> is_nsb D T K ys h.
Proof.
  intros HK P L (num & den & Hn & Hd & Pd & ->). assert (P1 : 1 <= INR K) by (apply (le_INR 1); exact HK). assert (0 <= ln (INR K)) by (apply ln_nonneg; exact P1).
  exists num, den. split; [|split; [|split; [exact Pd|reflexivity]]].
  - apply is_RInt_ext with (2 := Hn). rewrite Rmin_left, Rmax_right by assumption. intros x Hx.
    rewrite (weight_partition K xs ys x) by (try lra; assumption). rewrite (posterior_partition D xs ys x) by assumption. reflexivity.
  - apply is_RInt_ext with (2 := Hd). rewrite Rmin_left, Rmax_right by assumption. intros x Hx.
    rewrite (weight_partition K xs ys x) by (try lra; assumption). reflexivity.
Qed.
