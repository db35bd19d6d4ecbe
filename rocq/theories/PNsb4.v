(** Proofs: the NSB model computes the specified integrals; the special functions exist. *)
From Coq Require Import Reals Lra Lia List ZArith Arith Permutation.
From Coquelicot Require Import Coquelicot.
From Verif Require Import Res RSum Spec Ord Info2 SpecGamma SpecEst SpecBase MBase MData MEntropy MGeneric MEst PBase PEst PEst5 SpecNsb MNsb PNsb PNsb2 PNsb3.
Import ListNotations.
Local Open Scope R_scope.

Section model.
Context (E : nsb_env) (HE : nsb_lib E).
Let HD : is_digamma (digam E). Proof. apply HE. Qed.
Let HT : is_trigamma (trigam E). Proof. apply HE. Qed.
Let HL : is_loggamma (lgamma E). Proof. apply HE. Qed.
Let HQ : forall f a b v, is_RInt f a b v -> quad E f a b = v. Proof. apply HE. Qed.

Lemma lgamma_rising x n : 0 < x -> lgamma E (INR n + x) = lgamma E x + ln (rising x n).
Proof.
  intros Hx. induction n as [|n IH]; cbn [rising].
  - cbn [INR]. rewrite Rplus_0_l, ln_1. ring.
  - rewrite S_INR. pose proof (pos_INR n). replace (INR n + 1 + x) with (INR n + x + 1) by ring. rewrite HL by lra. rewrite IH.
    rewrite (ln_mult (rising x n)) by (try apply rising_pos; lra). replace (x + INR n) with (INR n + x) by ring. ring.
Qed.

Lemma dxi_model K beta : dxi E beta (Z.of_nat K) = xi_density (trigam E) K beta.
Proof. unfold dxi, xi_density. rewrite <- INR_IZR_INZ. reflexivity. Qed.
Lemma bayes_model (xs : list Z) beta : nsb_bayes E beta (dd_counts (dd_of xs)) = posterior_entropy (digam E) xs beta.
Proof.
  unfold nsb_bayes, posterior_entropy. rewrite <- bycount_unique.
  assert (EN : sumZ (dd_counts (dd_of xs)) = Z.of_nat (length xs)) by (unfold dd_of; cbn [dd_counts]; unfold unique_counts; rewrite map_map, sumZ_of_nat, sum_counts; reflexivity). rewrite EN, <- INR_IZR_INZ.
  assert (EK : length (dd_counts (dd_of xs)) = nvals xs) by (rewrite <- dd_K_of; unfold dd_K, dd_of; cbn [dd_counts dd_uniq]; unfold unique_counts; rewrite !map_length; reflexivity). rewrite EK.
  f_equal. rewrite dd_counts_of, map_map. unfold sumR. rewrite sumf_map. apply sumf_ext. intros v _. rewrite <- INR_IZR_INZ. reflexivity.
Qed.
Lemma rho_model K (xs : list Z) beta l0 : (1 <= K)%nat -> 0 < beta ->
  exp (- neg_log_rho E beta (Z.of_nat K) (Z.of_nat (length xs)) (dd_counts (dd_of xs)) + l0) = exp l0 * weight K xs beta.
Proof.
  intros HK Hb. assert (PK : 0 < INR K) by (apply lt_0_INR; lia). assert (P : 0 < INR K * beta) by (apply Rmult_lt_0_compat; assumption).
  unfold neg_log_rho, weight. rewrite <- !INR_IZR_INZ. rewrite (lgamma_rising (INR K * beta)) by exact P.
  rewrite prodR_exp by (intros; apply pow_lt, rising_pos; exact Hb).
  assert (ES : sumR (map (fun n : Z => IZR n * (lgamma E (IZR n + beta) - lgamma E beta)) (dd_counts (dd_of xs))) = sumf (fun v => ln (rising beta (count xs v) ^ count xs v)) (distinct xs)).
  { rewrite dd_counts_of, map_map. unfold sumR. rewrite sumf_map.
    rewrite (sumf_ext _ (fun v => INR (count xs v) * ln (rising beta (count xs v)))).
    - rewrite (sumf_perm _ _ _ (unique_perm_distinct xs)). apply sumf_ext. intros v _. rewrite ln_pow by (apply rising_pos; exact Hb). reflexivity.
    - intros v _. rewrite <- INR_IZR_INZ. rewrite lgamma_rising by exact Hb. ring. }
  rewrite ES. unfold Rdiv. rewrite <- (exp_ln (/ rising (INR K * beta) (length xs))) by (apply Rinv_0_lt_compat, rising_pos; exact P).
  rewrite ln_Rinv by (apply rising_pos; exact P). rewrite <- !exp_plus. f_equal. ring.
Qed.

Lemma nsb_simple_ok Kg b (xs : list Z) K : valid_base b -> xs <> [] -> (2 <= K)%nat -> K <> length xs ->
  match Kg with Some k => k = Z.of_nat K | None => K = nvals xs end ->
  exists h, is_nsb (digam E) (trigam E) K xs h /\ nsb_simple E Kg b (dd_of xs) = Ok (h / unit_of b).
Proof.
  intros V NE HK Ne HKg. destruct (nsb_integrals (digam E) (trigam E) HD HT K xs HK NE) as (num & den & Hn & Hd & P & _).
  exists (num / den). split; [exists num, den; auto|]. unfold nsb_simple.
  assert (EK : match Kg with Some k => k | None => Z.of_nat (dd_K (dd_of xs)) end = Z.of_nat K) by (destruct Kg; [exact HKg|rewrite dd_K_of, HKg; reflexivity]).
  rewrite EK, dd_N_of. rewrite <- INR_IZR_INZ, np_log_ok by (apply lt_0_INR; lia). cbn [bind].
  destruct (Z.eqb_spec (Z.of_nat (length xs) - Z.of_nat K) 0) as [X|_]; [exfalso; lia|].
  set (l0 := find_l0 E (Z.of_nat K) (Z.of_nat (length xs)) (dd_counts (dd_of xs))).
  pose proof (lnK_pos K HK) as PL.
  assert (Q1 : quad E (fun beta => exp (- neg_log_rho E beta (Z.of_nat K) (Z.of_nat (length xs)) (dd_counts (dd_of xs)) + l0) * dxi E beta (Z.of_nat K) * nsb_bayes E beta (dd_counts (dd_of xs))) 0 (ln (INR K)) = exp l0 * num).
  { apply HQ. apply is_RInt_ext with (fun beta => scal (exp l0) (weight K xs beta * xi_density (trigam E) K beta * posterior_entropy (digam E) xs beta)).
    - rewrite Rmin_left, Rmax_right by lra. intros x Hx. rewrite rho_model by (try lia; lra). rewrite dxi_model, bayes_model. unfold scal; cbn; unfold mult; cbn. ring.
    - apply (is_RInt_scal (V := R_NormedModule)). exact Hn. }
  assert (Q2 : quad E (fun beta => exp (- neg_log_rho E beta (Z.of_nat K) (Z.of_nat (length xs)) (dd_counts (dd_of xs)) + l0) * dxi E beta (Z.of_nat K)) 0 (ln (INR K)) = exp l0 * den).
  { apply HQ. apply is_RInt_ext with (fun beta => scal (exp l0) (weight K xs beta * xi_density (trigam E) K beta)).
    - rewrite Rmin_left, Rmax_right by lra. intros x Hx. rewrite rho_model by (try lia; lra). rewrite dxi_model. unfold scal; cbn; unfold mult; cbn. ring.
    - apply (is_RInt_scal (V := R_NormedModule)). exact Hd. }
  rewrite Q1, Q2. pose proof (exp_pos l0). destruct (Req_EM_T (exp l0 * den) 0) as [Z|_]; [exfalso; assert (0 < exp l0 * den) by (apply Rmult_lt_0_compat; assumption); lra|].
  rewrite to_base_ok by exact V. f_equal. f_equal. field. lra.
Qed.
Lemma nsb_simple_one Kg b (xs : list Z) : match Kg with Some k => k = 1%Z | None => nvals xs = 1%nat end -> nsb_simple E Kg b (dd_of xs) = NonFinite.
Proof.
  intros HKg. unfold nsb_simple.
  assert (EK : match Kg with Some k => k | None => Z.of_nat (dd_K (dd_of xs)) end = 1%Z) by (destruct Kg; [exact HKg|rewrite dd_K_of, HKg; reflexivity]).
  rewrite EK. rewrite np_log_ok by lra. cbn [bind]. destruct (_ =? 0)%Z; [reflexivity|]. rewrite ln_1.
  match goal with |- (if Req_EM_T ?q 0 then _ else _) = _ => assert (Q : q = 0) end.
  { apply HQ. apply (is_RInt_point (V := R_NormedModule)). }
  rewrite Q. destruct (Req_EM_T 0 0) as [_|N]; [reflexivity|congruence].
Qed.
Lemma nsb_simple_same Kg b (xs : list Z) : xs <> [] -> match Kg with Some k => k = Z.of_nat (length xs) | None => nvals xs = length xs end -> nsb_simple E Kg b (dd_of xs) = NonFinite.
Proof.
  intros NE HKg. unfold nsb_simple.
  assert (EK : match Kg with Some k => k | None => Z.of_nat (dd_K (dd_of xs)) end = Z.of_nat (length xs)) by (destruct Kg; [exact HKg|rewrite dd_K_of, HKg; reflexivity]).
  rewrite EK, dd_N_of. rewrite <- INR_IZR_INZ, np_log_ok by (destruct xs; [congruence|apply lt_0_INR; cbn; lia]). cbn [bind].
  rewrite Z.sub_diag, Z.eqb_refl. reflexivity.
Qed.
End model.

(** ** equivalent samples *)
Lemma equi_weight {A B} `{EqDec A} `{EqDec B} (xs : list A) (ys : list B) : equi xs ys -> forall K beta, 0 < beta -> weight K xs beta = weight K ys beta.
Proof.
  intros (L & Q) K beta Hb. unfold weight. rewrite L. f_equal.
  rewrite !prodR_exp by (intros; apply pow_lt, rising_pos; exact Hb). f_equal. apply (Q (fun n => ln (rising beta n ^ n))).
Qed.
Lemma equi_nsb {A B} `{EqDec A} `{EqDec B} D T K (xs : list A) (ys : list B) h : (1 <= K)%nat -> equi xs ys -> is_nsb D T K xs h -> is_nsb D T K ys h.
Proof.
  intros HK P (num & den & Hn & Hd & Pd & ->). assert (P1 : 1 <= INR K) by (apply (le_INR 1); exact HK). assert (0 <= ln (INR K)) by (apply ln_nonneg; exact P1).
  exists num, den. split; [|split; [|split; [exact Pd|reflexivity]]].
  - apply is_RInt_ext with (2 := Hn). rewrite Rmin_left, Rmax_right by assumption. intros x Hx.
    rewrite (equi_weight xs ys P) by lra. f_equal. unfold posterior_entropy. rewrite (equi_len xs ys P), (equi_nvals xs ys P). f_equal.
    apply (proj2 P (fun n => (INR n + x) / (INR (length ys) + INR (nvals ys) * x) * D (INR n + x + 1))).
  - apply is_RInt_ext with (2 := Hd). rewrite Rmin_left, Rmax_right by assumption. intros x Hx. rewrite (equi_weight xs ys P) by lra. reflexivity.
Qed.

(** ** the library functions exist *)
Lemma inf_sum_cv f : (exists l, Un_cv (ps f) l) -> exists l, infinite_sum f l.
Proof.
  intros (l & Hl). exists l. intros eps He. destruct (Hl eps He) as (N & HN). exists N. intros n Hn. rewrite <- ps_sum. apply HN. lia.
Qed.
Lemma cv_dominated f c : (forall n, 0 <= f n) -> (forall n, f n <= c * / INR (S n) ^ 2) -> { l : R | Un_cv (ps f) l }.
Proof.
  intros P Q. apply growing_cv.
  - intros n. cbn [ps]. specialize (P n). lra.
  - exists (Rabs c * 2). intros x (i & ->). apply Rle_trans with (ps (fun n => Rabs c * / INR (S n) ^ 2) i).
    + apply ps_le. intros k _. apply Rle_trans with (1 := Q k). apply Rmult_le_compat_r; [left; apply Rinv_0_lt_compat, pow_lt, lt_0_INR; lia|apply RRle_abs].
    + rewrite ps_scal. apply Rmult_le_compat_l; [apply Rabs_pos|apply inv_sq_sum].
Qed.
Lemma cv_inf f l : Un_cv (ps f) l -> infinite_sum f l.
Proof. intros Hl eps He. destruct (Hl eps He) as (N & HN). exists N. intros n Hn. rewrite <- ps_sum. apply HN. lia. Qed.
Lemma inv_lin x n : 0 < x -> / (x + INR n) <= Rmax 1 (/ x) * / INR (S n).
Proof.
  intros Hx. pose proof (pos_INR n) as Pn. rewrite S_INR. pose proof (Rmax_l 1 (/ x)) as M1. pose proof (Rmax_r 1 (/ x)) as M2.
  set (M := Rmax 1 (/ x)) in *. apply Rmult_le_reg_r with ((x + INR n) * (INR n + 1)); [apply Rmult_lt_0_compat; lra|].
  replace (/ (x + INR n) * ((x + INR n) * (INR n + 1))) with (INR n + 1) by (field; lra).
  replace (M * / (INR n + 1) * ((x + INR n) * (INR n + 1))) with (M * x + M * INR n) by (field; lra).
  assert (1 <= M * x). { apply Rle_trans with (/ x * x); [rewrite Rinv_l; lra|apply Rmult_le_compat_r; lra]. }
  assert (1 * INR n <= M * INR n) by (apply Rmult_le_compat_r; lra). lra.
Qed.
Lemma trigamma_ex : { T : R -> R | is_trigamma T }.
Proof.
  assert (X : forall x, 0 < x -> { l : R | Un_cv (ps (fun n => / (x + INR n) ^ 2)) l }).
  { intros x Hx. apply (cv_dominated _ (Rmax 1 (/ x) ^ 2)); intros n; pose proof (pos_INR n) as Pn.
    - left. apply Rinv_0_lt_compat, pow_lt. lra.
    - pose proof (inv_lin x n Hx) as Y. assert (Q : 0 < / (x + INR n)) by (apply Rinv_0_lt_compat; lra).
      rewrite <- !pow_inv. rewrite <- Rpow_mult_distr. apply pow_incr. split; [lra|exact Y]. }
  exists (fun x => match Rlt_dec 0 x with left p => proj1_sig (X x p) | right _ => 0 end). intros x Hx. destruct (Rlt_dec 0 x) as [p|n]; [|contradiction].
  apply cv_inf. exact (proj2_sig (X x p)).
Qed.
Lemma digamma_ex : { D : R -> R | is_digamma D }.
Proof.
  assert (X : forall x, 0 < x -> { l : R | Un_cv (ps (fun n => / INR (S n) - / (x + INR n))) l }).
  { intros x Hx. set (M := Rmax 1 (/ x)).
    assert (B : forall n, 0 <= / INR (S n) * / (x + INR n) <= M * / INR (S n) ^ 2).
    { intros n. pose proof (pos_INR n) as Pn. pose proof (inv_lin x n Hx) as Y. fold M in Y. assert (P1 : 0 < / INR (S n)) by (apply Rinv_0_lt_compat, lt_0_INR; lia).
      assert (P2 : 0 < / (x + INR n)) by (apply Rinv_0_lt_compat; lra). split; [apply Rmult_le_pos; lra|].
      rewrite <- pow_inv. replace (M * (/ INR (S n)) ^ 2) with (/ INR (S n) * (M * / INR (S n))) by ring. apply Rmult_le_compat_l; [lra|exact Y]. }
    destruct (cv_dominated (fun n => / INR (S n) * / (x + INR n)) M (fun n => proj1 (B n)) (fun n => proj2 (B n))) as (l & Hl).
    exists ((x - 1) * l). intros eps He. destruct (cv_scal (x - 1) _ _ Hl eps He) as (N & HN). exists N. intros n Hn. specialize (HN n Hn).
    rewrite <- ps_scal in HN. rewrite (ps_ext _ (fun k => (x - 1) * (/ INR (S k) * / (x + INR k)))); [exact HN|].
    intros k _. pose proof (pos_INR k) as Pk. rewrite S_INR. field. lra. }
  exists (fun x => match Rlt_dec 0 x with left p => proj1_sig (X x p) - euler_gamma | right _ => 0 end). intros x Hx. destruct (Rlt_dec 0 x) as [p|n]; [|contradiction].
  apply cv_inf. replace (proj1_sig (X x p) - euler_gamma + euler_gamma) with (proj1_sig (X x p)) by ring. exact (proj2_sig (X x p)).
Qed.
(** log-gamma of x from its value at 1 plus the fractional part *)
Lemma loggamma_ex : { L : R -> R | is_loggamma L }.
Proof.
  exists (fun x => sumf (fun j => if Req_EM_T (x - INR j) 0 then 0 else ln (x - INR j)) (seq 1 (Z.to_nat (Int_part x)))). intros x Hx.
  assert (EI : Int_part (x + 1) = (Int_part x + 1)%Z).
  { unfold Int_part. replace (x + 1) with (x + IZR 1) by reflexivity.
    assert (up (x + IZR 1) = (up x + 1)%Z); [|lia]. symmetry. apply tech_up; rewrite plus_IZR; pose proof (archimed x); lra. }
  assert (P0 : (0 <= Int_part x)%Z) by (pose proof (base_Int_part x) as (_ & Q); apply Z.lt_succ_r; apply lt_IZR; rewrite succ_IZR; lra).
  rewrite EI. replace (Z.to_nat (Int_part x + 1)) with (S (Z.to_nat (Int_part x))) by lia. cbn [seq sumf].
  change (INR 1) with 1. replace (x + 1 - 1) with x by ring. destruct (Req_EM_T x 0) as [Z|_]; [lra|].
  rewrite <- (seq_shift (Z.to_nat (Int_part x)) 1), sumf_map. rewrite (sumf_ext _ (fun j => if Req_EM_T (x - INR j) 0 then 0 else ln (x - INR j))).
  - ring.
  - intros j _. replace (x + 1 - INR (S j)) with (x - INR j) by (rewrite S_INR; ring). reflexivity.
Qed.
Lemma nsb_lib_ex ext : exists E, nsb_lib E /\ extremum E = ext.
Proof.
  destruct digamma_ex as (D & HD), trigamma_ex as (T & HT), loggamma_ex as (L & HL).
  exists (mkNsb L D T (fun f a b => RInt f a b) ext). split; [|reflexivity]. repeat split; cbn [lgamma digam trigam quad]; try assumption.
  intros f a b v Hv. apply is_RInt_unique, Hv.
Qed.
