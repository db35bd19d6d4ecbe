(** Proofs: estimators on growing records with settling frequencies. *)
From Coq Require Import Reals Lra Lia List ZArith Arith Bool Permutation.
From Coquelicot Require Import Rbar Lim_seq Continuity Rcomplements Hierarchy ElemFct Derive.
From Verif Require Import Res RSum Spec SpecGamma SpecEst SpecCons Info Info2 PLog PBase PEst PEst2 PEst3 PEst4 PEst5 PDiv PRepl.
Import ListNotations.
Local Open Scope R_scope.

(** x ln x is continuous everywhere on [0, oo) *)
Lemma plnp_ln x : plnp x = x * ln x.
Proof. unfold plnp. destruct (Req_EM_T x 0) as [->|_]; ring. Qed.

Lemma ln_neg x : x <= 0 -> ln x = 0.
Proof. intros X. unfold ln. destruct (Rlt_dec 0 x) as [Y|Y]; [exfalso; lra|reflexivity]. Qed.

Lemma xl_small x : x <= 1 -> Rabs (x * ln x) <= 2 * sqrt (Rabs x).
Proof.
  intros X. destruct (Rle_dec x 0) as [N|P].
  - rewrite ln_neg by exact N. rewrite Rmult_0_r, Rabs_R0. pose proof (sqrt_pos (Rabs x)). lra.
  - apply Rnot_le_lt in P. rewrite (Rabs_pos_eq x) by lra. set (s := sqrt x). assert (S0 : 0 < s) by (apply sqrt_lt_R0; exact P).
    assert (Q : x = s * s) by (unfold s; rewrite sqrt_sqrt; lra). assert (S1 : s <= 1) by nra.
    assert (L0 : ln x <= 0) by (rewrite <- ln_1; apply ln_le; lra).
    assert (L1 : - ln s <= / s - 1).
    { rewrite <- ln_Rinv by exact S0. pose proof (Rinv_0_lt_compat s S0) as I0. pose proof (exp_ineq1_le (ln (/ s))) as E.
      rewrite exp_ln in E by exact I0. lra. }
    rewrite Rabs_left1 by (assert (0 <= x * - ln x) by (apply Rmult_le_pos; lra); lra).
    rewrite Q at 2. rewrite ln_mult by assumption. rewrite Q.
    assert (s * s * (/ s - 1) <= s). { replace (s * s * (/ s - 1)) with (s - s * s) by (field; lra). nra. }
    assert (s * s * - ln s <= s * s * (/ s - 1)) by (apply Rmult_le_compat_l; nra). nra.
Qed.

Lemma lim_abs0 (u : nat -> R) : is_lim_seq u 0 -> is_lim_seq (fun m => Rabs (u m)) 0.
Proof. intros L. apply (is_lim_seq_abs u 0) in L. simpl in L. rewrite Rabs_R0 in L. exact L. Qed.
Lemma lim_squeeze0 (u e : nat -> R) : (exists n0, forall m, (n0 <= m)%nat -> Rabs (u m) <= e m) -> is_lim_seq e 0 -> is_lim_seq u 0.
Proof.
  intros [n0 B] L. apply (is_lim_seq_le_le_loc (fun m => - e m) u e).
  - exists n0. intros m Hm. specialize (B m Hm). apply Rabs_le_between in B. exact B.
  - apply (lim_eq _ (- 0)); [ring|]. apply lim_opp. exact L.
  - exact L.
Qed.

Lemma lim_xl (u : nat -> R) l : 0 <= l -> is_lim_seq u l -> is_lim_seq (fun m => u m * ln (u m)) (l * ln l).
Proof.
  intros [P|<-] L; [apply lim_xlnx; assumption|]. rewrite Rmult_0_l.
  apply (lim_squeeze0 _ (fun m => 2 * sqrt (Rabs (u m)))).
  - apply is_lim_seq_spec in L. destruct (L (mkposreal 1 Rlt_0_1)) as [n0 B]. exists n0. intros m Hm. specialize (B m Hm).
    cbn [pos] in B. rewrite Rminus_0_r in B. apply xl_small. apply Rabs_def2 in B. lra.
  - apply (lim_eq _ (2 * sqrt 0)); [rewrite sqrt_0; ring|]. apply is_lim_seq_mult'; [apply is_lim_seq_const|].
    apply (is_lim_seq_continuous sqrt); [apply continuity_pt_sqrt; lra|]. apply lim_abs0. exact L.
Qed.

Lemma lim_plnp (u : nat -> R) l : 0 <= l -> is_lim_seq u l -> is_lim_seq (fun m => plnp (u m)) (plnp l).
Proof.
  intros P L. rewrite plnp_ln. apply (is_lim_seq_ext (fun m => u m * ln (u m))); [intros; symmetry; apply plnp_ln|].
  apply lim_xl; assumption.
Qed.

(** upper bound of the rest of the logarithm series *)
Lemma ln_series_rest n x : 0 <= x < 1 -> (0 < n)%nat ->
  - ln (1 - x) - sumf (fun r => / INR r * x ^ r) (seq 1 (n - 1)) <= x ^ n / (INR n * (1 - x)).
Proof.
  intros [H0 H1] Hn. destruct n as [|k]; [lia|]. replace (S k - 1)%nat with k by lia.
  destruct (Req_dec x 0) as [->|N].
  - rewrite Rminus_0_r, ln_1, Ropp_0.
    assert (E : sumf (fun r => / INR r * 0 ^ r) (seq 1 k) = 0).
    { rewrite (sumf_ext _ (fun _ => 0)); [apply sumf_zero|]. intros r Hr. apply in_seq in Hr. rewrite pow_i by lia. ring. }
    rewrite E, pow_i by lia. unfold Rdiv. rewrite Rmult_0_l. lra.
  - pose proof (INR_pos (S k) ltac:(lia)) as PK.
    set (f := fun y => y ^ S k * / INR (S k) * / (1 - y) - (- ln (1 - y) - sumf (fun r => / INR r * y ^ r) (seq 1 k))).
    set (f' := fun y => (y ^ k * / (1 - y) + y ^ S k * / INR (S k) * / ((1 - y) * (1 - y))) - (/ (1 - y) - sumf (fun r => y ^ (r - 1)) (seq 1 k))).
    assert (D : forall c, 0 <= c <= x -> derivable_pt_lim f c (f' c)).
    { intros c Hc. unfold f, f'.
      apply (derivable_pt_lim_minus (fun y => y ^ S k * / INR (S k) * / (1 - y)) (fun y => - ln (1 - y) - sumf (fun r => / INR r * y ^ r) (seq 1 k))).
      - replace (c ^ k * / (1 - c) + c ^ S k * / INR (S k) * / ((1 - c) * (1 - c))) with
          ((INR (S k) * c ^ k) * / INR (S k) * / (1 - c) + c ^ S k * / INR (S k) * (/ ((1 - c) * (1 - c)))) by (field; lra).
        apply (derivable_pt_lim_mult (fun y => y ^ S k * / INR (S k)) (fun y => / (1 - y))).
        + replace (INR (S k) * c ^ k * / INR (S k)) with (INR (S k) * c ^ k * / INR (S k) + c ^ S k * 0) by ring.
          apply (derivable_pt_lim_mult (fun y => y ^ S k) (fun _ => / INR (S k))); [|apply derivable_pt_lim_const].
          replace (c ^ k) with (c ^ pred (S k)) by reflexivity. apply derivable_pt_lim_pow.
        + apply is_derive_Reals. evar_last; [apply is_derive_inv|].
          * apply is_derive_Reals. apply (derivable_pt_lim_minus (fun _ => 1) (fun y => y)); [apply derivable_pt_lim_const|apply derivable_pt_lim_id].
          * lra.
          * simpl. field. lra.
      - apply (derivable_pt_lim_minus (fun y => - ln (1 - y)) (fun y => sumf (fun r => / INR r * y ^ r) (seq 1 k))); [|apply deriv_powsum].
        replace (/ (1 - c)) with (- (/ (1 - c) * (0 - 1))) by ring.
        apply (derivable_pt_lim_opp (fun y => ln (1 - y))).
        apply (derivable_pt_lim_comp (fun y => 1 - y) ln).
        + apply (derivable_pt_lim_minus (fun _ => 1) (fun y => y)); [apply derivable_pt_lim_const|apply derivable_pt_lim_id].
        + apply derivable_pt_lim_ln. lra. }
    destruct (MVT_cor2 f f' 0 x ltac:(lra) D) as (c & E & Hc).
    assert (F0 : f 0 = 0).
    { unfold f. rewrite Rminus_0_r, ln_1, pow_i by lia.
      rewrite (sumf_ext (fun r => / INR r * 0 ^ r) (fun _ => 0)); [rewrite sumf_zero; ring|]. intros r Hr. apply in_seq in Hr.
      rewrite pow_i by lia. ring. }
    assert (P : 0 <= f' c).
    { unfold f'. assert (Q : sumf (fun r => c ^ (r - 1)) (seq 1 k) = (1 - c ^ k) / (1 - c)).
      { apply (Rmult_eq_reg_l (1 - c)); [|lra]. rewrite geo_sum. field. lra. }
      rewrite Q. replace (c ^ k * / (1 - c) + c ^ S k * / INR (S k) * / ((1 - c) * (1 - c)) - (/ (1 - c) - (1 - c ^ k) / (1 - c)))
        with (c ^ S k * / INR (S k) * / ((1 - c) * (1 - c))) by (field; lra).
      apply Rmult_le_pos; [apply Rmult_le_pos; [apply pow_le; lra|]|]; left; apply Rinv_0_lt_compat; [exact PK|nra]. }
    assert (0 <= f' c * (x - 0)) by (apply Rmult_le_pos; lra).
    rewrite F0 in E. unfold f in E. unfold Rdiv. rewrite Rinv_mult. lra.
Qed.

Section Settle.
Context {A : Type} `{EqDec A}.
Variables (U : list A) (p : A -> R) (x : nat -> list A).
Hypothesis SET : settles U p x.
Notation N := (fun m => length (x m)).
Notation Hlim := (limit_entropy U p).

Lemma st_nodup : NoDup U. Proof using SET. apply SET. Qed.
Lemma st_long L : exists m0, forall m, (m0 <= m)%nat -> (L <= length (x m))%nat. Proof using SET. apply SET. Qed.
Lemma st_freq u : In u U -> is_lim_seq (fun m => INR (count (x m) u) / INR (length (x m))) (p u).
Proof using SET. intros Hu. apply is_lim_seq_Reals. apply SET, Hu. Qed.
Lemma st_incl m : incl (distinct (x m)) U.
Proof using SET. intros v Hv. apply (proj1 (distinct_In (x m) v)) in Hv. destruct SET as (_ & I0 & _). apply (I0 m), Hv. Qed.
Lemma st_nvals m : (nvals (x m) <= length U)%nat.
Proof using SET. apply NoDup_incl_length; [apply NoDup_nodup|apply st_incl]. Qed.
Lemma st_freq_le r m : (freq r (x m) <= length U)%nat.
Proof using SET.
  eapply Nat.le_trans; [|apply (st_nvals m)]. unfold freq, nvals. generalize (distinct (x m)). intros l.
  induction l as [|v l IH]; simpl; [lia|]. destruct (Nat.eqb _ _); simpl; lia.
Qed.

Lemma st_N_inf : is_lim_seq (fun m => INR (length (x m))) p_infty.
Proof using SET.
  apply is_lim_seq_spec. intros M. assert (HL0 : exists L, M < INR L) by (exists (Z.to_nat (up (Rabs M))); rewrite INR_IZR_INZ, Z2Nat.id; [pose proof (archimed (Rabs M)); pose proof (Rle_abs M); lra|apply le_IZR; pose proof (archimed (Rabs M)); pose proof (Rabs_pos M); lra]). destruct HL0 as [L HL]. destruct (st_long L) as [m0 Hm]. exists m0. intros m Hm'.
  specialize (Hm m Hm'). apply le_INR in Hm. lra.
Qed.
Lemma lim_over_N c : is_lim_seq (fun m => c / INR (length (x m))) 0.
Proof using SET.
  apply (lim_eq _ (c * 0)); [ring|]. unfold Rdiv. apply is_lim_seq_mult'; [apply is_lim_seq_const|].
  apply (is_lim_seq_inv (fun m => INR (length (x m))) p_infty); [apply st_N_inf|discriminate].
Qed.
Lemma ev_pos : exists m0, forall m, (m0 <= m)%nat -> (1 <= length (x m))%nat.
Proof using SET. apply st_long. Qed.

Lemma p_nonneg u : In u U -> 0 <= p u.
Proof using SET.
  intros Hu. apply (is_lim_seq_le (fun _ => 0) (fun m => INR (count (x m) u) / INR (length (x m))) 0 (p u)).
  - intros m. destruct (length (x m)) as [|k].
    + simpl. unfold Rdiv. rewrite Rinv_0. lra.
    + apply Rdiv_le_0_compat; [apply pos_INR|apply INR_pos; lia].
  - apply is_lim_seq_const.
  - apply st_freq, Hu.
Qed.

Lemma ev_occurs u : In u U -> 0 < p u -> exists m0, forall m, (m0 <= m)%nat -> (1 <= count (x m) u)%nat.
Proof using SET.
  intros Hu P. pose proof (st_freq u Hu) as L. apply is_lim_seq_spec in L. destruct (L (mkposreal (p u) P)) as [m0 B].
  exists m0. intros m Hm. specialize (B m Hm). cbn [pos] in B. destruct (count (x m) u) as [|k]; [|lia]. exfalso.
  simpl in B. unfold Rdiv in B. rewrite Rmult_0_l in B. rewrite Rminus_0_l, Rabs_Ropp, Rabs_pos_eq in B; lra.
Qed.

(** one symbol: a term that follows -r ln r up to a vanishing error wherever the symbol occurs *)
Lemma term_lim u (t r e : nat -> R) : In u U -> is_lim_seq r (p u) -> is_lim_seq e 0 ->
  (exists m0, forall m, (m0 <= m)%nat -> (count (x m) u = 0%nat -> t m = 0) /\
     ((1 <= count (x m) u)%nat -> Rabs (t m + r m * ln (r m)) <= e m)) ->
  is_lim_seq t (- plnp (p u)).
Proof using SET.
  intros Hu Lr Le [m0 B]. pose proof (lim_xl r (p u) (p_nonneg u Hu) Lr) as X. destruct (p_nonneg u Hu) as [P|P].
  - destruct (ev_occurs u Hu P) as [m1 O].
    apply (is_lim_seq_ext (fun m => (t m + r m * ln (r m)) - r m * ln (r m))); [intros; ring|].
    apply (lim_eq _ (0 - p u * ln (p u))); [rewrite plnp_ln; ring|]. apply is_lim_seq_minus'; [|exact X].
    apply (lim_squeeze0 _ e); [|exact Le]. exists (m0 + m1)%nat. intros m Hm. apply (B m ltac:(lia)). apply O. lia.
  - rewrite <- P in *. apply (lim_eq _ 0); [rewrite plnp_ln; ring|].
    apply (lim_squeeze0 _ (fun m => Rabs (e m) + Rabs (r m * ln (r m)))).
    + exists m0. intros m Hm. destruct (B m Hm) as [B0 B1]. destruct (count (x m) u) as [|k].
      * rewrite B0 by reflexivity. rewrite Rabs_R0. pose proof (Rabs_pos (e m)). pose proof (Rabs_pos (r m * ln (r m))). lra.
      * specialize (B1 ltac:(lia)). pose proof (Rle_abs (e m)).
        replace (t m) with ((t m + r m * ln (r m)) + - (r m * ln (r m))) by ring.
        eapply Rle_trans; [apply Rabs_triang|]. rewrite Rabs_Ropp. lra.
    + apply (lim_eq _ (0 + 0)); [ring|]. apply is_lim_seq_plus'; [apply lim_abs0, Le|].
      apply lim_abs0. apply (lim_eq _ (0 * ln 0)); [ring|exact X].
Qed.

(** sums over the occurring values are sums over the alphabet *)
Lemma sum_over (f : A -> R) m : sumf f (distinct (x m)) = sumf (fun u => if Nat.eqb (count (x m) u) 0 then 0 else f u) U.
Proof using SET.
  rewrite (sumf_support (distinct (x m)) U (fun u => if Nat.eqb (count (x m) u) 0 then 0 else f u)).
  - apply sumf_ext. intros v Hv. apply (proj1 (distinct_In (x m) v)) in Hv. apply count_pos in Hv.
    destruct (Nat.eqb_spec (count (x m) v) 0); [lia|reflexivity].
  - apply NoDup_nodup.
  - apply st_nodup.
  - apply st_incl.
  - intros v _ Nv. destruct (Nat.eqb_spec (count (x m) v) 0) as [|C]; [reflexivity|]. exfalso. apply Nv.
    apply distinct_In. apply count_pos. lia.
Qed.

Lemma sum_lim (f : nat -> A -> R) (r : nat -> A -> R) (e : nat -> R) :
  (forall u, In u U -> is_lim_seq (fun m => r m u) (p u)) -> is_lim_seq e 0 ->
  (exists m0, forall m u, (m0 <= m)%nat -> (1 <= count (x m) u <= length (x m))%nat -> Rabs (f m u + r m u * ln (r m u)) <= e m) ->
  is_lim_seq (fun m => sumf (f m) (distinct (x m))) Hlim.
Proof using SET.
  intros Lr Le [m0 B]. apply (is_lim_seq_ext (fun m => sumf (fun u => if Nat.eqb (count (x m) u) 0 then 0 else f m u) U)).
  - intros m. symmetry. apply sum_over.
  - unfold limit_entropy. rewrite <- sumf_opp. apply (lim_sumf (fun m u => if Nat.eqb (count (x m) u) 0 then 0 else f m u)).
    intros u Hu. apply (term_lim u _ (fun m => r m u) e Hu (Lr u Hu) Le). exists m0. intros m Hm.
    destruct (Nat.eqb_spec (count (x m) u) 0) as [C|C].
    + split; [reflexivity|lia].
    + split; [lia|]. intros C1. apply B; [exact Hm|]. split; [exact C1|apply count_le].
Qed.

Lemma ent_lim : is_lim_seq (fun m => Ent (x m)) Hlim.
Proof using SET.
  unfold Ent. apply (is_lim_seq_ext (fun m => sumf (fun v => - (prob (x m) v * ln (prob (x m) v))) (distinct (x m)))).
  - intros m. apply sumf_opp.
  - apply (sum_lim _ (fun m u => INR (count (x m) u) / INR (length (x m))) (fun _ => 0)).
    + apply st_freq.
    + apply is_lim_seq_const.
    + exists 0%nat. intros m u _ _. unfold prob. rewrite Rplus_opp_l, Rabs_R0. lra.
Qed.

Lemma mm_settle : is_lim_seq (fun m => Ent (x m) + (INR (nvals (x m)) - 1) / (2 * INR (length (x m)))) Hlim.
Proof using SET.
  apply (lim_eq _ (Hlim + 0)); [ring|]. apply is_lim_seq_plus'; [apply ent_lim|].
  apply (lim_squeeze0 _ (fun m => (INR (length U) + 1) / INR (length (x m)))); [|apply lim_over_N].
  destruct ev_pos as [m0 E]. exists m0. intros m Hm. specialize (E m Hm). assert (P : 0 < INR (length (x m))) by (apply INR_pos; lia).
  pose proof (st_nvals m) as K. apply le_INR in K. pose proof (pos_INR (nvals (x m))).
  replace ((INR (nvals (x m)) - 1) / (2 * INR (length (x m)))) with ((INR (nvals (x m)) - 1) / 2 * / INR (length (x m))) by (field; lra).
  rewrite Rabs_mult, (Rabs_pos_eq (/ _)) by (left; apply Rinv_0_lt_compat; exact P).
  apply Rmult_le_compat_r; [left; apply Rinv_0_lt_compat; exact P|]. apply Rabs_le. lra.
Qed.

Lemma psi_close n : (1 <= n)%nat -> Rabs (psi n - ln (INR n)) <= / INR n.
Proof using. intros Hn. pose proof (psi_le_ln n Hn). pose proof (psi_ge_ln n Hn). apply Rabs_le. pose proof (Rinv_0_lt_compat _ (INR_pos n Hn)). lra. Qed.
Lemma frac_le n L : (1 <= n <= L)%nat -> 0 < INR n / INR L <= 1.
Proof using.
  intros Hn. assert (0 < INR L) by (apply INR_pos; lia). assert (0 < INR n) by (apply INR_pos; lia). split; [apply Rdiv_lt_0_compat; assumption|].
  apply Rle_div_l; [assumption|]. rewrite Rmult_1_l. apply le_INR. lia.
Qed.

Lemma zhang_settle : is_lim_seq (fun m => ZhangH (x m)) Hlim.
Proof using SET.
  unfold ZhangH, bycount.
  apply (sum_lim (fun m u => INR (count (x m) u) / INR (length (x m)) * (harm (length (x m) - 1) - harm (count (x m) u - 1)))
           (fun m u => INR (count (x m) u) / INR (length (x m))) (fun m => 2 / INR (length (x m)))); [apply st_freq|apply lim_over_N|].
  exists 0%nat. intros m u _ C. set (n := count (x m) u) in *. set (L := length (x m)) in *.
  rewrite <- psi_diff. pose proof (frac_le n L C) as F. assert (PL : 0 < INR L) by (apply INR_pos; lia). assert (Pn : 0 < INR n) by (apply INR_pos; lia).
  pose proof (psi_close n ltac:(lia)) as Q1. pose proof (psi_close L ltac:(lia)) as Q2.
  rewrite ln_div by assumption.
  replace (INR n / INR L * (psi L - psi n) + INR n / INR L * (ln (INR n) - ln (INR L)))
    with (INR n / INR L * ((psi L - ln (INR L)) - (psi n - ln (INR n)))) by ring.
  rewrite Rabs_mult, (Rabs_pos_eq (INR n / INR L)) by lra.
  apply Rle_trans with (INR n / INR L * (/ INR L + / INR n)).
  - apply Rmult_le_compat_l; [lra|]. apply Rabs_le. apply Rabs_le_between in Q1. apply Rabs_le_between in Q2. lra.
  - replace (INR n / INR L * (/ INR L + / INR n)) with (INR n / INR L * / INR L + / INR L) by (field; lra).
    assert (INR n / INR L * / INR L <= 1 * / INR L) by (apply Rmult_le_compat_r; [left; apply Rinv_0_lt_compat; exact PL|lra]).
    unfold Rdiv at 2. lra.
Qed.

Lemma cwj_corr m : (1 <= length (x m))%nat ->
  0 <= ChaoWangJostH (x m) - ZhangH (x m) <= INR (length U) * (INR (length U) / 2 + 1) / INR (length (x m)).
Proof using SET.
  intros HN. assert (NE : x m <> []) by (intros E; rewrite E in HN; simpl in HN; lia).
  split; [pose proof (cwj_ge_zhang (x m) NE); lra|].
  unfold ChaoWangJostH. rewrite cwj_first. pose proof (cwj_coverage_bounds (x m) NE) as HA.
  set (L := length (x m)) in *. assert (PL : 1 <= INR L) by (apply (le_INR 1); lia).
  pose proof (pos_INR (length U)) as PK. set (K := INR (length U)) in *.
  assert (RHS : 0 <= K * (K / 2 + 1) / INR L) by (apply Rdiv_le_0_compat; [nra|lra]).
  destruct (Req_EM_T (cwj_coverage (x m)) 1) as [|NA]; [lra|].
  set (a := cwj_coverage (x m)) in *.
  assert (INVA : / a <= (INR L - 1) * K / 2 + 1).
  { pose proof (st_freq_le 1 m) as F1. apply le_INR in F1. fold K in F1. pose proof (pos_INR (freq 1 (x m))) as G1.
    unfold a, cwj_coverage in *. destruct (Nat.ltb_spec 0 (freq 2 (x m))) as [F2|F2].
    - assert (P2 : 1 <= INR (freq 2 (x m))) by (apply (le_INR 1); lia). fold L. set (f1 := INR (freq 1 (x m))) in *. set (f2 := INR (freq 2 (x m))) in *.
      assert (D : 0 <= (INR L - 1) * f1) by nra.
      replace (/ (2 * f2 / ((INR L - 1) * f1 + 2 * f2))) with ((INR L - 1) * f1 * / (2 * f2) + 1) by (field; lra).
      assert (V : / (2 * f2) <= / 2) by (apply Rinv_le_contravar; lra).
      assert ((INR L - 1) * f1 * / (2 * f2) <= (INR L - 1) * f1 * / 2) by (apply Rmult_le_compat_l; assumption).
      assert ((INR L - 1) * f1 <= (INR L - 1) * K) by (apply Rmult_le_compat_l; lra). lra.
    - destruct (Nat.ltb_spec 0 (freq 1 (x m))) as [F3|F3]; [|congruence].
      assert (P1 : 1 <= INR (freq 1 (x m))) by (apply (le_INR 1); lia). fold L. set (f1 := INR (freq 1 (x m))) in *.
      assert (D : 0 <= (INR L - 1) * (f1 - 1)) by (apply Rmult_le_pos; lra).
      replace (/ (2 / ((INR L - 1) * (f1 - 1) + 2))) with ((INR L - 1) * (f1 - 1) / 2 + 1) by (field; lra).
      assert ((INR L - 1) * (f1 - 1) <= (INR L - 1) * K) by (apply Rmult_le_compat_l; lra). lra. }
  pose proof (ln_series_rest L (1 - a) ltac:(lra) ltac:(lia)) as S1. replace (1 - (1 - a)) with a in S1 by ring.
  pose proof (st_freq_le 1 m) as F1. apply le_INR in F1. fold K in F1. pose proof (pos_INR (freq 1 (x m))) as G1. set (f1 := INR (freq 1 (x m))) in *.
  assert (QP : 0 < (1 - a) ^ (L - 1)) by (apply pow_lt; lra).
  assert (C0 : 0 <= f1 / INR L / (1 - a) ^ (L - 1)) by (apply Rdiv_le_0_compat; [apply Rdiv_le_0_compat; lra|exact QP]).
  assert (B1 : f1 / INR L / (1 - a) ^ (L - 1) * (- ln a - sumf (fun r => / INR r * (1 - a) ^ r) (seq 1 (L - 1))) <=
               f1 / INR L / (1 - a) ^ (L - 1) * ((1 - a) ^ L / (INR L * a))) by (apply Rmult_le_compat_l; [exact C0|exact S1]).
  assert (B2 : f1 / INR L / (1 - a) ^ (L - 1) * ((1 - a) ^ L / (INR L * a)) = f1 * (1 - a) * / a / INR L / INR L).
  { replace ((1 - a) ^ L) with ((1 - a) * (1 - a) ^ (L - 1)) by (rewrite (tech_pow_Rmult (1 - a) (L - 1)); f_equal; lia).
    field. repeat split; lra. }
  rewrite B2 in B1. assert (IA : 0 < / a) by (apply Rinv_0_lt_compat; lra).
  assert (B3 : f1 * (1 - a) * / a / INR L / INR L <= K * ((INR L - 1) * K / 2 + 1) / INR L / INR L).
  { unfold Rdiv. do 2 (apply Rmult_le_compat_r; [left; apply Rinv_0_lt_compat; lra|]).
    apply Rle_trans with (f1 * / a); [apply Rmult_le_compat_r; [lra|]; rewrite <- (Rmult_1_r f1) at 2; apply Rmult_le_compat_l; lra|]. apply Rmult_le_compat; lra. }
  assert (B4 : K * ((INR L - 1) * K / 2 + 1) / INR L / INR L <= K * (K / 2 + 1) / INR L).
  { unfold Rdiv at 1 5. apply Rmult_le_compat_r; [left; apply Rinv_0_lt_compat; lra|]. apply Rle_div_l; [lra|].
    assert ((INR L - 1) * K / 2 + 1 <= (K / 2 + 1) * INR L) by nra. nra. }
  lra.
Qed.

Lemma cwj_settle : is_lim_seq (fun m => ChaoWangJostH (x m)) Hlim.
Proof using SET.
  apply (is_lim_seq_ext (fun m => ZhangH (x m) + (ChaoWangJostH (x m) - ZhangH (x m)))); [intros; ring|].
  apply (lim_eq _ (Hlim + 0)); [ring|]. apply is_lim_seq_plus'; [apply zhang_settle|].
  apply (lim_squeeze0 _ (fun m => INR (length U) * (INR (length U) / 2 + 1) / INR (length (x m)))); [|apply lim_over_N].
  destruct ev_pos as [m0 E]. exists m0. intros m Hm. pose proof (cwj_corr m (E m Hm)) as B. rewrite Rabs_pos_eq; lra.
Qed.

Lemma grassberger_settle : is_lim_seq (fun m => GrassbergerH (x m)) Hlim.
Proof using SET.
  apply (is_lim_seq_ext (fun m => sumf (fun u => INR (count (x m) u) *
      (ln (INR (length (x m))) - psi (count (x m) u) - (-1) ^ count (x m) u / INR (count (x m) u + 1)) / INR (length (x m))) (distinct (x m)))).
  { intros m. rewrite grassberger_bycount. unfold bycount. rewrite <- sumf_div. reflexivity. }
  apply (sum_lim (fun m u => INR (count (x m) u) *
      (ln (INR (length (x m))) - psi (count (x m) u) - (-1) ^ count (x m) u / INR (count (x m) u + 1)) / INR (length (x m)))
           (fun m u => INR (count (x m) u) / INR (length (x m))) (fun m => 2 / INR (length (x m)))); [apply st_freq|apply lim_over_N|].
  exists 0%nat. intros m u _ C. set (n := count (x m) u) in *. set (L := length (x m)) in *.
  pose proof (frac_le n L C) as F. assert (PL : 0 < INR L) by (apply INR_pos; lia). assert (Pn : 0 < INR n) by (apply INR_pos; lia).
  pose proof (psi_close n ltac:(lia)) as Q1. rewrite ln_div by assumption.
  assert (Q2 : Rabs ((-1) ^ n / INR (n + 1)) <= / INR n).
  { unfold Rdiv. rewrite Rabs_mult, <- RPow_abs. replace (Rabs (-1)) with 1 by (rewrite Rabs_left; lra). rewrite pow1, Rmult_1_l.
    rewrite Rabs_pos_eq by (left; apply Rinv_0_lt_compat, INR_pos; lia). apply Rinv_le_contravar; [exact Pn|apply le_INR; lia]. }
  replace (INR n * (ln (INR L) - psi n - (-1) ^ n / INR (n + 1)) / INR L + INR n / INR L * (ln (INR n) - ln (INR L)))
    with (INR n / INR L * (- (psi n - ln (INR n)) - (-1) ^ n / INR (n + 1))) by (unfold Rdiv; ring).
  rewrite Rabs_mult, (Rabs_pos_eq (INR n / INR L)) by lra.
  apply Rle_trans with (INR n / INR L * (/ INR n + / INR n)).
  - apply Rmult_le_compat_l; [lra|]. apply Rabs_le. apply Rabs_le_between in Q1. apply Rabs_le_between in Q2. lra.
  - right. field. split; lra.
Qed.

Lemma lim_ratio_shift c d u : 0 <= d -> In u U ->
  is_lim_seq (fun m => (INR (count (x m) u) + c) / (INR (length (x m)) + d)) (p u).
Proof using SET.
  intros Hd Hu. destruct ev_pos as [m0 E].
  apply (is_lim_seq_ext_loc (fun m => (INR (count (x m) u) / INR (length (x m)) + c / INR (length (x m))) / (1 + d / INR (length (x m))))).
  - exists m0. intros m Hm. specialize (E m Hm). assert (P : 0 < INR (length (x m))) by (apply INR_pos; lia). field. split; lra.
  - apply (lim_eq _ ((p u + 0) / (1 + 0))); [field|]. apply is_lim_seq_div'; [| |lra].
    + apply is_lim_seq_plus'; [apply st_freq, Hu|apply lim_over_N].
    + apply is_lim_seq_plus'; [apply is_lim_seq_const|apply lim_over_N].
Qed.

Lemma bonachela_settle : is_lim_seq (fun m => BonachelaH (x m)) Hlim.
Proof using SET.
  apply (is_lim_seq_ext (fun m => sumf (fun u => INR (count (x m) u + 1) * (harm (length (x m) + 2) - harm (count (x m) u + 1)) / INR (length (x m) + 2)) (distinct (x m)))).
  { intros m. unfold BonachelaH, bycount. rewrite <- sumf_div. reflexivity. }
  apply (sum_lim (fun m u => INR (count (x m) u + 1) * (harm (length (x m) + 2) - harm (count (x m) u + 1)) / INR (length (x m) + 2))
           (fun m u => (INR (count (x m) u) + 1) / (INR (length (x m)) + 2)) (fun m => 4 / INR (length (x m)))); [intros u Hu; apply lim_ratio_shift; [lra|exact Hu]|apply lim_over_N|].
  exists 0%nat. intros m u _ C. set (n := count (x m) u) in *. set (L := length (x m)) in *.
  assert (PL : 0 < INR L) by (apply INR_pos; lia). assert (Pn : 0 < INR n) by (apply INR_pos; lia).
  pose proof (psi_close (n + 2) ltac:(lia)) as Q1. pose proof (psi_close (L + 3) ltac:(lia)) as Q2.
  unfold psi in Q1, Q2. replace (n + 2 - 1)%nat with (n + 1)%nat in Q1 by lia. replace (L + 3 - 1)%nat with (L + 2)%nat in Q2 by lia.
  rewrite !plus_INR in *. change (INR 1) with 1 in *. replace (INR 2) with 2 in * by (simpl; ring). replace (INR 3) with 3 in * by (simpl; ring).
  set (y := INR n) in *. set (z := INR L) in *. assert (YZ : y <= z) by (apply le_INR; lia).
  assert (Y1 : 1 <= y) by (apply (le_INR 1); lia).
  assert (A1 : 0 <= ln (y + 2) - ln (y + 1) <= / (y + 1)).
  { split; [assert (ln (y + 1) <= ln (y + 2)) by (apply ln_le; lra); lra|].
    rewrite <- ln_div by lra. replace ((y + 2) / (y + 1)) with (1 + / (y + 1)) by (field; lra).
    pose proof (exp_ineq1_le (/ (y + 1))) as X. apply ln_le in X; [rewrite ln_exp in X; exact X|]. pose proof (Rinv_0_lt_compat (y + 1)). lra. }
  assert (A2 : 0 <= ln (z + 3) - ln (z + 2) <= / (z + 2)).
  { split; [assert (ln (z + 2) <= ln (z + 3)) by (apply ln_le; lra); lra|].
    rewrite <- ln_div by lra. replace ((z + 3) / (z + 2)) with (1 + / (z + 2)) by (field; lra).
    pose proof (exp_ineq1_le (/ (z + 2))) as X. apply ln_le in X; [rewrite ln_exp in X; exact X|]. pose proof (Rinv_0_lt_compat (z + 2)). lra. }
  rewrite (ln_div (y + 1) (z + 2)) by lra.
  replace ((y + 1) * (harm (L + 2) - harm (n + 1)) / (z + 2) + (y + 1) / (z + 2) * (ln (y + 1) - ln (z + 2)))
    with ((y + 1) / (z + 2) * ((- euler_gamma + harm (L + 2) - ln (z + 3)) - (- euler_gamma + harm (n + 1) - ln (y + 2)) + (ln (z + 3) - ln (z + 2)) - (ln (y + 2) - ln (y + 1)))) by (unfold Rdiv; ring).
  assert (FP : 0 < (y + 1) / (z + 2) <= 1).
  { split; [apply Rdiv_lt_0_compat; lra|]. apply Rle_div_l; lra. }
  rewrite Rabs_mult, (Rabs_pos_eq ((y + 1) / (z + 2))) by lra.
  assert (I1 : / (y + 2) <= / (y + 1)) by (apply Rinv_le_contravar; lra).
  assert (I2 : / (z + 3) <= / (z + 2)) by (apply Rinv_le_contravar; lra).
  assert (I3 : / (z + 2) <= / (y + 1)) by (apply Rinv_le_contravar; lra).
  apply Rle_trans with ((y + 1) / (z + 2) * (4 * / (y + 1))).
  - apply Rmult_le_compat_l; [lra|]. apply Rabs_le. apply Rabs_le_between in Q1. apply Rabs_le_between in Q2. lra.
  - replace ((y + 1) / (z + 2) * (4 * / (y + 1))) with (4 * / (z + 2)) by (field; lra). unfold Rdiv. apply Rmult_le_compat_l; [lra|].
    apply Rinv_le_contravar; lra.
Qed.

Lemma bayes_settle a : 0 < a -> is_lim_seq (fun m => BayesH a (INR (nvals (x m))) (x m)) Hlim.
Proof using SET.
  intros Ha. apply (is_lim_seq_ext (fun m => sumf (fun u => - (posterior a (INR (nvals (x m))) (x m) u * ln (posterior a (INR (nvals (x m))) (x m) u))) (distinct (x m)))).
  { intros m. unfold BayesH. apply sumf_opp. }
  apply (sum_lim _ (fun m u => posterior a (INR (nvals (x m))) (x m) u) (fun _ => 0)); [|apply is_lim_seq_const|].
  - intros u Hu. unfold posterior. destruct ev_pos as [m0 E].
    apply (is_lim_seq_le_le_loc (fun m => (INR (count (x m) u) + 0) / (INR (length (x m)) + INR (length U) * a)) _
             (fun m => (INR (count (x m) u) + a) / (INR (length (x m)) + 0))).
    + exists m0. intros m Hm. specialize (E m Hm). assert (P : 0 < INR (length (x m))) by (apply INR_pos; lia).
      pose proof (st_nvals m) as K. apply le_INR in K. pose proof (pos_INR (nvals (x m))) as K0. pose proof (pos_INR (count (x m) u)) as C0.
      assert (K1 : INR (nvals (x m)) * a <= INR (length U) * a) by (apply Rmult_le_compat_r; lra).
      assert (K2 : 0 <= INR (nvals (x m)) * a) by (apply Rmult_le_pos; lra).
      unfold Rdiv. split.
      * apply Rmult_le_compat; [lra|left; apply Rinv_0_lt_compat; lra|lra|]. apply Rinv_le_contravar; lra.
      * apply Rmult_le_compat_l; [lra|]. apply Rinv_le_contravar; lra.
    + apply lim_ratio_shift; [|exact Hu]. apply Rmult_le_pos; [apply pos_INR|lra].
    + apply lim_ratio_shift; [lra|exact Hu].
  - exists 0%nat. intros m u _ _. rewrite Rplus_opp_l, Rabs_R0. lra.
Qed.

Lemma coverage_lim : is_lim_seq (fun m => cs_coverage (x m)) 1.
Proof using SET.
  unfold cs_coverage. apply (lim_eq _ (1 - 0)); [ring|]. apply is_lim_seq_minus'; [apply is_lim_seq_const|].
  apply (lim_squeeze0 _ (fun m => INR (length U) / INR (length (x m)))); [|apply lim_over_N].
  destruct ev_pos as [m0 E]. exists m0. intros m Hm. specialize (E m Hm). assert (P : 0 < INR (length (x m))) by (apply INR_pos; lia).
  set (f := if Nat.eqb (freq 1 (x m)) (length (x m)) then (freq 1 (x m) - 1)%nat else freq 1 (x m)).
  assert (F : (f <= length U)%nat). { pose proof (st_freq_le 1 m). unfold f. destruct (Nat.eqb _ _); lia. }
  apply le_INR in F. pose proof (pos_INR f) as F0. rewrite Rabs_pos_eq by (apply Rdiv_le_0_compat; lra).
  unfold Rdiv. apply Rmult_le_compat_r; [left; apply Rinv_0_lt_compat; exact P|exact F].
Qed.

Lemma exp_pow_mul t n : exp t ^ n = exp (t * INR n).
Proof using.
  induction n as [|n IH]; [simpl; rewrite Rmult_0_r, exp_0; reflexivity|].
  rewrite <- tech_pow_Rmult, IH, <- exp_plus, S_INR. f_equal. ring.
Qed.

Lemma pow_exp y n : 0 <= y <= 1 -> (1 - y) ^ n <= exp (- (y * INR n)).
Proof using.
  intros Hy. pose proof (exp_ineq1_le (- y)) as X.
  apply Rle_trans with (exp (- y) ^ n); [apply pow_incr; lra|]. rewrite exp_pow_mul. right. f_equal. ring.
Qed.

Lemma y_exp y : 0 < y -> y * exp (- y) <= 1.
Proof using.
  intros Hy. pose proof (exp_ineq1_le y) as X. rewrite exp_Ropp. apply (Rle_div_l y 1 (exp y)); [apply exp_pos|]. lra.
Qed.

Lemma lnN_over_N : is_lim_seq (fun m => ln (2 * INR (length (x m))) / INR (length (x m))) 0.
Proof using SET.
  destruct ev_pos as [m0 E].
  apply (is_lim_seq_ext_loc (fun m => (-2) * ((1 / 2 / INR (length (x m))) * ln (1 / 2 / INR (length (x m)))))).
  - exists m0. intros m Hm. specialize (E m Hm). assert (P : 0 < INR (length (x m))) by (apply INR_pos; lia).
    replace (1 / 2 / INR (length (x m))) with (/ (2 * INR (length (x m)))) at 2 by (field; lra). rewrite ln_Rinv by lra. field. lra.
  - apply (lim_eq _ ((-2) * (0 * ln 0))); [ring|]. apply is_lim_seq_mult'; [apply is_lim_seq_const|].
    apply lim_xl; [lra|apply lim_over_N].
Qed.

Lemma chao_shen_settle : is_lim_seq (fun m => ChaoShenH (x m)) Hlim.
Proof using SET.
  apply (is_lim_seq_ext (fun m => sumf (fun u => - (let pa := cs_coverage (x m) * (INR (count (x m) u) / INR (length (x m))) in
                      pa * ln pa / (1 - (1 - pa) ^ length (x m)))) (distinct (x m)))).
  { intros m. unfold ChaoShenH, bycount. apply sumf_opp. }
  set (E0 := exp (- (1 / 2))).
  assert (E01 : 0 < E0 < 1). { split; [apply exp_pos|]. unfold E0. apply Rlt_le_trans with (exp 0); [apply exp_increasing; lra|rewrite exp_0; lra]. }
  apply (sum_lim _ (fun m u => cs_coverage (x m) * (INR (count (x m) u) / INR (length (x m))))
           (fun m => / (1 - E0) * (ln (2 * INR (length (x m))) / INR (length (x m))))).
  - intros u Hu. apply (lim_eq _ (1 * p u)); [ring|]. apply is_lim_seq_mult'; [apply coverage_lim|apply st_freq, Hu].
  - apply (lim_eq _ (/ (1 - E0) * 0)); [ring|]. apply is_lim_seq_mult'; [apply is_lim_seq_const|apply lnN_over_N].
  - pose proof coverage_lim as CL. apply is_lim_seq_spec in CL. destruct (CL (mkposreal (1 / 2) ltac:(lra))) as [m0 B].
    exists m0. intros m u Hm C. specialize (B m Hm). cbn [pos] in B. apply Rabs_def2 in B. cbv zeta.
    set (n := count (x m) u) in *. set (L := length (x m)) in *.
    assert (NE : x m <> []) by (intros Q; unfold L in C; rewrite Q in C; simpl in C; lia).
    pose proof (cs_coverage_bounds (x m) NE) as HC. set (c := cs_coverage (x m)) in *.
    pose proof (frac_le n L C) as F. assert (PL : 1 <= INR L) by (apply (le_INR 1); lia). assert (Pn : 1 <= INR n) by (apply (le_INR 1); lia).
    set (y := c * (INR n / INR L)).
    assert (Y : 0 < y <= 1). { unfold y. split; [apply Rmult_lt_0_compat; lra|]. apply Rle_trans with (1 * 1); [apply Rmult_le_compat; lra|lra]. }
    assert (YL : y * INR L = c * INR n) by (unfold y; field; lra).
    assert (YL1 : 1 / 2 <= y * INR L). { rewrite YL. apply Rle_trans with (1 / 2 * 1); [lra|apply Rmult_le_compat; lra]. }
    set (q := (1 - y) ^ L). assert (Q0 : 0 <= q) by (apply pow_le; lra).
    assert (Q1 : q <= exp (- (y * INR L))) by (apply pow_exp; lra).
    assert (Q2 : q <= E0). { eapply Rle_trans; [exact Q1|]. unfold E0. destruct YL1 as [Y1|Y1]; [left; apply exp_increasing; lra|rewrite <- Y1; lra]. }
    assert (QY : y * q <= / INR L).
    { pose proof (y_exp (y * INR L) ltac:(lra)) as Z. apply (Rmult_le_reg_r (INR L)); [lra|]. rewrite Rinv_l by lra.
      apply Rle_trans with (y * INR L * exp (- (y * INR L))); [|exact Z].
      replace (y * q * INR L) with (y * INR L * q) by ring. apply Rmult_le_compat_l; [lra|exact Q1]. }
    assert (LN : 0 <= - ln y <= ln (2 * INR L)).
    { split; [assert (ln y <= 0) by (rewrite <- ln_1; apply ln_le; lra); lra|].
      assert (G : / (2 * INR L) <= y). { apply (Rmult_le_reg_r (2 * INR L)); [lra|]. rewrite Rinv_l by lra. lra. }
      apply ln_le in G; [|apply Rinv_0_lt_compat; lra]. rewrite ln_Rinv in G by lra. lra. }
    replace (- (y * ln y / (1 - q)) + y * ln y) with ((y * q) * (- ln y) * / (1 - q)) by (field; lra).
    assert (YQ : 0 <= y * q) by (apply Rmult_le_pos; lra).
    rewrite Rabs_pos_eq by (apply Rmult_le_pos; [apply Rmult_le_pos; lra|left; apply Rinv_0_lt_compat; lra]).
    apply Rle_trans with (/ INR L * ln (2 * INR L) * / (1 - E0)); [|right; unfold Rdiv; ring].
    apply Rmult_le_compat; [apply Rmult_le_pos; lra|left; apply Rinv_0_lt_compat; lra| |apply Rinv_le_contravar; lra].
    apply Rmult_le_compat; lra.
Qed.

(** the shrunk probabilities are within 1/sqrt(N-1) of the observed ones *)
Lemma shrunk_near (zs : list A) u : (2 <= length zs)%nat -> In u zs ->
  (shrunk zs u - prob zs u) * (shrunk zs u - prob zs u) <= / (INR (length zs) - 1).
Proof using.
  intros HL Hu. assert (NE : zs <> []) by (intros ->; destruct Hu).
  assert (PL : 2 <= INR (length zs)) by (apply (le_INR 2); lia).
  pose proof (intensity_bounds zs NE) as LB. unfold shrunk. set (l := shrink_intensity zs) in *. set (K := INR (nvals zs)) in *.
  replace (l * / K + (1 - l) * prob zs u - prob zs u) with (- (l * (prob zs u - / K))) by ring.
  set (d := sumf (fun v => (prob zs v - / K) * (prob zs v - / K)) (distinct zs)).
  assert (DU : (prob zs u - / K) * (prob zs u - / K) <= d).
  { unfold d. apply (sumf_In_le (fun v => (prob zs v - / K) * (prob zs v - / K))); [|apply distinct_In; exact Hu].
    intros v _. pose proof (Rle_0_sqr (prob zs v - / K)) as Q. exact Q. }
  assert (LD : l * d <= / (INR (length zs) - 1)).
  { unfold l, shrink_intensity. destruct (Nat.eqb_spec (length zs) 1) as [|_]; [lia|]. fold K. fold d.
    destruct (Req_EM_T d 0) as [->|D]; [rewrite Rmult_0_r; left; apply Rinv_0_lt_compat; lra|].
    assert (D0 : 0 <= d) by (apply sumf_nonneg; intros v _; apply (Rle_0_sqr (prob zs v - / K))).
    set (w := sumf (fun v => prob zs v * (1 - prob zs v) / (INR (length zs) - 1)) (distinct zs)).
    apply Rle_trans with (w / d * d); [apply Rmult_le_compat_r; [exact D0|apply Rmin_r]|].
    replace (w / d * d) with w by (field; exact D).
    assert (W1 : sumf (fun v => prob zs v * / (INR (length zs) - 1)) (distinct zs) = / (INR (length zs) - 1)).
    { rewrite sumf_scal_r, (prob_sum_distinct zs NE). ring. }
    rewrite <- W1. unfold w.
    apply sumf_le. intros v Hv. unfold Rdiv. apply Rmult_le_compat_r; [left; apply Rinv_0_lt_compat; lra|].
    pose proof (prob_pos zs v (proj1 (distinct_In zs v) Hv)). pose proof (prob_le1 zs v). nra. }
  set (t := (prob zs u - / K) * (prob zs u - / K)) in *.
  replace (- (l * (prob zs u - / K)) * - (l * (prob zs u - / K))) with (l * l * t) by (unfold t; ring).
  assert (T0 : 0 <= t) by (apply (Rle_0_sqr (prob zs u - / K))).
  apply Rle_trans with (l * t); [apply Rmult_le_compat_r; [exact T0|nra]|].
  apply Rle_trans with (l * d); [apply Rmult_le_compat_l; lra|exact LD].
Qed.

Lemma shrink_settle : is_lim_seq (fun m => ShrinkH (x m)) Hlim.
Proof using SET.
  apply (is_lim_seq_ext (fun m => sumf (fun u => - (shrunk (x m) u * ln (shrunk (x m) u))) (distinct (x m)))).
  { intros m. unfold ShrinkH. apply sumf_opp. }
  apply (sum_lim _ (fun m u => if Nat.eqb (count (x m) u) 0 then prob (x m) u else shrunk (x m) u) (fun _ => 0)); [|apply is_lim_seq_const|].
  - intros u Hu.
    apply (is_lim_seq_ext (fun m => prob (x m) u + (if Nat.eqb (count (x m) u) 0 then 0 else shrunk (x m) u - prob (x m) u))).
    { intros m. destruct (Nat.eqb _ _); ring. }
    apply (lim_eq _ (p u + 0)); [ring|]. apply is_lim_seq_plus'; [apply st_freq, Hu|].
    apply (lim_squeeze0 _ (fun m => sqrt (2 / INR (length (x m))))).
    + destruct (st_long 2) as [m0 E]. exists m0. intros m Hm. specialize (E m Hm). destruct (Nat.eqb_spec (count (x m) u) 0) as [|C].
      * rewrite Rabs_R0. apply sqrt_pos.
      * assert (I0 : In u (x m)) by (apply count_pos; lia). pose proof (shrunk_near (x m) u E I0) as Q.
        assert (P2 : 2 <= INR (length (x m))) by (apply (le_INR 2); lia).
        rewrite <- sqrt_Rsqr_abs. apply sqrt_le_1_alt. unfold Rsqr. eapply Rle_trans; [exact Q|].
        unfold Rdiv. apply (Rmult_le_reg_r (INR (length (x m)) * (INR (length (x m)) - 1))); [nra|].
        replace (/ (INR (length (x m)) - 1) * (INR (length (x m)) * (INR (length (x m)) - 1))) with (INR (length (x m))) by (field; lra).
        replace (2 * / INR (length (x m)) * (INR (length (x m)) * (INR (length (x m)) - 1))) with (2 * (INR (length (x m)) - 1)) by (field; lra).
        lra.
    + apply (lim_eq _ (sqrt 0)); [apply sqrt_0|]. apply (is_lim_seq_continuous sqrt); [apply continuity_pt_sqrt; lra|apply lim_over_N].
  - exists 0%nat. intros m u _ C. destruct (Nat.eqb_spec (count (x m) u) 0); [lia|]. rewrite Rplus_opp_l, Rabs_R0. lra.
Qed.
End Settle.
