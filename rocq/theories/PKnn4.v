(** Proofs: the exponential-family estimators (Renyi, Tsallis). *)
From Coq Require Import Reals Lra Lia List ZArith Arith Bool Permutation.
From Verif Require Import Res RSum Spec SpecBase SpecGamma MBase PBase MTE MPct MNorm PropsPct MEst PEst PEst2 MCont SpecKern PKern PKern3 MKnn SpecKnn SpecKnn2 PKnn PKnn2 PropsKnn PKnn3 PropsKnn4 PropsKnn5.
Import ListNotations.
Local Open Scope R_scope.

(** keyword arguments k, alpha (or q) and base *)
Definition ex_args (k : nat) (q : R) (b : base) : eargs := mkEargs (NInt (Z.of_nat k)) (ONum q) b.

Lemma euclid_pow d r : euclidean_ball d r = r ^ d * euclidean_ball d 1.
Proof.
  revert d. apply two_ind; [cbn; ring|cbn; ring|]. intros n IH. cbn [euclidean_ball]. rewrite IH. cbn [pow]. unfold Rdiv. ring.
Qed.
Lemma euclid_pos d r : 0 < r -> 0 < euclidean_ball d r.
Proof.
  intros Hr. revert d. apply two_ind; [cbn; lra|cbn; lra|]. intros n IH. cbn [euclidean_ball].
  apply Rmult_lt_0_compat; [|exact IH]. apply Rdiv_lt_0_compat; [|apply lt_0_INR; lia].
  pose proof PI_RGT_0. apply Rmult_lt_0_compat; [lra|apply pow_lt; exact Hr].
Qed.
Lemma Rpower_mult_distr' x y z : 0 < x -> 0 < y -> Rpower (x * y) z = Rpower x z * Rpower y z.
Proof. intros. symmetry. apply Rpower_mult_distr; assumption. Qed.
Lemma np_pow_pos x y : 0 < x -> np_pow x y = Ok (Rpower x y).
Proof. intros H. unfold np_pow. destruct (Rlt_dec 0 x); [reflexivity|contradiction]. Qed.
Lemma e_check_ok k q b : (1 <= k)%nat -> 0 < q -> e_check (ex_args k q b) = Ok (Z.of_nat k, q).
Proof. intros Hk Hq. unfold e_check, ex_args. cbn. destruct (Rle_dec q 0); [lra|]. destruct (Z.leb_spec (Z.of_nat k) 0); [lia|reflexivity]. Qed.

Section exf.
  Context (G : R -> R) (HG : is_gamma G).
  Lemma vm_ok d : np_div (Rpower PI (INR d / 2)) (G (INR d / 2 + 1)) = Ok (euclidean_ball d 1).
  Proof.
    pose proof (pos_INR d). pose proof (G_pos G HG (INR d / 2 + 1) ltac:(lra)). rewrite np_div_ok by lra. f_equal.
    rewrite rpower_half_pow, <- (ball_gamma G HG), pow1. rewrite (Rplus_comm (INR d / 2)). unfold Rdiv. ring.
  Qed.
  Lemma finite_ok {A} (f : A -> R) l : finite_dists (map (fun t => Some (f t)) l) = Ok (map f l).
  Proof. unfold finite_dists. apply mapM_map_ok. reflexivity. Qed.
  Lemma filter_pos rho : (forall r, In r rho -> 0 < r) -> filter (fun r => if Rlt_dec 0 r then true else false) rho = rho.
  Proof. intros H. apply filter_all. intros r Hr. specialize (H r Hr). destruct (Rlt_dec 0 r); [reflexivity|contradiction]. Qed.

  Lemma exp_iq_ok k q rho n d : (1 <= k)%nat -> q <> 1 -> q < INR k + 1 -> (1 <= n)%nat -> rho <> [] -> (forall r, In r rho -> 0 < r) ->
    exp_iq G (Z.of_nat k) q (euclidean_ball d 1) rho n d = Ok (lps_integral G n d k q rho).
  Proof.
    intros Hk Hq1 Hqk Hn Hr Hpos. unfold exp_iq. rewrite <- INR_IZR_INZ. destruct (Req_EM_T q (INR k + 1)); [lra|].
    assert (Pk : 0 < INR k) by (apply lt_0_INR; lia). assert (Pn : 0 < INR n) by (apply lt_0_INR; lia).
    pose proof (G_pos G HG (INR k) Pk) as GK. pose proof (G_pos G HG (INR k + 1 - q) ltac:(lra)) as GQ.
    rewrite np_div_ok by lra. cbn [bind]. assert (PR : 0 < G (INR k) / G (INR k + 1 - q)) by (apply Rdiv_lt_0_compat; assumption).
    rewrite np_pow_pos by exact PR. cbn [bind].
    pose proof (euclid_pos d 1 ltac:(lra)) as PV.
    assert (PC : 0 < Rpower (G (INR k) / G (INR k + 1 - q)) (1 / (1 - q))) by apply exp_pos.
    rewrite np_pow_pos by (repeat apply Rmult_lt_0_compat; assumption). cbn [bind].
    rewrite filter_pos by exact Hpos.
    rewrite (mapM_ok _ (fun r => Rpower (r ^ d) (1 - q))) by (intros r Hin; apply np_pow_pos, pow_lt, Hpos; exact Hin). cbn [bind].
    assert (Lr : INR (length rho) <> 0) by (apply not_0_INR; destruct rho; [congruence|discriminate]).
    rewrite np_div_ok by exact Lr. f_equal. unfold lps_integral. rewrite mean_map. unfold sumR. rewrite sumf_map.
    replace (INR n * Rpower (G (INR k) / G (INR k + 1 - q)) (1 / (1 - q)) * euclidean_ball d 1)
      with (Rpower (G (INR k) / G (INR k + 1 - q)) (1 / (1 - q)) * (INR n * euclidean_ball d 1)) by ring.
    rewrite Rpower_mult_distr' by (try exact PC; apply Rmult_lt_0_compat; assumption).
    rewrite Rpower_mult. replace (1 / (1 - q) * (1 - q)) with 1 by (field; lra). rewrite Rpower_1 by exact PR.
    rewrite (sumf_ext (fun e => Rpower (INR n * euclidean_ball d e) (1 - q)) (fun r => Rpower (INR n * euclidean_ball d 1) (1 - q) * Rpower (r ^ d) (1 - q))).
    - rewrite sumf_scal. unfold Rdiv. ring.
    - intros r Hin. rewrite euclid_pow. replace (INR n * (r ^ d * euclidean_ball d 1)) with ((INR n * euclidean_ball d 1) * r ^ d) by ring.
      apply Rpower_mult_distr'; [apply Rmult_lt_0_compat; assumption|apply pow_lt, Hpos; exact Hin].
  Qed.
  Lemma lps_pos k q n d rho : (1 <= k)%nat -> q < INR k + 1 -> rho <> [] -> 0 < lps_integral G n d k q rho.
  Proof.
    intros Hk Hq Hr. unfold lps_integral. assert (Pk : 0 < INR k) by (apply lt_0_INR; lia).
    apply Rmult_lt_0_compat; [apply Rdiv_lt_0_compat; apply (G_pos G HG); lra|].
    rewrite mean_map. apply Rdiv_lt_0_compat; [apply sumf_pos; [exact Hr|intros; apply exp_pos]|apply lt_0_INR; destruct rho; [congruence|cbn; lia]].
  Qed.
  Lemma exp_i1_ok b k rho n d : valid_base b -> (1 <= k)%nat -> (1 <= n)%nat -> rho <> [] -> (forall r, In r rho -> 0 < r) ->
    exp_i1 (Z.of_nat k) (euclidean_ball d 1) rho n d b = Ok (lps_shannon n d k rho / unit_of b).
  Proof.
    intros V Hk Hn Hr Hpos. unfold exp_i1. rewrite digamma_ok by lia. cbn [bind]. rewrite map_length.
    assert (Pn : 0 < INR n) by (apply lt_0_INR; lia). pose proof (euclid_pos d 1 ltac:(lra)) as PV.
    assert (PZ : forall r, In r rho -> 0 < INR n * exp (- psi k) * euclidean_ball d 1 * r ^ d).
    { intros r Hin. repeat apply Rmult_lt_0_compat; try assumption; [apply exp_pos|apply pow_lt, Hpos; exact Hin]. }
    rewrite filter_all.
    2:{ intros z Hz. apply in_map_iff in Hz as (r & <- & Hin). specialize (PZ r Hin). destruct (Rlt_dec 0 _); [reflexivity|contradiction]. }
    rewrite (mapM_map_ok _ _ (fun r => (ln (INR n * euclidean_ball d r) - psi k) / unit_of b)).
    2:{ intros r Hin. rewrite log_base_ok by (try exact V; apply PZ; exact Hin). f_equal. f_equal. rewrite (euclid_pow d r).
        replace (INR n * exp (- psi k) * euclidean_ball d 1 * r ^ d) with ((INR n * (r ^ d * euclidean_ball d 1)) * exp (- psi k)) by ring.
        rewrite ln_mult; [rewrite ln_exp; ring| |apply exp_pos]. repeat apply Rmult_lt_0_compat; try assumption. apply pow_lt, Hpos; exact Hin. }
    cbn [bind]. assert (Lr : INR (length rho) <> 0) by (apply not_0_INR; destruct rho; [congruence|discriminate]).
    rewrite np_div_ok by exact Lr. f_equal. unfold lps_shannon. rewrite mean_map. unfold sumR. rewrite sumf_map, sumf_div. field.
    split; [exact Lr|apply unit_ne; exact V].
  Qed.
End exf.

(** the result of both estimators *)
Definition renyi_value G b q k c d es : R := if Req_EM_T q 1 then lps_shannon c d k es / unit_of b else ln (lps_integral G c d k q es) / (1 - q) / unit_of b.
Definition tsallis_value G b q k c d es : R :=
  if Req_EM_T q 1 then lps_shannon c d k es / unit_of b else (1 - lps_integral G c d k q es) / (q - 1).

Lemma renyi_of_ok G b k q rho n d : is_gamma G -> valid_base b -> (1 <= k)%nat -> q < INR k + 1 -> (1 <= n)%nat -> rho <> [] -> (forall r, In r rho -> 0 < r) ->
  renyi_of b q G (Z.of_nat k) (euclidean_ball d 1) rho n d = Ok (renyi_value G b q k n d rho).
Proof.
  intros HG V Hk Hq Hn Hr Hpos. unfold renyi_of, renyi_value. destruct (Req_EM_T q 1); [apply exp_i1_ok; assumption|].
  rewrite exp_iq_ok by assumption. cbn [bind]. pose proof (lps_pos G HG k q n d rho Hk Hq Hr) as P.
  destruct (Req_EM_T _ 0); [lra|]. rewrite log_base_ok by assumption. cbn [bind]. rewrite np_div_ok by lra. f_equal. field.
  split; [lra|apply unit_ne; exact V].
Qed.
Lemma tsallis_of_ok G b k q rho n d : is_gamma G -> valid_base b -> (1 <= k)%nat -> q < INR k + 1 -> (1 <= n)%nat -> rho <> [] -> (forall r, In r rho -> 0 < r) ->
  tsallis_of b q G (Z.of_nat k) (euclidean_ball d 1) rho n d = Ok (tsallis_value G b q k n d rho).
Proof.
  intros HG V Hk Hq Hn Hr Hpos. unfold tsallis_of, tsallis_value. destruct (Req_EM_T q 1); [apply exp_i1_ok; assumption|].
  rewrite exp_iq_ok by assumption. cbn [bind]. pose proof (lps_pos G HG k q n d rho Hk Hq Hr) as P.
  destruct (Req_EM_T _ 0); [lra|]. rewrite np_div_ok by lra. reflexivity.
Qed.

(** the distances of the samples among themselves *)
Lemma components_ok G n ds vars k es : is_gamma G -> tabs n ds vars -> (1 <= k < n)%nat -> radii (Some 2) n vars k es ->
  components G (jrows n vars) (Z.of_nat k) None = Ok (euclidean_ball (total_dim ds) 1, map (fun t => Some (es t)) (seq 0 n), n, total_dim ds).
Proof.
  intros HG T Hk He. unfold components. rewrite jrows_length, (jrows_width n ds) by (try assumption; lia). cbn [bind].
  destruct (Z.ltb_spec (Z.of_nat n) (Z.of_nat k + 1)); [lia|]. rewrite (vm_ok G HG). cbn [bind].
  rewrite (kth_query_ok (MP 2)) by (try lia; cbn; lra). cbn [bind]. do 2 f_equal. f_equal. f_equal.
  unfold jrows at 2. rewrite map_map. apply map_ext_in. intros t Ht. apply in_seq in Ht.
  apply query_is_kth; try lia. apply He. lia.
Qed.
Lemma expfam_rows of (val : (R -> R) -> base -> R -> nat -> nat -> nat -> list R -> R) E b n ds vars i k q es :
  (forall G b k q rho n d, is_gamma G -> valid_base b -> (1 <= k)%nat -> q < INR k + 1 -> (1 <= n)%nat -> rho <> [] -> (forall r, In r rho -> 0 < r) ->
     of b q G (Z.of_nat k) (euclidean_ball d 1) rho n d = Ok (val G b q k n d rho)) ->
  is_gamma (gam E) -> valid_base b -> tabs n ds vars -> (1 <= k < n)%nat -> 0 < q < INR k + 1 ->
  make_rows i = Ok (jrows n vars) -> radii (Some 2) n vars k es -> (forall t, (t < n)%nat -> 0 < es t) ->
  expfam of E (ex_args k q b) i = Ok (val (gam E) b q k (n - 1)%nat (total_dim ds) (map es (seq 0 n))).
Proof.
  intros HOF HG V T Hk Hq HR He Hpos. unfold expfam. rewrite HR. cbn [bind]. rewrite e_check_ok by (try lia; lra). cbn [bind fst snd].
  rewrite (components_ok (gam E) n ds vars k es) by assumption. cbn [bind]. rewrite finite_ok. cbn [bind ex_args e_base].
  apply HOF; try assumption; try lia; try lra.
  - apply map_ne, seq_ne. lia.
  - intros r Hr. apply in_map_iff in Hr as (t & <- & Ht). apply in_seq in Ht. apply Hpos. lia.
Qed.
