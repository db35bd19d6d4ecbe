(** Proofs: the double-precision mutual informations are close to their exact values. *)
From Coq Require Import Reals Lra Lia List ZArith Arith Bool Permutation Psatz.
From Flocq Require Import Core Relative.
From Verif Require Import Res RSum Spec SpecBase Info Info2 Ord MBase MData MEntropy MMI MTE PBase PEntropy PCoo PMI PMI2 PCMI
  MFloat SpecFloat MFloat2 PFloat PFloat2 PFloat3 PFloat4 PFloat5.
Import ListNotations.
Local Open Scope R_scope.

Lemma ln_le_mult (z n : Z) : (1 <= z <= n)%Z -> ln (IZR z) <= 1 * ln (IZR n).
Proof. intros L. rewrite Rmult_1_l. apply ln_monotone; [apply IZR_lt; lia|apply IZR_le; lia]. Qed.

(** turning the per-cell constants into the stated bound *)
Lemma err_bound E b eps k n M : (2 <= k)%nat -> 0 <= eps <= / 10 -> 0 <= M ->
  let c := 2 * INR k + 2 in let e := c * base_eps b eps + (17 * INR k + 32) * uro in
  (e + ((1 + uro) ^ depth (f_order E n) - 1) * (c + e)) * M <= mi_err E b eps k n * M.
Proof.
  intros Hk Ee M0 c e. apply Rmult_le_compat_r; [exact M0|]. unfold mi_err. fold c. fold e. apply Rplus_le_compat_l. rewrite Rmult_comm. apply Rmult_le_compat_r.
  - pose proof uro_pos. assert (1 <= (1 + uro) ^ depth (f_order E n)) by (apply pow_R1_Rle; lra). lra.
  - pose proof (base_eps_range b eps Ee) as BR. pose proof uro_small as U1. pose proof uro_pos as U0. apply le_INR in Hk. change (INR 2) with 2 in Hk. unfold e, c. set (k' := INR k) in *. nra.
Qed.
Lemma err_consts b eps k : 0 <= eps <= / 10 -> 0 <= (2 * INR k + 2) * base_eps b eps + (17 * INR k + 32) * uro.
Proof.
  intros Ee. pose proof (base_eps_range b eps Ee). pose proof uro_pos. pose proof (pos_INR k).
  assert (0 <= (2 * INR k + 2) * base_eps b eps) by (apply Rmult_le_pos; lra). assert (0 <= (17 * INR k + 32) * uro) by (apply Rmult_le_pos; lra). lra.
Qed.

Section ND.
Variable vars : list arr.
Variable N : nat.
Hypothesis Hlen : Forall (fun a => arr_len a = N) vars.
Hypothesis Hne : vars <> [].
Hypothesis HN : (2 <= N)%nat.
Notation l := (seq 0 N).
Notation c := (the_coo vars).
Notation rc := (rowc vars).
Notation k := (length vars).
Notation joint := (unique (coo_rows vars)).

Lemma HN0 : (0 < N)%nat. Proof using HN. clear -HN. lia. Qed.
Lemma N2Z : (2 <= Z.of_nat N)%Z. Proof using HN. clear -HN. lia. Qed.

(** logarithm of the product of the marginal counts *)
Lemma ln_prod_bound (zs : list Z) : Forall (fun z => (1 <= z <= Z.of_nat N)%Z) zs -> (1 <= prodZ zs)%Z /\ ln (IZR (prodZ zs)) <= INR (length zs) * ln (IZR (Z.of_nat N)).
Proof using HN.
  intros F. assert (F1 : Forall (fun z => (1 <= z)%Z) zs) by (eapply Forall_impl; [|exact F]; cbv beta; intros; clear -H; lia).
  split; [apply prodZ_pos; exact F1|]. rewrite ln_prodZ by exact F1. clear F1. induction F as [|z r Hz _ IH]; [cbn [sumf length INR]; lra|].
  cbn [sumf length]. rewrite S_INR. pose proof (ln_le_mult z _ Hz). lra.
Qed.

Lemma f_mi_nd_ok E eps b : accurate eps E -> 0 <= eps <= / 10 -> float_base b -> (Z.of_nat N <= 2 ^ 53)%Z -> (2 <= k)%nat -> no_wrap vars N ->
  existsb (fun a => Nat.eqb (nlevels a) 1) vars = false ->
  exists v, f_mi_nd E b vars = Ok v /\ Rabs (v - mi_value vars N / unit_of b) <= mi_err E b eps k (length joint) * (ln (INR N) / unit_of b).
Proof using Hlen Hne HN.
  intros Ac Ee Fb NB Hk NW NE. unfold f_mi_nd. rewrite (coo_of_ok vars N Hlen Hne). cbn [bind]. rewrite (no_early vars N Hlen Hne HN0), NE.
  rewrite (coo_sum_eq vars N Hlen Hne). rewrite map_length, seq_length, (ndim_eq vars N Hlen Hne HN0).
  pose proof (unit_range b Fb) as UR. pose proof (base_eps_range b eps Ee) as BR. destruct (M_ok b (Z.of_nat N) Fb N2Z) as (UK & _ & _). rewrite <- INR_IZR_INZ in UK.
  set (M := ln (INR N) / unit_of b) in *. pose proof (err_consts b eps k Ee) as EC. pose proof (ndim_eq vars N Hlen Hne HN0) as ND.
  match goal with |- context [mapM ?F _] =>
    destruct (cells_float vars N Hlen Hne HN0 E eps F
     (fun r => ln (IZR (Z.of_nat (count (coo_rows vars) r))) / unit_of b - ln (INR N) / unit_of b +
       (- (ln (IZR (uprod (map (fun i => u64 (nth (nth i r 0%nat) (nth i (map (marginal c) (seq 0 k)) []) 0%Z)) (seq 0 k)))) / unit_of b)
        + INR k * (ln (INR N) / unit_of b)))
     M (2 * INR k + 2) ((2 * INR k + 2) * base_eps b eps + (17 * INR k + 32) * uro) Ac) as (ts & E1 & E2)
  end.
  - destruct UK; lra.
  - pose proof (pos_INR k). lra.
  - exact EC.
  - intros t Ht v p. cbn [fst snd]. destruct (weight_ok vars N Hlen Hne HN0 t b NB Fb HN Ht) as (V1 & V2 & V3 & V4). fold v in V1, V3. fold v p in V2. fold v p in V4. fold v p in V3.
    assert (OU := outer_u64 vars N Hlen Hne HN0 t Ht NW). rewrite ND in OU. rewrite OU. clear OU.
    pose proof (outerZ_ge1 vars N Hlen Hne HN0 t Ht) as OG. destruct (ln_prod_bound _ OG) as (O1 & O2).
    assert (LO : length (outerZ vars t) = k) by (unfold outerZ; rewrite map_length, seq_length; reflexivity). rewrite LO in O2.
    destruct (f_logz_ok E eps b v (Z.of_nat N) 1 Ac Ee Fb N2Z (proj1 V1) (ln_le_mult _ _ V1)) as (lv & EV & AV).
    destruct (f_logz_ok E eps b (Z.of_nat N) (Z.of_nat N) 1 Ac Ee Fb N2Z ltac:(pose proof N2Z; lia) ltac:(lra)) as (ln_ & EN & AN).
    destruct (f_logz_ok E eps b (prodZ (outerZ vars t)) (Z.of_nat N) (INR k) Ac Ee Fb N2Z O1 O2) as (lo & EO & AO).
    rewrite EV, EN, EO. cbn [bind]. eexists. split; [reflexivity|]. split; [apply fl_isfl|].
    rewrite <- (INR_IZR_INZ N) in AV, AN, AO. fold M in AV, AN, AO.
    rewrite Rmult_plus_distr_l. fold M.
    assert (k2 : 2 <= INR k) by (apply le_INR in Hk; exact Hk).
    assert (LV : ln (IZR v) = ln (IZR (Z.of_nat (count (coo_rows vars) (rc t))))) by reflexivity.
    apply (term_nd M p (f_prob v (Z.of_nat N)) (base_eps b eps) UK V4 V2 V3 BR (INR k) lv ln_ lo _ _ _ k2); assumption.
  - rewrite E1. cbn [bind]. eexists. split; [reflexivity|].
    assert (VAL : sumf (fun t => ln (IZR (Z.of_nat (count (coo_rows vars) (rc t)))) / unit_of b - ln (INR N) / unit_of b +
       (- (ln (IZR (uprod (map (fun i => u64 (nth (nth i (rc t) 0%nat) (nth i (map (marginal c) (seq 0 k)) []) 0%Z)) (seq 0 k)))) / unit_of b)
        + INR k * (ln (INR N) / unit_of b))) l / INR N = mi_value vars N / unit_of b).
    { rewrite (sumf_ext _ (fun t => Gt vars N t / unit_of b)).
      - rewrite sumf_div, <- (Gt_sum vars N Hlen Hne HN0). unfold Rdiv. ring.
      - intros t Ht. apply in_seq in Ht. assert (Ht' : (t < N)%nat) by (clear -Ht; lia). assert (OU := outer_u64 vars N Hlen Hne HN0 t Ht' NW). rewrite ND in OU. rewrite OU.
        rewrite (proj2 (ln_outer vars N Hlen Hne HN0 t Ht')), (count_rc vars N Hlen Hne HN0). unfold Gt, Rdiv. ring. }
    rewrite VAL in E2. eapply Rle_trans; [exact E2|]. apply err_bound; [exact Hk|exact Ee|]. destruct UK; lra.
Qed.
End ND.

Section TwoD.
Variables x y : arr.
Variable N : nat.
Hypothesis Lx : arr_len x = N.
Hypothesis Ly : arr_len y = N.
Hypothesis HN : (2 <= N)%nat.
Let vars := [x; y].
Notation c := (the_coo vars).
Notation rc := (rowc vars).
Notation l := (seq 0 N).
Notation joint := (unique (coo_rows vars)).

Lemma f_mi_2d_ok E eps b : accurate eps E -> 0 <= eps <= / 10 -> float_base b -> (Z.of_nat N < 2 ^ 32)%Z ->
  nlevels x <> 1%nat -> nlevels y <> 1%nat ->
  exists s, f_mi_2d E b x y = Ok (Rmax s 0) /\ Rabs (s - mi_value vars N / unit_of b) <= mi_err E b eps 2 (length joint) * (ln (INR N) / unit_of b).
Proof using Lx Ly HN.
  intros Ac Ee Fb Hs Nx Ny. pose proof (HN0 N HN) as N0. pose proof (N2Z N HN) as N2.
  pose proof (two_len x y N Lx Ly) as Hlen. pose proof (two_ne x y) as Hne. change [x; y] with vars in Hlen, Hne.
  assert (NB : (Z.of_nat N <= 2 ^ 53)%Z) by (clear -Hs; change (2 ^ 53)%Z with 9007199254740992%Z; change (2 ^ 32)%Z with 4294967296%Z in Hs; lia).
  unfold f_mi_2d. change [x; y] with vars. rewrite (coo_of_ok vars N Hlen Hne). cbn [bind].
  assert (L0 : length (marginal c 0) = nlevels x) by (unfold marginal; rewrite map_length, seq_length; reflexivity).
  assert (L1 : length (marginal c 1) = nlevels y) by (unfold marginal; rewrite map_length, seq_length; reflexivity).
  rewrite L0, L1. rewrite (proj2 (Nat.eqb_neq _ _) Nx), (proj2 (Nat.eqb_neq _ _) Ny). cbn [orb].
  pose proof (marginal_sum x y N Lx Ly N0 0 ltac:(clear; lia)) as MS0. pose proof (marginal_sum x y N Lx Ly N0 1 ltac:(clear; lia)) as MS1. change [x; y] with vars in MS0, MS1. rewrite MS0, MS1. rewrite (coo_sum_eq vars N Hlen Hne).
  pose proof (unit_range b Fb) as UR. pose proof (base_eps_range b eps Ee) as BR. destruct (M_ok b (Z.of_nat N) Fb N2) as (UK & _ & _). rewrite <- (INR_IZR_INZ N) in UK.
  set (M := ln (INR N) / unit_of b) in *.
  assert (NW : no_wrap vars N).
  { apply no_wrap_small; auto. simpl length. change (Z.of_nat 2) with 2%Z. rewrite Z.pow_2_r. change (2 ^ 64)%Z with (2 ^ 32 * 2 ^ 32)%Z. clear -Hs N0. nia. }
  assert (OU : forall t, (t < N)%nat ->
     u64 (u64 (nth (nth 0 (rc t) 0%nat) (marginal c 0) 0%Z) * u64 (nth (nth 1 (rc t) 0%nat) (marginal c 1) 0%Z)) = prodZ (outerZ vars t)).
  { intros t Ht. pose proof (outerZ_ge1 vars N Hlen Hne N0 t Ht) as HF.
    unfold outerZ in HF. simpl length in HF. cbn [seq map] in HF.
    inversion HF as [|? ? B0 HF0]; subst. inversion HF0 as [|? ? B1 _]; subst.
    unfold outerZ. simpl length. cbn [seq map]. unfold prodZ. cbn [fold_right].
    unfold Xi in *. change (2 ^ 32)%Z with 4294967296%Z in Hs.
    set (p := nth (nth 0 (rc t) 0%nat) (marginal c 0) 0%Z) in *.
    set (q := nth (nth 1 (rc t) 0%nat) (marginal c 1) 0%Z) in *.
    assert (E64 : (2 ^ 64 = 18446744073709551616)%Z) by reflexivity.
    rewrite (u64_small p), (u64_small q) by (rewrite E64; clear -B0 B1 Hs; lia).
    rewrite Z.mul_1_r. apply u64_small. rewrite E64. clear -B0 B1 Hs. nia. }
  match goal with |- context [mapM ?F _] =>
    destruct (cells_float vars N Hlen Hne N0 E eps F
     (fun r => ln (IZR (Z.of_nat (count (coo_rows vars) r))) / unit_of b - ln (INR N) / unit_of b +
       (- (ln (IZR (u64 (u64 (nth (nth 0 r 0%nat) (marginal c 0) 0%Z) * u64 (nth (nth 1 r 0%nat) (marginal c 1) 0%Z)))) / unit_of b)
        + ln (INR N) / unit_of b + ln (INR N) / unit_of b))
     M 6 (6 * base_eps b eps + 66 * uro) Ac) as (ts & E1 & E2)
  end.
  - destruct UK; lra.
  - lra.
  - pose proof uro_pos. lra.
  - intros t Ht v p. cbn [fst snd]. destruct (weight_ok vars N Hlen Hne N0 t b NB Fb HN Ht) as (V1 & V2 & V3 & V4). fold v in V1, V3. fold v p in V2. fold v p in V4. fold v p in V3.
    rewrite OU by exact Ht. pose proof (outerZ_ge1 vars N Hlen Hne N0 t Ht) as OG. destruct (ln_prod_bound N HN _ OG) as (O1 & O2).
    assert (LO : length (outerZ vars t) = 2%nat) by (unfold outerZ; rewrite map_length, seq_length; reflexivity). rewrite LO in O2. change (INR 2) with 2 in O2.
    destruct (f_logz_ok E eps b v (Z.of_nat N) 1 Ac Ee Fb N2 (proj1 V1) (ln_le_mult _ _ V1)) as (lv & EV & AV).
    destruct (f_logz_ok E eps b (Z.of_nat N) (Z.of_nat N) 1 Ac Ee Fb N2 ltac:(clear -N2; lia) ltac:(lra)) as (ln_ & EN & AN).
    destruct (f_logz_ok E eps b (prodZ (outerZ vars t)) (Z.of_nat N) 2 Ac Ee Fb N2 O1 O2) as (lo & EO & AO).
    rewrite EV, EN, EO. cbn [bind]. eexists. split; [reflexivity|]. split; [apply fl_isfl|].
    rewrite <- (INR_IZR_INZ N) in AV, AN, AO. fold M in AV, AN, AO.
    rewrite Rmult_plus_distr_l. fold M. apply (term_2d M p (f_prob v (Z.of_nat N)) (base_eps b eps) UK V4 V2 V3 BR lv ln_ lo ln_ ln_); assumption.
  - rewrite E1. cbn [bind]. eexists. split; [reflexivity|].
    assert (VAL : sumf (fun t => ln (IZR (Z.of_nat (count (coo_rows vars) (rc t)))) / unit_of b - ln (INR N) / unit_of b +
       (- (ln (IZR (u64 (u64 (nth (nth 0 (rc t) 0%nat) (marginal c 0) 0%Z) * u64 (nth (nth 1 (rc t) 0%nat) (marginal c 1) 0%Z)))) / unit_of b)
        + ln (INR N) / unit_of b + ln (INR N) / unit_of b)) l / INR N = mi_value vars N / unit_of b).
    { rewrite (sumf_ext _ (fun t => Gt vars N t / unit_of b)).
      - rewrite sumf_div, <- (Gt_sum vars N Hlen Hne N0). unfold Rdiv. ring.
      - intros t Ht. apply in_seq in Ht. assert (Ht' : (t < N)%nat) by (clear -Ht; lia). rewrite OU by exact Ht'.
        rewrite (proj2 (ln_outer vars N Hlen Hne N0 t Ht')), (count_rc vars N Hlen Hne N0). unfold Gt, Rdiv. change (INR (length vars)) with 2. ring. }
    rewrite VAL in E2. pose proof (err_bound E b eps 2 (length joint) M ltac:(lia) Ee ltac:(destruct UK; lra)) as EB. cbv zeta in EB. change (INR 2) with 2 in EB.
    replace (2 * 2 + 2) with 6 in EB by ring. replace (17 * 2 + 32) with 66 in EB by ring. eapply Rle_trans; [exact E2|exact EB].
Qed.
End TwoD.

Section Cond.
Variables x y : arr.
Variable zs : list Z.
Variable N : nat.
Hypothesis Lx : arr_len x = N.
Hypothesis Ly : arr_len y = N.
Hypothesis Hz : length zs = N.
Hypothesis HN : (2 <= N)%nat.
Let vars := [x; y].
Notation al := (vars ++ [A1 zs]).
Notation c := (the_coo al).
Notation rc := (rowc al).
Notation l := (seq 0 N).
Notation joint := (unique (coo_rows al)).

Lemma f_cmi_ok E eps b : accurate eps E -> 0 <= eps <= / 10 -> float_base b -> (Z.of_nat N < 2 ^ 32)%Z -> early vars zs = false ->
  exists s, f_cmi E b vars (A1 zs) = Ok s /\ Rabs (s - cmi_value vars zs N / unit_of b) <= mi_err E b eps 2 (length joint) * (ln (INR N) / unit_of b).
Proof using Lx Ly Hz HN.
  intros Ac Ee Fb Hs EA. pose proof (HN0 N HN) as N0. pose proof (N2Z N HN) as N2.
  pose proof (two_len x y N Lx Ly) as Hvars. change [x; y] with vars in Hvars.
  pose proof (al_len vars zs N Hvars Hz) as Hlen. pose proof (al_ne vars zs) as Hne.
  assert (NB : (Z.of_nat N <= 2 ^ 53)%Z) by (clear -Hs; change (2 ^ 53)%Z with 9007199254740992%Z; change (2 ^ 32)%Z with 4294967296%Z in Hs; lia).
  assert (SQ : (Z.of_nat N * Z.of_nat N < 2 ^ 64)%Z) by (change (2 ^ 64)%Z with (2 ^ 32 * 2 ^ 32)%Z; clear -Hs N0; nia).
  assert (SM : cmi_small vars N) by (unfold cmi_small; change (Nat.max 2 (length vars)) with 2%nat; change (Z.of_nat 2) with 2%Z; rewrite Z.pow_2_r; exact SQ).
  unfold f_cmi. rewrite (coo_of_ok al N Hlen Hne). cbn [bind].
  pose proof (ndim_k1 vars zs) as ND. change (length vars) with 2%nat in ND. rewrite ND.
  pose proof (early_eq vars zs) as EE. change (length vars) with 2%nat in EE. rewrite EE, EA. rewrite (coo_sum_eq al N Hlen Hne).
  pose proof (unit_range b Fb) as UR. pose proof (base_eps_range b eps Ee) as BR. destruct (M_ok b (Z.of_nat N) Fb N2) as (UK & _ & _). rewrite <- (INR_IZR_INZ N) in UK.
  set (M := ln (INR N) / unit_of b) in *.
  destruct (f_logz_ok E eps b (Z.of_nat N) (Z.of_nat N) 1 Ac Ee Fb N2 ltac:(clear -N2; lia) ltac:(lra)) as (ln_ & EN & AN). rewrite <- (INR_IZR_INZ N) in AN. fold M in AN.
  assert (LS : mapM (fun m => f_logz E b (sumZ (map sumZ m))) (removelast (map (fun i => marginal2 c i 2) (seq 0 2))) = Ok [ln_]).
  { cbn [seq map removelast mapM]. pose proof (marginal2_total vars zs N Hvars Hz 0 ltac:(clear; simpl; lia)) as MT. change (length vars) with 2%nat in MT. rewrite MT, EN. reflexivity. }
  rewrite LS. rewrite EN.
  assert (VC : forall t, (t < N)%nat -> exists w, u64 (Z.of_nat (count (coo_rows al) (rc t)) * u64 (nth (nth 2 (rc t) 0%nat) (marginal c 2) 0%Z)) = w /\
     (1 <= w)%Z /\ ln (IZR w) <= 2 * ln (IZR (Z.of_nat N)) /\ ln (IZR w) = ln (cnt l rc (rc t)) + ln (cnt l (Xi al 2) (Xi al 2 t))).
  { intros t Ht. pose proof (Z_eq vars zs N Hvars Hz t Ht) as ZE. change (length vars) with 2%nat in ZE.
    pose proof (cnt_Z N (Xi al 2) t _ (in_l N t Ht) ZE) as B1.
    pose proof (cnt_Z N rc t (Z.of_nat (count (coo_rows al) (rc t))) (in_l N t Ht) (count_rc al N Hlen Hne N0 t)) as B2.
    pose proof (count_rc al N Hlen Hne N0 t) as CR.
    set (a := Z.of_nat (count (coo_rows al) (rc t))) in *. set (d := nth (nth 2 (rc t) 0%nat) (marginal c 2) 0%Z) in *.
    exists (a * d)%Z. rewrite (u64_small d).
    2:{ clear -B1 SQ. split; [lia|]. assert (Z.of_nat N <= Z.of_nat N * Z.of_nat N)%Z by nia. lia. }
    rewrite u64_small by (clear -B1 B2 SQ; nia). split; [reflexivity|]. split; [clear -B1 B2; nia|].
    assert (LM : ln (IZR (a * d)) = ln (IZR a) + ln (IZR d)) by (rewrite mult_IZR; apply ln_mult; apply IZR_lt; clear -B1 B2; lia).
    split; [rewrite LM; pose proof (ln_le_mult a _ B2); pose proof (ln_le_mult d _ B1); lra|]. rewrite LM, CR, ZE. reflexivity. }
  match goal with |- context [mapM ?F _] =>
    destruct (cells_float al N Hlen Hne N0 E eps F
     (fun r => ln (IZR (u64 (Z.of_nat (count (coo_rows al) r) * u64 (nth (nth 2 r 0%nat) (marginal c 2) 0%Z)))) / unit_of b - ln (INR N) / unit_of b +
       (- (ln (IZR (uprod (map (fun i => u64 (nth (nth 2 r 0%nat) (nth (nth i r 0%nat) (nth i (map (fun i => marginal2 c i 2) (seq 0 2)) []) []) 0%Z)) (seq 0 2)))) / unit_of b)
        + ln (INR N) / unit_of b))
     M 6 (6 * base_eps b eps + 66 * uro) Ac) as (ts & E1 & E2)
  end.
  - destruct UK; lra.
  - lra.
  - pose proof uro_pos. lra.
  - intros t Ht v p. cbn [fst snd]. destruct (weight_ok al N Hlen Hne N0 t b NB Fb HN Ht) as (V1 & V2 & V3 & V4). fold v in V1, V3. fold v p in V2. fold v p in V4. fold v p in V3.
    pose proof (outerC_u64 vars zs N Hvars Hz N0 t Ht SM) as OU. change (length vars) with 2%nat in OU. rewrite OU.
    pose proof (outerC_ge1 vars zs N Hvars Hz t Ht) as OG. destruct (ln_prod_bound N HN _ OG) as (O1 & O2).
    assert (LO : length (outerC vars zs t) = 2%nat) by (unfold outerC; rewrite map_length, seq_length; reflexivity). rewrite LO in O2. change (INR 2) with 2 in O2.
    destruct (VC t Ht) as (w & W1 & W2 & W3 & _). fold v in W1. rewrite W1.
    destruct (f_logz_ok E eps b w (Z.of_nat N) 2 Ac Ee Fb N2 W2 W3) as (lv & EV & AV).
    destruct (f_logz_ok E eps b (prodZ (outerC vars zs t)) (Z.of_nat N) 2 Ac Ee Fb N2 O1 O2) as (lo & EO & AO).
    rewrite EV, EO. cbn [bind f_pysum fold_left]. eexists. split; [reflexivity|]. split; [apply fl_isfl|].
    rewrite <- (INR_IZR_INZ N) in AV, AO. fold M in AV, AO.
    fold v. rewrite W1. rewrite Rmult_plus_distr_l. fold M. apply (term_cond M p (f_prob v (Z.of_nat N)) (base_eps b eps) UK V4 V2 V3 BR lv ln_ lo ln_); assumption.
  - rewrite E1. cbn [bind]. eexists. split; [reflexivity|].
    match type of E2 with Rabs (_ - ?S / INR N) <= _ => assert (VAL : S / INR N = cmi_value vars zs N / unit_of b) end.
    { rewrite (sumf_ext _ (fun t => Ct vars zs N t / unit_of b)).
      - rewrite sumf_div, <- (Ct_sum vars zs N N0). unfold Rdiv. ring.
      - intros t Ht. apply in_seq in Ht. assert (Ht' : (t < N)%nat) by (clear -Ht; lia).
        pose proof (outerC_u64 vars zs N Hvars Hz N0 t Ht' SM) as OU. change (length vars) with 2%nat in OU. rewrite OU.
        rewrite (proj2 (ln_outerC vars zs N Hvars Hz t Ht')). destruct (VC t Ht') as (w & W1 & _ & _ & W4). rewrite W1, W4.
        unfold Ct, Rdiv. change (length vars) with 2%nat. change (INR 2) with 2. ring. }
    rewrite VAL in E2. pose proof (err_bound E b eps 2 (length joint) M ltac:(lia) Ee ltac:(destruct UK; lra)) as EB. cbv zeta in EB. change (INR 2) with 2 in EB.
    replace (2 * 2 + 2) with 6 in EB by ring. replace (17 * 2 + 32) with 66 in EB by ring. eapply Rle_trans; [exact E2|exact EB].
Qed.
End Cond.
