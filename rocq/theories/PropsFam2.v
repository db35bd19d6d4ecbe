(** C80 (continued): noise, offset, order one, parameters, and where Renyi and Tsallis informations differ from Shannon's. *)
From Coq Require Import Reals Lra Lia List ZArith Arith Bool Permutation.
From Verif Require Import Res RSum Spec SpecBase SpecGamma MBase PBase MTE MPct MNorm PropsPct MEst PEst PEst2 MCont SpecKern PKern PKern2 PKern3 PropsKern2 MKnn SpecKnn SpecKnn2 PKnn PKnn2 PropsKnn PropsKnn2 PropsKnn3 PKnn3 PropsKnn4 PropsKnn5 PKnn4 PropsKnn6 MFam PropsKnn7 SpecFam PFam PropsFam.
Import ListNotations.
Local Open Scope R_scope.

(** ** offset *)
Lemma fmi0 (us vs : list R) : length us = length vs -> fmi_init (Some 0%Z) false [F1 us; F1 vs] = Ok (map rows2d [F1 us; F1 vs]).
Proof. intros H. unfold fmi_init. cbn [length Nat.ltb Nat.leb andb forallb hd flen]. rewrite H, Nat.eqb_refl. reflexivity. Qed.
Theorem C80_offset : forall f E a lvl (xs ys : list R) o, length xs = length ys ->
  fam_mi f E a lvl (Some (Z.of_nat o)) false [F1 xs; F1 ys] =
    fam_mi f E a lvl (Some 0%Z) false [F1 (firstn (length xs - o) xs); F1 (skipn o ys)] /\
  fam_mi f E a lvl (Some (- Z.of_nat o)%Z) false [F1 xs; F1 ys] =
    fam_mi f E a lvl (Some 0%Z) false [F1 (skipn o xs); F1 (firstn (length ys - o) ys)].
Proof.
  intros f E a lvl xs ys o L.
  split; unfold fam_mi.
  - rewrite (fmi0 (firstn (length xs - o) xs)) by (rewrite firstn_length, skipn_length; lia).
    unfold fmi_init. cbn [length Nat.ltb Nat.leb andb forallb hd flen]. rewrite L, Nat.eqb_refl. cbn [andb negb].
    destruct (Z.ltb_spec 0 (Z.of_nat o)).
    + cbn [bind map fdrop_last fskip nth]. rewrite Nat2Z.id, L. reflexivity.
    + destruct (Z.ltb_spec (Z.of_nat o) 0); [lia|]. assert (o = 0)%nat as -> by lia. cbn [bind skipn]. rewrite firstn_all2 by lia. reflexivity.
  - rewrite (fmi0 (skipn o xs)) by (rewrite firstn_length, skipn_length; lia).
    unfold fmi_init. cbn [length Nat.ltb Nat.leb andb forallb hd flen]. rewrite L, Nat.eqb_refl. cbn [andb negb].
    destruct (Z.ltb_spec 0 (- Z.of_nat o)); [lia|]. destruct (Z.ltb_spec (- Z.of_nat o) 0).
    + cbn [bind map fdrop_last fskip nth]. rewrite Z.opp_involutive, Nat2Z.id. reflexivity.
    + assert (o = 0)%nat as -> by lia. cbn [bind skipn]. rewrite Nat.sub_0_r, firstn_all. reflexivity.
Qed.

(** ** noise: the result is the noise-free result of the jittered series, each sample moved by a draw of its own *)
Lemma jitter_all_spec lvl z n cols : all_len n cols -> length (jitter_all lvl z 0 cols) = length cols /\
  forall i, (i < length cols)%nat -> length (nth i (jitter_all lvl z 0 cols) []) = n /\
    forall t, (t < n)%nat -> nth t (nth i (jitter_all lvl z 0 cols) []) 0 = nth t (nth i cols []) 0 + lvl * z (i * n + t)%nat.
Proof.
  intros L. split; [apply jitter_all_length|]. intros i Hi. rewrite (jitter_all_nth n) by assumption. cbn [Nat.add].
  assert (Ln : length (nth i cols []) = n) by (unfold all_len in L; rewrite Forall_forall in L; apply L, nth_In; exact Hi).
  split; [rewrite jitter_length; exact Ln|]. intros t Ht. apply jitter_nth. lia.
Qed.
Theorem C80_mi_noise : forall f E a lvl n cols, 0 < lvl -> (2 <= length cols)%nat -> all_len n cols ->
  exists cols', length cols' = length cols /\
    (forall i, (i < length cols)%nat -> length (nth i cols' []) = n /\
       forall t, (t < n)%nat -> nth t (nth i cols' []) 0 = nth t (nth i cols []) 0 + lvl * draw E (i * n + t)) /\
    fam_mi f E a lvl (Some 0%Z) false (map F1 cols) = fam_mi f E a 0 (Some 0%Z) false (map F1 cols').
Proof.
  intros f E a lvl n cols Hl Hc L. exists (jitter_all lvl (draw E) 0 cols).
  destruct (jitter_all_spec lvl (draw E) n cols L) as [S1 S2]. split; [exact S1|]. split; [exact S2|].
  unfold fam_mi.
  rewrite !(fmi_init_ok n) by (rewrite ?map_length, ?jitter_all_length; try assumption; apply tables_F1; try assumption; apply jitter_all_len; assumption).
  cbn [bind]. unfold with_noise at 1. destruct (Req_EM_T lvl 0); [lra|]. destruct (Rlt_dec lvl 0); [lra|].
  rewrite no_noise. rewrite noise_vars_F1. reflexivity.
Qed.
(** conditional: the condition comes after the variables, and each of its samples is moved once *)
Theorem C80_cmi_noise : forall f E a lvl n cols zs, 0 < lvl -> (2 <= length cols)%nat -> all_len n cols -> length zs = n ->
  exists cols' zs', length cols' = length cols /\ length zs' = n /\
    (forall i, (i < length cols)%nat -> length (nth i cols' []) = n /\
       forall t, (t < n)%nat -> nth t (nth i cols' []) 0 = nth t (nth i cols []) 0 + lvl * draw E (i * n + t)) /\
    (forall t, (t < n)%nat -> nth t zs' 0 = nth t zs 0 + lvl * draw E (length cols * n + t)) /\
    fam_cmi f E a lvl (Some 0%Z) false (map F1 cols) (F1 zs) = fam_cmi f E a 0 (Some 0%Z) false (map F1 cols') (F1 zs').
Proof.
  intros f E a lvl n cols zs Hl Hc L Lz.
  exists (jitter_all lvl (draw E) 0 cols), (jitter lvl (draw E) (length cols * n) zs).
  destruct (jitter_all_spec lvl (draw E) n cols L) as [S1 S2]. split; [exact S1|]. split; [rewrite jitter_length; exact Lz|]. split; [exact S2|]. split.
  { intros t Ht. apply jitter_nth. lia. }
  assert (TZ : forall l : list R, length l = n -> tables n [rows2d (F1 l)]) by (intros l H; apply (tables_F1 n [l]); repeat constructor; exact H).
  unfold fam_cmi. cbn [bind].
  rewrite (fcmi_init_ok n), (fcmi_init_ok n (map F1 (jitter_all lvl (draw E) 0 cols)))
    by (rewrite ?map_length, ?jitter_all_length; try assumption; try (apply TZ; rewrite ?jitter_length; assumption); apply tables_F1; try assumption; apply jitter_all_len; assumption).
  cbn [bind fst snd]. unfold with_noise at 1. destruct (Req_EM_T lvl 0); [lra|]. destruct (Rlt_dec lvl 0); [lra|].
  rewrite no_noise. cbn [bind].
  assert (A : map rows2d (map F1 cols) ++ [rows2d (F1 zs)] = map rows2d (map F1 (cols ++ [zs]))) by (rewrite !map_app; reflexivity).
  rewrite A, noise_vars_F1.
  assert (B : forall first, jitter_all lvl (draw E) first (cols ++ [zs]) = jitter_all lvl (draw E) first cols ++ [jitter lvl (draw E) (first + length cols * n) zs]).
  { clear - L. induction L as [|xs cols H L IH]; intros first; cbn [app jitter_all length].
    - rewrite Nat.add_0_r. reflexivity.
    - rewrite IH, H. do 4 f_equal. lia. }
  rewrite B, !map_app. cbn [map Nat.add].
  rewrite !map_length, jitter_all_length. reflexivity.
Qed.
(** without noise the random generator has no influence *)
Theorem C80_no_noise_deterministic : forall f k q b G z z' offset nm vars cond,
  fam_mi f (mkNenv G z) (ex_args k q b) 0 offset nm vars = fam_mi f (mkNenv G z') (ex_args k q b) 0 offset nm vars /\
  fam_cmi f (mkNenv G z) (ex_args k q b) 0 offset nm vars cond = fam_cmi f (mkNenv G z') (ex_args k q b) 0 offset nm vars cond.
Proof.
  intros. split; [unfold fam_mi|unfold fam_cmi].
  - destruct (fmi_init offset nm vars); cbn [bind]; try reflexivity. rewrite !no_noise. destruct f; reflexivity.
  - destruct (match offset with Some 0%Z | None => Ok tt | _ => Raise ValueError end); cbn [bind]; try reflexivity.
    destruct (fcmi_init nm vars cond); cbn [bind]; try reflexivity. rewrite !no_noise. destruct f; reflexivity.
Qed.
Example C80_noise_example : all_len 2 [[0; 1]; [3; 7]] /\ length [5; 6] = 2%nat. Proof. split; [repeat constructor|reflexivity]. Qed.

(** ** order one: the two measures coincide, whatever the input *)
Lemma gen_mi_ext H H' data : (forall i, H i = H' i) -> gen_mi H data = gen_mi H' data.
Proof.
  intros X. unfold gen_mi. rewrite (mapM_ext (fun v => H (FArr (F2 v))) (fun v => H' (FArr (F2 v)))) by (intros; apply X). rewrite X. reflexivity.
Qed.
Lemma gen_cmi_ext H H' data z : (forall i, H i = H' i) -> gen_cmi H data z = gen_cmi H' data z.
Proof.
  intros X. unfold gen_cmi. rewrite (mapM_ext (fun v => H (FTuple [F2 v; F2 z])) (fun v => H' (FTuple [F2 v; F2 z]))) by (intros; apply X).
  rewrite !X. reflexivity.
Qed.
Lemma gen_te_ext H H' j d m1 m2 : (forall i, H i = H' i) -> gen_te H j d m1 m2 = gen_te H' j d m1 m2.
Proof. intros X. unfold gen_te. rewrite !X. reflexivity. Qed.
Theorem C80_order_one_same : forall E a lvl offset nm vars cond, e_q a = ONum 1 ->
  fam_mi Renyi E a lvl offset nm vars = fam_mi Tsallis E a lvl offset nm vars /\
  fam_cmi Renyi E a lvl offset nm vars cond = fam_cmi Tsallis E a lvl offset nm vars cond.
Proof.
  intros E a lvl offset nm vars cond Hq.
  assert (X : forall i, fam_entropy Renyi E a i = fam_entropy Tsallis E a i) by (intros i; apply (proj1 (C78_order_one_same E a i Hq))).
  split; unfold fam_mi, fam_cmi.
  - destruct (fmi_init offset nm vars); cbn [bind]; try reflexivity. destruct (e_check a); cbn [bind]; try reflexivity.
    destruct (with_noise _ _ _); cbn [bind]; try reflexivity. apply gen_mi_ext, X.
  - destruct (match offset with Some 0%Z | None => Ok tt | _ => Raise ValueError end); cbn [bind]; try reflexivity.
    destruct (fcmi_init nm vars cond); cbn [bind]; try reflexivity. destruct (e_check a); cbn [bind]; try reflexivity.
    destruct (with_noise _ _ _); cbn [bind]; try reflexivity. apply gen_cmi_ext, X.
Qed.

(** ** only the distances between samples matter, whatever the parameters *)
Definition same_distances (n : nat) (v v' : list pt) : Prop :=
  (exists d, table n d v /\ table n d v') /\
  forall t u, (t < n)%nat -> (u < n)%nat -> dst (Some 2) (nth t v' []) (nth u v' []) = dst (Some 2) (nth t v []) (nth u v []).
Lemma same_tabs n vs vs' : Forall2 (same_distances n) vs vs' -> exists ds, tabs n ds vs /\ tabs n ds vs'.
Proof.
  induction 1 as [|v v' vs vs' ((d & D1 & D2) & _) F (ds & T & T')]; [exists []; split; apply Forall2_nil|].
  exists (d :: ds). split; apply Forall2_cons; assumption.
Qed.
Lemma Hj_same f E a n vs vs' : Forall2 (same_distances n) vs vs' -> Hj f E a n vs' = Hj f E a n vs.
Proof.
  intros F. destruct (same_tabs _ _ _ F) as (ds & T & T'). apply (Hj_dist f E a n vs' vs ds ds); try assumption; [reflexivity|].
  intros t u Ht Hu. rewrite !(jdist_norm (Some 2) n) by (try assumption; try (eapply tabs_tables; eassumption); cbn; lra). f_equal.
  clear - F Ht Hu. induction F as [|x x' l l' H F IH]; cbn [map]; [reflexivity|]. rewrite IH. f_equal. apply H; assumption.
Qed.
Lemma mapM_Hj_same f E a n (ext : list (list pt)) ext' : Forall2 (same_distances n) ext ext' -> forall vs vs', Forall2 (same_distances n) vs vs' ->
  mapM (fun v => Hj f E a n (v :: ext')) vs' = mapM (fun v => Hj f E a n (v :: ext)) vs.
Proof.
  intros Fe. induction 1 as [|v v' vs vs' H F IH]; [reflexivity|]. cbn [mapM]. rewrite IH. rewrite (Hj_same f E a n (v :: ext) (v' :: ext')); [reflexivity|].
  apply Forall2_cons; assumption.
Qed.
Theorem C80_distances_only : forall f E a n vars vars' cond cond', (2 <= length vars)%nat ->
  Forall2 (same_distances n) (map rows2d vars) (map rows2d vars') -> same_distances n (rows2d cond) (rows2d cond') ->
  fam_mi f E a 0 (Some 0%Z) false vars' = fam_mi f E a 0 (Some 0%Z) false vars /\
  fam_cmi f E a 0 (Some 0%Z) false vars' cond' = fam_cmi f E a 0 (Some 0%Z) false vars cond.
Proof.
  intros f E a n vars vars' cond cond' Hv F Fz. destruct (same_tabs _ _ _ F) as (ds & T & T').
  assert (LL : length vars' = length vars).
  { pose proof (F2_len _ _ _ F) as X. rewrite !map_length in X. symmetry. exact X. }
  assert (F1 : Forall2 (same_distances n) [rows2d cond] [rows2d cond']) by (apply Forall2_cons; [exact Fz|apply Forall2_nil]).
  assert (Tz : tables n [rows2d cond]) by (destruct Fz as ((d & X & _) & _); unfold tables; apply Forall_cons; [eexists; exact X|apply Forall_nil]).
  assert (Tz' : tables n [rows2d cond']) by (destruct Fz as ((d & _ & X) & _); unfold tables; apply Forall_cons; [eexists; exact X|apply Forall_nil]).
  split.
  - rewrite !(fam_mi_plain E f a n) by (try lia; eapply tabs_tables; eassumption).
    rewrite (mapM_Hj_same f E a n [] [] (Forall2_nil _) _ _ F), (Hj_same f E a n _ _ F). reflexivity.
  - rewrite !(fam_cmi_plain E f a n) by (first [lia | assumption | eapply tabs_tables; eassumption]).
    rewrite (mapM_Hj_same f E a n _ _ F1 _ _ F), (Hj_same f E a n _ _ F1).
    rewrite (Hj_same f E a n (map rows2d vars ++ [rows2d cond]) _ (Forall2_app F F1)). reflexivity.
Qed.
(** e.g. adding constants and changing signs *)
Example C80_distances_example : same_distances 3 (rows2d (F1 [0; 1; 3])) (rows2d (F1 [5; 4; 2])).
Proof.
  split; [exists 1%nat; split; cbn; repeat constructor|]. intros t u Ht Hu. cbn [rows2d map].
  destruct t as [|[|[|t]]]; try lia; destruct u as [|[|[|u]]]; try lia; cbn [nth]; rewrite !dst1 by (cbn; lra);
    rewrite <- (Rabs_Ropp (_ - _)); f_equal; ring.
Qed.

(** ** invalid parameters *)
Theorem C80_invalid_rejected : forall f E a lvl n vars cond,
  (2 <= length vars)%nat -> tables n (map rows2d vars) -> tables n [rows2d cond] ->
  (e_q a = OOther \/ (exists r, e_q a = ONum r /\ r <= 0) \/ e_k a = NFloat \/ (exists k, e_k a = NInt k /\ (k <= 0)%Z)) ->
  fam_mi f E a lvl (Some 0%Z) false vars = Raise ValueError /\ fam_cmi f E a lvl (Some 0%Z) false vars cond = Raise ValueError.
Proof.
  intros f E a lvl n vars cond Hv T Tz H.
  assert (C : e_check a = Raise ValueError).
  { destruct H as [H|[(r & H & L)|[Hk|(k & Hk & L)]]]; unfold e_check; rewrite ?H, ?Hk.
    - reflexivity.
    - destruct (Rle_dec r 0); [reflexivity|contradiction].
    - destruct (e_q a); [|reflexivity]. destruct (Rle_dec _ 0); reflexivity.
    - destruct (e_q a); [|reflexivity]. destruct (Rle_dec _ 0); [reflexivity|]. destruct (Z.leb_spec k 0); [reflexivity|lia]. }
  unfold fam_mi, fam_cmi. cbn [bind]. rewrite (fmi_init_ok n), (fcmi_init_ok n) by assumption. cbn [bind]. rewrite C. split; reflexivity.
Qed.
(** as many neighbours as samples, or more *)
Theorem C80_too_many_rejected : forall f E b n vars cond k q, (2 <= length vars)%nat -> tables n (map rows2d vars) -> tables n [rows2d cond] ->
  (1 <= n <= k)%nat -> 0 < q ->
  fam_mi f E (ex_args k q b) 0 (Some 0%Z) false vars = Raise ValueError /\
  fam_cmi f E (ex_args k q b) 0 (Some 0%Z) false vars cond = Raise ValueError.
Proof.
  intros f E b n vars cond k q Hv T Tz Hk Hq.
  assert (X : forall vs, tables n vs -> Hj f E (ex_args k q b) n vs = Raise ValueError).
  { intros vs Tv. destruct (tables_tabs _ _ Tv) as (ds & Td). unfold Hj. apply (C79_too_many_rejected f E b n (total_dim ds)); try assumption. apply (joined_table n ds vs Td). }
  rewrite (fam_mi_plain E f _ n), (fam_cmi_plain E f _ n) by assumption. rewrite e_check_ok by (try lia; lra). cbn [bind].
  destruct vars as [|x vars]; [cbn in Hv; lia|]. cbn [map mapM].
  rewrite (X [rows2d x]) by (unfold tables in *; apply Forall_cons; [inversion T; assumption|apply Forall_nil]).
  rewrite (X [rows2d x; rows2d cond]) by (unfold tables in *; inversion T; apply Forall_cons; assumption). split; reflexivity.
Qed.

(** ** mutual information without bound from below: unlike Shannon's, these estimates are negative for some data *)
Section two.
  Context (E : nenv) (b : base) (V : valid_base b) (HG : is_gamma (gam E)).
  Notation G := (gam E).
  Notation "'U'" := (unit_of b).
  (** two samples at distance [r], one neighbour, order 1 *)
  Lemma H2_value f ds vars r : tabs 2 ds vars -> jdist (Some 2) vars 0 1 = r -> jdist (Some 2) vars 1 0 = r -> 0 < r ->
    entropy_is (spec_H f G U) 2 1 1 vars ((ln (euclidean_ball (total_dim ds) r) + euler_gamma) / U).
  Proof.
    intros T D D' Hr. destruct (radii_exist (Some 2) 2 vars 1 ltac:(lia)) as (es & He).
    assert (ES : forall t, (t < 2)%nat -> es t = r).
    { intros t Ht. destruct (He t Ht) as ((u & Hu & N & ->) & _). destruct t as [|[|t]]; try lia; destruct u as [|[|u]]; try lia; assumption. }
    exists ds, es. split; [exact T|]. split.
    - intros t Ht. split; [apply He; exact Ht|]. rewrite ES by exact Ht. exact Hr.
    - fold (total_dim ds).
      assert (X : lps_shannon (2 - 1) (total_dim ds) 1 (map es (seq 0 2)) = ln (euclidean_ball (total_dim ds) r) + euler_gamma).
      { unfold lps_shannon, mean. cbn [seq map length Nat.sub]. rewrite !ES by lia. rewrite psi_1. unfold sumR. cbn [sumf INR]. rewrite Rmult_1_l. field. }
      destruct f; cbn [spec_H]; unfold renyi_H, tsallis_H; (destruct (Req_EM_T 1 1); [|congruence]); rewrite X; reflexivity.
  Qed.
  Theorem C80_mi_nonnegative_refuted : forall f M, big_base b -> exists t v, 0 < t /\
    fam_mi f E (ex_args 1 1 b) 0 (Some 0%Z) false [F1 [0; 1]; F1 [0; t]] = Ok v /\ v < M.
  Proof.
    intros f M B. set (t := exp (M * U - euler_gamma - 2)). assert (Pt : 0 < t) by apply exp_pos.
    assert (TX : forall r, table 2 1 (rows2d (F1 [0; r]))) by (intros r; cbn; repeat constructor).
    assert (D1 : forall r, 0 < r -> jdist (Some 2) [rows2d (F1 [0; r])] 0 1 = r /\ jdist (Some 2) [rows2d (F1 [0; r])] 1 0 = r).
    { intros r Hr. rewrite !jdist_1. cbn [rows2d map nth]. rewrite !dst1 by (cbn; lra). split; [rewrite Rabs_left; lra|rewrite Rabs_pos_eq; lra]. }
    set (r := jdist (Some 2) (map rows2d [F1 [0; 1]; F1 [0; t]]) 0 1).
    assert (TB : tabs 2 [1; 1]%nat (map rows2d [F1 [0; 1]; F1 [0; t]])) by (unfold tabs; cbn [map]; repeat (apply Forall2_cons; [apply TX|]); apply Forall2_nil).
    assert (TT : tables 2 (map rows2d [F1 [0; 1]; F1 [0; t]])) by (eapply tabs_tables; exact TB).
    assert (N2 : norm_ok (Some 2)) by (cbn; lra).
    assert (R1 : 1 <= r).
    { rewrite <- (proj1 (D1 1 Rlt_0_1)). apply (jdist_mono (Some 2) 2); try assumption; try lia. exists [rows2d (F1 [0; t])]. reflexivity. }
    assert (RS : jdist (Some 2) (map rows2d [F1 [0; 1]; F1 [0; t]]) 1 0 = r).
    { unfold r. rewrite !(jdist_norm (Some 2) 2) by (try assumption; lia). f_equal. cbn [map rows2d nth]. rewrite !dst1 by exact N2.
      rewrite (Rabs_minus_sym 1 0), (Rabs_minus_sym t 0). reflexivity. }
    exists t, (sumR [(ln (euclidean_ball 1 1) + euler_gamma) / U; (ln (euclidean_ball 1 t) + euler_gamma) / U] - (ln (euclidean_ball 2 r) + euler_gamma) / U).
    split; [exact Pt|]. split.
    - apply (C80_mi_value E b V HG f 2); try (cbn; lia); try assumption; [cbn; lra| |].
      + repeat apply Forall2_cons; [..|apply Forall2_nil]; apply (H2_value f [1%nat]); try (apply D1; lra); try lra; (apply Forall2_cons; [apply TX|apply Forall2_nil]).
      + apply (H2_value f [1; 1]%nat); try assumption; [reflexivity|lra].
    - assert (PU : 0 < U) by (apply unit_pos; assumption).
      unfold sumR. cbn [sumf euclidean_ball]. apply Rmult_lt_reg_r with U; [exact PU|].
      assert (L2 : ln (2 * t) = ln 2 + (M * U - euler_gamma - 2)) by (rewrite (ln_mult 2) by lra; unfold t; rewrite ln_exp; reflexivity).
      assert (L3 : 0 < ln (2 * PI * r ^ 2 / INR 2 * 1)).
      { rewrite <- ln_1. apply ln_increasing; [lra|]. pose proof PI2_1. cbn [INR pow]. assert (1 <= r * r) by nra. nra. }
      assert (L4 : ln 2 < 1) by (apply exp_lt_inv; rewrite exp_ln by lra; pose proof (exp_ineq1 1 ltac:(lra)); lra).
      replace (2 * 1) with 2 by ring. set (A := ln (2 * PI * r ^ 2 / INR 2 * 1)) in *. set (C := ln (2 * t)) in *.
      replace (((ln 2 + euler_gamma) / U + ((C + euler_gamma) / U + 0) - (A + euler_gamma) / U) * U) with (ln 2 + C + euler_gamma - A) by (field; lra).
      rewrite L2. lra.
  Qed.

  (** ** a constant condition does not drop out: rescaling all variables by c > 0 leaves the mutual information as it is
      (C80_mi_scaling) but adds (m - 1) dim(z) ln c to the information given a constant condition z *)
  Theorem C80_constant_condition_refuted : forall n vars vars' cond dz k q sg c,
    (2 <= length vars)%nat -> (1 <= k < n)%nat -> 0 < q < INR k + 1 -> 0 < c -> Permutation (map sg (seq 0 n)) (seq 0 n) ->
    Forall2 (scaled n sg c) (map rows2d vars) (map rows2d vars') -> Forall (fun x => all_distinct n (rows2d x)) vars ->
    (1 <= dz)%nat -> table n dz (rows2d cond) -> (forall t u, (t < n)%nat -> (u < n)%nat -> nth t (rows2d cond) [] = nth u (rows2d cond) []) ->
    exists v, fam_cmi Renyi E (ex_args k q b) 0 (Some 0%Z) false vars cond = Ok v /\
              fam_cmi Renyi E (ex_args k q b) 0 (Some 0%Z) false vars' cond = Ok (v + (INR (length vars) - 1) * INR dz * ln c / U).
  Proof.
    intros n vars vars' cond dz k q sg c Hv Hk Hq Hc P F D Hdz Tz Cz.
    destruct (scaled_tabs _ _ _ _ _ F) as (ds & T & T').
    assert (SB : forall t, (t < n)%nat -> (sg t < n)%nat).
    { intros t Ht. assert (X : In (sg t) (seq 0 n)) by (apply (Permutation_in _ P), in_map, in_seq; lia). apply in_seq in X. lia. }
    assert (Sz : scaled n sg c (rows2d cond) (rows2d cond)).
    { split; [exists dz; split; exact Tz|]. intros t u Ht Hu. rewrite (Cz (sg t) (sg u)), (Cz t u) by (try assumption; apply SB; assumption). rewrite !dst_self. ring. }
    assert (LL : length vars' = length vars).
    { pose proof (F2_len _ _ _ F) as X. rewrite !map_length in X. symmetry. exact X. }
    assert (Tzz : tables n [rows2d cond]) by (unfold tables; apply Forall_cons; [eexists; exact Tz|apply Forall_nil]).
    rewrite !(fam_cmi_plain E Renyi _ n) by (first [lia | exact Tzz | eapply tabs_tables; eassumption]).
    rewrite e_check_ok by (try lia; lra). cbn [bind].
    assert (HZ : Hj Renyi E (ex_args k q b) n [rows2d cond] = Ok 0).
    { unfold Hj. apply (C79_all_coincide Renyi E b n dz); try assumption.
      - rewrite <- (td1 dz). apply (joined_table n [dz]). apply Forall2_cons; [exact Tz|apply Forall2_nil].
      - destruct (radii_exist (Some 2) n [rows2d (F2 (jrows n [rows2d cond]))] k Hk) as (es & He). intros t Ht.
        destruct (He t Ht) as ((u & Hu & N & EU) & K1 & K2).
        assert (Z0 : es t = 0). { rewrite EU, jdist_1. cbn [rows2d]. rewrite !jrows_nth by assumption. change (jdist (Some 2) [rows2d cond] t u = 0). rewrite jdist_1, (Cz t u) by assumption. apply dst_self. }
        split; [exists u; repeat split; try assumption; rewrite <- EU; symmetry; exact Z0|]. rewrite Z0 in *. split; assumption. }
    rewrite HZ.
    assert (Hx : exists x, In x vars) by (destruct vars as [|x]; [cbn in Hv; lia|exists x; left; reflexivity]). destruct Hx as (x0 & Hx0).
    assert (DX : forall x, In x vars -> all_distinct n (rows2d x)) by (rewrite Forall_forall in D; exact D).
    destruct (Hj_scaled E b V HG n (ds ++ [dz]) (map rows2d vars ++ [rows2d cond]) (map rows2d vars' ++ [rows2d cond]) (rows2d x0) k q sg c) as (hj & -> & ->); try assumption.
    { apply Forall2_app; [exact F|]. apply Forall2_cons; [exact Sz|apply Forall2_nil]. }
    { apply tabs_app; [exact T|]. apply Forall2_cons; [exact Tz|apply Forall2_nil]. }
    { apply in_or_app. left. apply in_map. exact Hx0. } { apply DX. exact Hx0. }
    assert (M : exists hs hs', mapM (fun v => Hj Renyi E (ex_args k q b) n [v; rows2d cond]) (map rows2d vars) = Ok hs /\
                 mapM (fun v => Hj Renyi E (ex_args k q b) n [v; rows2d cond]) (map rows2d vars') = Ok hs' /\
                 sumR hs' = sumR hs + (INR (total_dim ds) + INR (length vars) * INR dz) * ln c / U).
    { clear - V HG Hk Hq Hc P F T DX Sz Tz. revert vars' ds F T. induction vars as [|x vars IH]; intros vars' ds F T.
      - inversion F as [E1 E2|]; subst. destruct vars'; [|discriminate]. inversion T; subst. exists [], []. split; [reflexivity|]. split; [reflexivity|]. cbn. unfold Rdiv. ring.
      - destruct vars' as [|x' vars']; [inversion F|]. inversion F as [|? ? ? ? Sx F']; subst. inversion T as [|d ? ds' ? Tx T']; subst.
        destruct (IH ltac:(intros; apply DX; right; assumption) vars' ds' F' T') as (hs & hs' & M1 & M2 & S).
        destruct (Hj_scaled E b V HG n [d; dz] [rows2d x; rows2d cond] [rows2d x'; rows2d cond] (rows2d x) k q sg c) as (h & H1 & H2); try assumption.
        { repeat (apply Forall2_cons; [assumption|]). apply Forall2_nil. } { repeat (apply Forall2_cons; [assumption|]). apply Forall2_nil. } { left; reflexivity. } { apply DX. left; reflexivity. }
        exists (h :: hs), ((h + INR (total_dim [d; dz]) * ln c / U) :: hs'). cbn [map mapM]. rewrite H1, H2, M1, M2. split; [reflexivity|]. split; [reflexivity|].
        unfold sumR in *. cbn [sumf]. rewrite S. change (total_dim (d :: ds')) with (d + total_dim ds')%nat.
        change (total_dim [d; dz]) with (d + (dz + 0))%nat. cbn [length]. rewrite S_INR, !plus_INR. cbn [INR]. unfold Rdiv. ring. }
    destruct M as (hs & hs' & -> & -> & S). cbn [bind]. eexists. split; [reflexivity|]. f_equal. rewrite S, total_dim_app, plus_INR, td1. unfold Rdiv. ring.
  Qed.
End two.
Lemma table_col n (xs : list R) : length xs = n -> table n 1 (rows2d (F1 xs)).
Proof.
  intros <-. split; [apply map_length|]. apply Forall_forall. intros r Hr. cbn [rows2d] in Hr. apply in_map_iff in Hr as (x & <- & _). reflexivity.
Qed.
(** multiplying a series by c > 0 *)
Lemma scaled_col n c xs : length xs = n -> 0 < c -> scaled n (fun t => t) c (rows2d (F1 xs)) (rows2d (F1 (map (Rmult c) xs))).
Proof.
  intros L Hc. split.
  - exists 1%nat. split; apply table_col; rewrite ?map_length; exact L.
  - intros t u Ht Hu. cbn [rows2d]. rewrite !(nth_indep (map _ _) [] [0]) by (rewrite !map_length; lia). rewrite !(map_nth (fun x => [x])).
    rewrite !dst1 by (cbn; lra). rewrite !(nth_indep (map (Rmult c) xs) 0 (c * 0)) by (rewrite map_length; lia).
    rewrite !(map_nth (Rmult c)). rewrite <- Rmult_minus_distr_l, Rabs_mult, (Rabs_pos_eq c) by lra. reflexivity.
Qed.
Lemma distinct_col n xs : length xs = n -> NoDup xs -> all_distinct n (rows2d (F1 xs)).
Proof.
  intros L ND t u Ht Hu N. cbn [rows2d]. rewrite !(nth_indep (map _ _) [] [0]) by (rewrite !map_length; lia). rewrite !(map_nth (fun x => [x])).
  rewrite dst1 by (cbn; lra). apply Rabs_pos_lt. intros C. apply N. apply (proj1 (NoDup_nth xs 0) ND); try lia. lra.
Qed.
(** the hypotheses of the scaling theorems hold e.g. for two series of three samples and a condition *)
Example C80_scaling_example :
  Forall2 (scaled 3 (fun t => t) 2) (map rows2d [F1 [0; 1; 3]; F1 [0; 2; 5]]) (map rows2d [F1 (map (Rmult 2) [0; 1; 3]); F1 (map (Rmult 2) [0; 2; 5])]) /\
  Forall (fun x => all_distinct 3 (rows2d x)) [F1 [0; 1; 3]; F1 [0; 2; 5]] /\ Permutation (map (fun t => t) (seq 0 3)) (seq 0 3) /\
  table 3 1 (rows2d (F1 [7; 7; 7])) /\ (forall t u, (t < 3)%nat -> (u < 3)%nat -> nth t (rows2d (F1 [7; 7; 7])) [] = nth u (rows2d (F1 [7; 7; 7])) []) /\
  (1 <= 2 < 3)%nat /\ 0 < 2.5 < INR 2 + 1.
Proof.
  assert (ND : forall x y, 0 < x -> x < y -> NoDup [0; x; y]) by (intros x y Hx Hy; repeat constructor; cbn; lra).
  split; [|split; [|split; [|split; [|split; [|split]]]]].
  - cbn [map]. apply Forall2_cons; [apply scaled_col; [reflexivity|lra]|]. apply Forall2_cons; [apply scaled_col; [reflexivity|lra]|apply Forall2_nil].
  - repeat apply Forall_cons; [..|apply Forall_nil]; (apply distinct_col; [reflexivity|apply ND; lra]).
  - rewrite map_id. reflexivity.
  - apply table_col. reflexivity.
  - intros t u Ht Hu. destruct t as [|[|[|t]]]; try lia; destruct u as [|[|[|u]]]; try lia; reflexivity.
  - lia.
  - cbn. lra.
Qed.
