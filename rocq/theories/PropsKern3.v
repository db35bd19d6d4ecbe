(** C61, C62: kernel conditional mutual information and transfer entropy. *)
From Coq Require Import Reals Lra Lia List ZArith Arith Bool Permutation.
From Verif Require Import Res RSum Spec SpecTE SpecTEc SpecBase MBase PBase MTE PTE2 MPct MNorm MCont SpecKern MKern PKern PKern2 PKern3 PKern4 PKern5 PTEc PropsKern PropsKern2.
Import ListNotations.
Local Open Scope R_scope.

(** ** C61.  One-dimensional variables [cols] and condition [zs]: the documented combination
    sum H(Xi,Z) - H(X1..Xm,Z) - H(Z) of the kernel entropies *)
Theorem C61_cmi_is_entropy_combination : forall E h w b n cols zs,
  0 < h -> (0 < cpus E)%Z -> workers_ok w -> valid_base b -> (2 <= n)%nat ->
  (2 <= length cols)%nat -> all_len n cols -> length zs = n ->
  exists Hxz Hall Hz,
    Forall2 (fun c v => kernel_entropy E (box_args h w b) (FTuple [F1 c; F1 zs]) = Ok v) cols Hxz /\
    kernel_entropy E (box_args h w b) (FTuple (map F1 (cols ++ [zs]))) = Ok Hall /\
    kernel_entropy E (box_args h w b) (FArr (F1 zs)) = Ok Hz /\
    kernel_cmi E (box_args h w b) (Some 0%Z) false (map F1 cols) (F1 zs) = Ok (sumR Hxz - Hall - Hz).
Proof.
  intros E h w b n cols zs Hh HC HW HV Hn Hc L Lz.
  exists (map (fun c => KH h n 2 [pts c; pts zs] / unit_of b) cols).
  exists (KH h n (S (length cols)) (map pts (cols ++ [zs])) / unit_of b).
  exists (KH h n 1 [pts zs] / unit_of b).
  assert (TF : forall cs, all_len n cs -> Forall2 (fun d a => table n d (rows2d a)) (map (fun _ => 1%nat) cs) (map F1 cs)).
  { induction 1; cbn; constructor; [apply pts_table; assumption|assumption]. }
  split; [|split; [|split]].
  - unfold all_len in L. clear Hc. induction L as [|c cols Lc L IH]; cbn; constructor; [|exact IH].
    rewrite (C59_kernel_joint_entropy E h w b Hh HC HW HV [F1 c; F1 zs] n [1; 1]%nat Hn); [reflexivity|discriminate|].
    apply (TF [c; zs]). repeat constructor; assumption.
  - assert (LA : all_len n (cols ++ [zs])) by (apply Forall_app; split; [exact L|repeat constructor; exact Lz]).
    rewrite (C59_kernel_joint_entropy E h w b Hh HC HW HV (map F1 (cols ++ [zs])) n (map (fun _ => 1%nat) (cols ++ [zs])) Hn).
    + change (fold_right Nat.add 0%nat (map (fun _ => 1%nat) (cols ++ [zs]))) with (total_dim (map (fun _ => 1%nat) (cols ++ [zs]))).
      rewrite total_ones, app_length, map_map. cbn [length]. rewrite Nat.add_1_r. reflexivity.
    + destruct cols; discriminate.
    + apply TF. exact LA.
  - rewrite (proj2 (C59_kernel_entropy E h w b Hh HC HW HV (F1 zs) n 1 Hn (pts_table n zs Lz))). reflexivity.
  - rewrite (kernel_cmi_ok E h w b n cols zs) by (auto; lia). f_equal. unfold KCMI1.
    assert (S : sumR (map (fun c => KH h n 2 [pts c; pts zs]) cols) / unit_of b
      = sumR (map (fun c => KH h n 2 [pts c; pts zs] / unit_of b) cols)).
    { clear. induction cols as [|c cols IH]; unfold sumR in *; cbn [map sumf]; [unfold Rdiv; ring|]. rewrite <- IH. unfold Rdiv. ring. }
    rewrite <- S. unfold Rdiv. ring.
Qed.

(** two variables: symmetric and at most ln N in absolute value *)
Theorem C61_cmi_two_variables : forall E h w b n xs ys zs,
  0 < h -> (0 < cpus E)%Z -> workers_ok w -> valid_base b -> big_base b -> (2 <= n)%nat ->
  length xs = n -> length ys = n -> length zs = n ->
  exists v, kernel_cmi E (box_args h w b) (Some 0%Z) false [F1 xs; F1 ys] (F1 zs) = Ok v /\
    kernel_cmi E (box_args h w b) (Some 0%Z) false [F1 ys; F1 xs] (F1 zs) = Ok v /\
    - (ln (INR n) / unit_of b) <= v <= ln (INR n) / unit_of b.
Proof.
  intros E h w b n xs ys zs Hh HC HW HV HB Hn Lx Ly Lz.
  assert (L : all_len n [xs; ys]) by (repeat constructor; assumption).
  assert (L' : all_len n [ys; xs]) by (repeat constructor; assumption).
  eexists. split; [apply (kernel_cmi_ok E h w b n [xs; ys] zs Hh HC HW HV ltac:(lia) ltac:(cbn; lia) L Lz)|]. split.
  - change [F1 ys; F1 xs] with (map F1 [ys; xs]).
    rewrite (kernel_cmi_ok E h w b n [ys; xs] zs Hh HC HW HV ltac:(lia) ltac:(cbn; lia) L' Lz). do 2 f_equal.
    unfold KCMI1, sumR. cbn [map sumf app length].
    rewrite (KH_perm_vars h n 3 [pts ys; pts xs; pts zs] [pts xs; pts ys; pts zs]) by apply perm_swap. ring.
  - pose proof (KCMI_bounds h n 1 1 1 [pts xs] [pts ys] [pts zs] Hh ltac:(lia)) as B.
    cbn [Nat.add app] in B. pose proof (unit_pos b HV HB) as U.
    unfold KCMI1, sumR. cbn [map sumf app length].
    replace (- (ln (INR n) / unit_of b)) with ((- ln (INR n)) / unit_of b) by (field; lra).
    unfold Rdiv. split; (apply Rmult_le_compat_r; [left; apply Rinv_0_lt_compat; exact U|lra]).
Qed.

(** a condition of two columns, the documented way to condition on two variables, is not used correctly: only its
    last column enters the marginal densities.  Here X and Y are constant, so that the combination of entropies is
    0, while the result is - ln 2. *)
Definition c61_z2 : farr := F2 [[0; 0]; [10; 0]].
Definition c61_x : farr := F1 [0; 0].

Ltac kde_calc := rewrite ?squeeze_long by (rewrite map_length, seq_length; lia).

Lemma ln_half : ln (1 / 2) = - ln 2.
Proof. unfold Rdiv. rewrite Rmult_1_l. apply ln_Rinv. lra. Qed.

Lemma near_nil h : near h [] [] = true. Proof. reflexivity. Qed.
Lemma near_cons h a x b y : near h (a :: x) (b :: y) = near h [a] [b] && near h x y.
Proof. unfold near. cbn. rewrite andb_true_r. reflexivity. Qed.
Ltac nnear_vec := unfold nnear; cbn [seq filter forallb map nth rows2d pts];
  repeat (rewrite (near_cons _ _ (_ :: _)); cbn [andb]); repeat (near_solve; cbn [andb]); try reflexivity.

Lemma kdensity_1 n d vars t c : nnear 1 n vars t = c -> kdensity 1 n d vars t = INR c / INR n.
Proof. intros <-. unfold kdensity. rewrite pow1. unfold Rdiv. rewrite Rinv_1. ring. Qed.

Theorem C61_multidim_condition_refuted : forall E w, (0 < cpus E)%Z -> workers_ok w ->
  KH 1 2 3 [rows2d c61_x; rows2d c61_z2] + KH 1 2 3 [rows2d c61_x; rows2d c61_z2]
    - KH 1 2 4 [rows2d c61_x; rows2d c61_x; rows2d c61_z2] - KH 1 2 2 [rows2d c61_z2] = 0 /\
  kernel_cmi E (box_args 1 w BE) (Some 0%Z) false [c61_x; c61_x] c61_z2 = Ok (- ln 2).
Proof.
  intros E w HC HW.
  set (X := [[0]; [0]] : list pt). set (Z2 := [[0; 0]; [10; 0]] : list pt).
  assert (N : forall t, (t < 2)%nat -> nnear 1 2 [X; Z2] t = 1%nat /\ nnear 1 2 [X; X; Z2] t = 1%nat /\ nnear 1 2 [Z2] t = 1%nat).
  { intros t Ht. destruct t as [|[|t]]; [| |lia]; (split; [|split]); unfold X, Z2; nnear_vec. }
  split.
  - unfold KH. cbn [seq map]. change (rows2d c61_x) with X. change (rows2d c61_z2) with Z2.
    destruct (N 0%nat ltac:(lia)) as (A & B & C). destruct (N 1%nat ltac:(lia)) as (A' & B' & C').
    rewrite !(kdensity_1 2 _ _ _ _ A), !(kdensity_1 2 _ _ _ _ B), !(kdensity_1 2 _ _ _ _ C),
      !(kdensity_1 2 _ _ _ _ A'), !(kdensity_1 2 _ _ _ _ B'), !(kdensity_1 2 _ _ _ _ C'). ring.
  - unfold kernel_cmi, kernel_cmi_local. cbn [bind]. unfold fcmi_init, c61_x, c61_z2. cbn [flen length Nat.eqb negb orb bind fst snd rows2d map].
    unfold kernel_cmi_form. cbn [app].
    assert (T : tabs 2 [1; 1; 2]%nat [X; X; Z2]) by (repeat constructor).
    assert (TX : tabs 2 [2]%nat [[[0; 0]; [0; 0]]]) by (repeat constructor).
    assert (TZ : tabs 2 [1]%nat [X]) by (repeat constructor).
    fold X. fold Z2. rewrite (cstack_ok 2) by (try discriminate; eapply tabs_tables; exact T). cbn [bind].
    rewrite (kdens_box E 1 w BE 2 _ _ ltac:(lra) HC HW T ltac:(lia)). cbn [bind length seq mapM].
    assert (J : jrows 2 [X; X; Z2] = [[0; 0; 0; 0]; [0; 0; 10; 0]]) by reflexivity. rewrite J.
    cbn [map MKern.col last_col nth length Nat.sub].
    pose proof (kdens_box E 1 w BE 2 _ _ ltac:(lra) HC HW TX ltac:(lia)) as KX.
    rewrite (single_rows 2 [[0; 0]; [0; 0]] eq_refl) in KX. rewrite KX. cbn [bind].
    pose proof (kdens_box E 1 w BE 2 _ _ ltac:(lra) HC HW TZ ltac:(lia)) as KZ.
    rewrite (single_rows 2 X eq_refl) in KZ. fold X. rewrite KZ.
    cbn [bind box_args k_base base_guard map seq squeeze flat length app].
    assert (NX : forall t, (t < 2)%nat -> nnear 1 2 [[[0; 0]; [0; 0]]] t = 2%nat /\ nnear 1 2 [X] t = 2%nat).
    { intros t Ht. destruct t as [|[|t]]; [| |lia]; (split); unfold X, Z2; nnear_vec. }
    destruct (N 0%nat ltac:(lia)) as (_ & B & _). destruct (N 1%nat ltac:(lia)) as (_ & B' & _).
    destruct (NX 0%nat ltac:(lia)) as (D & F). destruct (NX 1%nat ltac:(lia)) as (D' & F').
    unfold rows_of. cbn [seq map nth mapM hd tl removelast last fold_right].
    rewrite !(kdensity_1 2 _ _ _ _ B), !(kdensity_1 2 _ _ _ _ B'), !(kdensity_1 2 _ _ _ _ D), !(kdensity_1 2 _ _ _ _ D'),
      !(kdensity_1 2 _ _ _ _ F), !(kdensity_1 2 _ _ _ _ F').
    replace (INR 1) with 1 by reflexivity. replace (INR 2) with 2 by (cbn; lra).
    unfold np_div. destruct (Req_EM_T _ 0) as [Y|_]; [lra|]. cbn [bind].
    replace (1 / 2 * (2 / 2) / (2 / 2 * (2 / 2 * 1))) with (1 / 2) by field.
    rewrite log_base_ok by (try exact Logic.I; lra). cbn [bind unit_of mean_res]. rewrite ln_half.
    f_equal. unfold mean, sumR. cbn [sumf length]. replace (INR 2) with 2 by (cbn; lra). field.
Qed.

(** a two-dimensional variable is not used correctly either: here X is constant *)
Definition c61_x2 : farr := F2 [[0; 0]; [0; 0]].
Definition c61_y : farr := F1 [0; 10].
Theorem C61_multidim_variable_refuted : forall E w, (0 < cpus E)%Z -> workers_ok w ->
  KH 1 2 3 [rows2d c61_x2; rows2d c61_x] + KH 1 2 2 [rows2d c61_y; rows2d c61_x]
    - KH 1 2 4 [rows2d c61_x2; rows2d c61_y; rows2d c61_x] - KH 1 2 1 [rows2d c61_x] = 0 /\
  kernel_cmi E (box_args 1 w BE) (Some 0%Z) false [c61_x2; c61_y] c61_x = Ok (- ln 2).
Proof.
  intros E w HC HW.
  set (Z := [[0]; [0]] : list pt). set (X2 := [[0; 0]; [0; 0]] : list pt). set (Y := [[0]; [10]] : list pt).
  assert (N : forall t, (t < 2)%nat -> nnear 1 2 [X2; Z] t = 2%nat /\ nnear 1 2 [Y; Z] t = 1%nat /\
     nnear 1 2 [X2; Y; Z] t = 1%nat /\ nnear 1 2 [Z] t = 2%nat /\ nnear 1 2 [X2] t = 2%nat).
  { intros t Ht. destruct t as [|[|t]]; [| |lia]; (split; [|split; [|split; [|split]]]); unfold X2, Y, Z; nnear_vec. }
  destruct (N 0%nat ltac:(lia)) as (A & B & C & D & F). destruct (N 1%nat ltac:(lia)) as (A' & B' & C' & D' & F').
  split.
  - unfold KH. cbn [seq map]. change (rows2d c61_x) with Z. change (rows2d c61_x2) with X2. change (rows2d c61_y) with Y.
    rewrite !(kdensity_1 2 _ _ _ _ A), !(kdensity_1 2 _ _ _ _ B), !(kdensity_1 2 _ _ _ _ C), !(kdensity_1 2 _ _ _ _ D),
      !(kdensity_1 2 _ _ _ _ A'), !(kdensity_1 2 _ _ _ _ B'), !(kdensity_1 2 _ _ _ _ C'), !(kdensity_1 2 _ _ _ _ D'). ring.
  - unfold kernel_cmi, kernel_cmi_local. cbn [bind]. unfold fcmi_init, c61_x, c61_x2, c61_y.
    cbn [flen length Nat.eqb negb orb bind fst snd rows2d map].
    unfold kernel_cmi_form. cbn [app].
    assert (T : tabs 2 [2; 1; 1]%nat [X2; Y; Z]) by (repeat constructor).
    assert (TX : tabs 2 [2]%nat [X2]) by (repeat constructor).
    assert (TZ : tabs 2 [1]%nat [Z]) by (repeat constructor).
    fold X2. fold Z. fold Y. rewrite (cstack_ok 2) by (try discriminate; eapply tabs_tables; exact T). cbn [bind].
    rewrite (kdens_box E 1 w BE 2 _ _ ltac:(lra) HC HW T ltac:(lia)). cbn [bind length seq mapM].
    assert (J : jrows 2 [X2; Y; Z] = [[0; 0; 0; 0]; [0; 0; 10; 0]]) by reflexivity. rewrite J.
    cbn [map MKern.col last_col nth length Nat.sub].
    pose proof (kdens_box E 1 w BE 2 _ _ ltac:(lra) HC HW TX ltac:(lia)) as KX.
    rewrite (single_rows 2 X2 eq_refl) in KX. fold X2. rewrite KX. cbn [bind].
    pose proof (kdens_box E 1 w BE 2 _ _ ltac:(lra) HC HW TZ ltac:(lia)) as KZ.
    rewrite (single_rows 2 Z eq_refl) in KZ. fold Z. rewrite KZ.
    cbn [bind box_args k_base base_guard map seq squeeze flat length app].
    unfold rows_of. cbn [seq map nth mapM hd tl removelast last fold_right].
    rewrite !(kdensity_1 2 _ _ _ _ C), !(kdensity_1 2 _ _ _ _ D), !(kdensity_1 2 _ _ _ _ F),
      !(kdensity_1 2 _ _ _ _ C'), !(kdensity_1 2 _ _ _ _ D'), !(kdensity_1 2 _ _ _ _ F').
    replace (INR 1) with 1 by reflexivity. replace (INR 2) with 2 by (cbn; lra).
    unfold np_div. destruct (Req_EM_T _ 0) as [Q|_]; [lra|]. cbn [bind].
    replace (1 / 2 * (2 / 2) / (2 / 2 * (2 / 2 * 1))) with (1 / 2) by field.
    rewrite log_base_ok by (try exact Logic.I; lra). cbn [bind unit_of mean_res]. rewrite ln_half.
    f_equal. unfold mean, sumR. cbn [sumf length]. replace (INR 2) with 2 by (cbn; lra). field.
Qed.

(** ** C62: transfer entropy is the kernel conditional mutual information of the embedded series *)
Definition kte_kw (l k c s : nat) : te_args :=
  mkTE (NInt (Z.of_nat l)) (NInt (Z.of_nat k)) (NInt (Z.of_nat c)) (NInt (Z.of_nat s)) (Some (NInt 0)) None.

Theorem C62_te_is_conditional_mi : forall E h w b n ds dd source dest l k c s rnd,
  0 < h -> (0 < cpus E)%Z -> workers_ok w -> valid_base b ->
  table n ds (rows2d source) -> table n dd (rows2d dest) ->
  (1 <= l)%nat -> (1 <= k)%nat -> (1 <= s)%nat ->
  let d := (Nat.max k l * s)%nat in
  let m := nrows n d s in
  let ts := base_times n d s in
  (d < n)%nat -> (2 <= m)%nat -> rnd_ok rnd m ->
  let X := rnd_rows rnd (past_pts (rows2d source) s l ts) in
  let Z := past_pts (rows2d dest) s k ts in
  let Y := present_pts (rows2d dest) ts in
  exists v, kernel_te E (box_args h w b) source dest (kte_kw l k c s) rnd = Ok v /\
    v = (KH h m (l * ds + k * dd) [X; Z] + KH h m (k * dd + dd) [Z; Y]
         - KH h m (l * ds + k * dd + dd) [X; Z; Y] - KH h m (k * dd) [Z]) / unit_of b /\
    (big_base b -> - (ln (INR m) / unit_of b) <= v <= ln (INR m) / unit_of b).
Proof.
  intros E h w b n ds dd source dest l k c s rnd Hh HC HW HV Ts Td Hl Hk Hs d m ts Hd Hm Hr X Z Y.
  eexists. split; [|split; [reflexivity|]].
  - unfold kernel_te, kernel_te_local, kte_kw. cbn [a_prop a_offset a_step a_src a_dest].
    rewrite fte_init_plain by (destruct Ts, Td; congruence). cbn [bind fst snd].
    rewrite (fte_spaces_ok (rows2d source) (rows2d dest) l k s n rnd Hl Hk Hs (proj1 Ts) (proj1 Td) Hd Hr). cbn [bind].
    fold d. fold m. fold ts. fold X Z Y.
    assert (HT : forall t, In t ts -> (d <= t < n)%nat).
    { intros t Ht. unfold ts in Ht. rewrite base_times_In in Ht by exact Hs. tauto. }
    assert (LT : length ts = m) by apply base_times_length.
    assert (TX : table m (l * ds) X).
    { apply rnd_table; [exact Hr|]. rewrite <- LT. apply (past_table n); auto. intros t Ht. specialize (HT t Ht). unfold d in *. nia. }
    assert (TZ : table m (k * dd) Z).
    { rewrite <- LT. apply (past_table n); auto. intros t Ht. specialize (HT t Ht). unfold d in *. nia. }
    assert (TY : table m dd Y).
    { rewrite <- LT. apply (present_table n); auto. intros t Ht. specialize (HT t Ht). lia. }
    rewrite (kernel_te_form_ok E h w b m [l * ds; k * dd; dd]%nat [k * dd]%nat [l * ds; k * dd]%nat [k * dd; dd]%nat);
      try (unfold tabs; repeat (apply Forall2_cons; [assumption|]); apply Forall2_nil); auto.
    cbn [bind]. rewrite kte_mean by lia.
    unfold total_dim. cbn [fold_right]. rewrite !Nat.add_0_r, !Nat.add_assoc. reflexivity.
  - intros HB. pose proof (unit_pos b HV HB) as U.
    pose proof (KCMI_bounds h m (l * ds) dd (k * dd) [X] [Y] [Z] Hh ltac:(lia)) as B. cbn [app] in B.
    rewrite (KH_perm_vars h m _ [X; Y; Z] [X; Z; Y]) in B by (apply perm_skip; apply perm_swap).
    rewrite (KH_perm_vars h m _ [Y; Z] [Z; Y]) in B by apply perm_swap.
    replace (l * ds + dd + k * dd)%nat with (l * ds + k * dd + dd)%nat in B by lia.
    replace (dd + k * dd)%nat with (k * dd + dd)%nat in B by lia.
    replace (- (ln (INR m) / unit_of b)) with ((- ln (INR m)) / unit_of b) by (field; lra).
    unfold Rdiv. split; (apply Rmult_le_compat_r; [left; apply Rinv_0_lt_compat; exact U|lra]).
Qed.

Theorem C62_cte_is_conditional_mi : forall E h w b n ds dd dc source dest cond l k c s,
  0 < h -> (0 < cpus E)%Z -> workers_ok w -> valid_base b ->
  table n ds (rows2d source) -> table n dd (rows2d dest) -> table n dc (rows2d cond) ->
  (1 <= l)%nat -> (1 <= k)%nat -> (1 <= c)%nat -> (1 <= s)%nat ->
  let d := (Nat.max (Nat.max k l) c * s)%nat in
  let m := nrows n d s in
  let ts := base_times n d s in
  (d < n)%nat -> (2 <= m)%nat ->
  let X := past_pts (rows2d source) s l ts in
  let Z := past_pts (rows2d dest) s k ts in
  let C := past_pts (rows2d cond) s c ts in
  let Y := present_pts (rows2d dest) ts in
  exists v, kernel_cte E (box_args h w b) source dest cond (kte_kw l k c s) = Ok v /\
    v = (KH h m (l * ds + k * dd + c * dc) [X; Z; C] + KH h m (k * dd + dd + c * dc) [Z; Y; C]
         - KH h m (l * ds + k * dd + dd + c * dc) [X; Z; Y; C] - KH h m (k * dd + c * dc) [Z; C]) / unit_of b /\
    (big_base b -> - (ln (INR m) / unit_of b) <= v <= ln (INR m) / unit_of b).
Proof.
  intros E h w b n ds dd dc source dest cond l k c s Hh HC HW HV Ts Td Tc Hl Hk Hc Hs d m ts Hd Hm X Z C Y.
  eexists. split; [|split; [reflexivity|]].
  - unfold kernel_cte, kernel_cte_local, kte_kw. cbn [a_prop a_offset a_step a_src a_dest a_cond].
    unfold fcte_init. rewrite (proj1 Ts), (proj1 Td), (proj1 Tc), Nat.eqb_refl. cbn [negb orb Z.eqb none_or_0 bind].
    rewrite (fcte_spaces_ok (rows2d source) (rows2d dest) (rows2d cond) l k c s n Hl Hk Hc Hs (proj1 Ts) (proj1 Td) (proj1 Tc) Hd).
    cbn [bind]. fold d. fold m. fold ts. fold X Z C Y.
    assert (HT : forall t, In t ts -> (d <= t < n)%nat).
    { intros t Ht. unfold ts in Ht. rewrite base_times_In in Ht by exact Hs. tauto. }
    assert (LT : length ts = m) by apply base_times_length.
    assert (TX : table m (l * ds) X).
    { rewrite <- LT. apply (past_table n); auto. intros t Ht. specialize (HT t Ht). unfold d in *. nia. }
    assert (TZ : table m (k * dd) Z).
    { rewrite <- LT. apply (past_table n); auto. intros t Ht. specialize (HT t Ht). unfold d in *. nia. }
    assert (TC : table m (c * dc) C).
    { rewrite <- LT. apply (past_table n); auto. intros t Ht. specialize (HT t Ht). unfold d in *. nia. }
    assert (TY : table m dd Y).
    { rewrite <- LT. apply (present_table n); auto. intros t Ht. specialize (HT t Ht). lia. }
    rewrite (kernel_te_form_ok E h w b m [l * ds; k * dd; dd; c * dc]%nat [k * dd; c * dc]%nat [l * ds; k * dd; c * dc]%nat [k * dd; dd; c * dc]%nat);
      try (unfold tabs; repeat (apply Forall2_cons; [assumption|]); apply Forall2_nil); auto.
    cbn [bind]. rewrite kte_mean by lia.
    unfold total_dim. cbn [fold_right]. rewrite !Nat.add_0_r, !Nat.add_assoc. reflexivity.
  - intros HB. pose proof (unit_pos b HV HB) as U.
    pose proof (KCMI_bounds h m (l * ds) dd (k * dd + c * dc) [X] [Y] [Z; C] Hh ltac:(lia)) as B. cbn [app] in B.
    rewrite (KH_perm_vars h m _ [X; Y; Z; C] [X; Z; Y; C]) in B by (apply perm_skip; apply perm_swap).
    rewrite (KH_perm_vars h m _ [Y; Z; C] [Z; Y; C]) in B by apply perm_swap.
    replace (l * ds + dd + (k * dd + c * dc))%nat with (l * ds + k * dd + dd + c * dc)%nat in B by lia.
    replace (dd + (k * dd + c * dc))%nat with (k * dd + dd + c * dc)%nat in B by lia.
    rewrite (Nat.add_assoc (l * ds)) in B.
    replace (- (ln (INR m) / unit_of b)) with ((- ln (INR m)) / unit_of b) by (field; lra).
    unfold Rdiv. split; (apply Rmult_le_compat_r; [left; apply Rinv_0_lt_compat; exact U|lra]).
Qed.

(** the hypotheses are met, e.g. by four samples and histories of length one *)
Example C62_example : table 4 1 (rows2d (F1 [0; 1; 0; 2])) /\ (1 < 4)%nat /\ (2 <= nrows 4 1 1)%nat /\ base_times 4 1 1 = [1; 2; 3]%nat.
Proof. repeat split; cbn; try lia; repeat constructor. Qed.

(** [prop_time] = p > 0 pairs the source with the destination p steps later *)
Theorem C62_prop_time : forall E a (xs ys : list R) l k c s p n, length xs = n -> length ys = n ->
  (1 <= s)%nat -> (1 <= p)%nat ->
  kernel_te E a (F1 xs) (F1 ys) (mkTE (NInt (Z.of_nat l)) (NInt (Z.of_nat k)) c (NInt (Z.of_nat s)) (Some (NInt (Z.of_nat p))) None) RNone =
  kernel_te E a (F1 (firstn (n - p * s) xs)) (F1 (skipn (p * s) ys))
    (mkTE (NInt (Z.of_nat l)) (NInt (Z.of_nat k)) c (NInt (Z.of_nat s)) (Some (NInt 0)) None) RNone.
Proof.
  intros E a xs ys l k c s p n Lx Ly Hs Hp. unfold kernel_te, kernel_te_local.
  cbn [a_prop a_offset a_step a_src a_dest rows2d].
  rewrite fte_init_plain by (rewrite !map_length, firstn_length, skipn_length; lia).
  unfold fte_init. cbn [none_or_0 negb bind]. rewrite !map_length, Lx, Ly, Nat.eqb_refl. cbn [negb].
  destruct (Z.eqb_spec (Z.of_nat p) 0); [lia|]. destruct (Z.ltb_spec 0 (Z.of_nat p)); [|lia].
  unfold fupto_or. destruct (Z.eqb_spec (- Z.of_nat p * Z.of_nat s) 0); [nia|].
  unfold fupto, ffrom. rewrite !map_length, Lx, Ly.
  destruct (Z.ltb_spec (- Z.of_nat p * Z.of_nat s) 0); [|nia].
  destruct (Z.ltb_spec (Z.of_nat p * Z.of_nat s) 0); [nia|].
  replace (Z.to_nat (Z.of_nat n + - Z.of_nat p * Z.of_nat s)) with (n - p * s)%nat by nia.
  replace (Z.to_nat (Z.of_nat p * Z.of_nat s)) with (p * s)%nat by nia.
  rewrite !firstn_map, !skipn_map. reflexivity.
Qed.
