(** C81: Renyi and Tsallis transfer entropy. *)
From Coq Require Import Reals Lra Lia List ZArith Arith Bool Permutation.
From Verif Require Import Res RSum Spec SpecTE SpecTEc SpecBase SpecGamma MBase PBase MTE PTE2 MPct MNorm PropsPct MEst PEst PEst2 MCont SpecKern PKern PKern2 PKern3 PKern4 PKern5 PTEc MKnn SpecKnn SpecKnn2 PKnn PKnn2 PropsKnn PropsKnn2 PropsKnn3 PKnn3 PropsKnn4 PropsKnn5 PKnn4 PropsKnn6 MFam PropsKnn7 SpecFam PFam PropsFam PropsFam2.
Import ListNotations.
Local Open Scope R_scope.

Section C81.
  Context (E : nenv) (b : base) (V : valid_base b).

  Lemma comb4 (r1 r2 r3 r4 : res R) : noraise r1 -> noraise r2 -> noraise r3 -> noraise r4 ->
    (let* h2 := r2 in let* h1 := r1 in let* hj := r3 in let* hd := r4 in Ok (h2 + h1 - hj - hd)) =
    (let* hs := (let* y := r1 in let* ys := (let* y := r2 in let* ys := Ok [] in Ok (y :: ys)) in Ok (y :: ys)) in let* hj := r3 in let* hz := r4 in Ok (sumR hs - hj - hz)).
  Proof.
    intros N1 N2 N3 N4. destruct r1, r2, r3, r4; cbn [noraise bind] in *; try contradiction; try reflexivity. f_equal. unfold sumR. cbn [sumf]. ring.
  Qed.

  (** transfer entropy is the conditional mutual information (same measure, same k and order) between the source's past and
      the destination's present, given the destination's past *)
  Theorem C81_te_is_conditional_mi : forall f n ds dd source dest l k c s rnd kn q,
    table n ds (rows2d source) -> table n dd (rows2d dest) ->
    (1 <= l)%nat -> (1 <= k)%nat -> (1 <= s)%nat ->
    let d := (Nat.max k l * s)%nat in
    let m' := nrows n d s in
    let ts := base_times n d s in
    (d < n)%nat -> (1 <= kn < m')%nat -> 0 < q -> rnd_ok rnd m' ->
    let X := rnd_rows rnd (past_pts (rows2d source) s l ts) in
    let Z := past_pts (rows2d dest) s k ts in
    let Y := present_pts (rows2d dest) ts in
    fam_te f E (ex_args kn q b) 0 source dest (te_kw l k c s) rnd
      = fam_cmi f E (ex_args kn q b) 0 (Some 0%Z) false [F2 X; F2 Y] (F2 Z).
  Proof.
    intros f n ds dd source dest l k c s rnd kn q Ts Td Hl Hk Hs d m' ts Hd Hkn Hq Hr X Z Y.
    assert (HT : forall t, In t ts -> (d <= t < n)%nat).
    { intros t Ht. unfold ts in Ht. rewrite base_times_In in Ht by exact Hs. tauto. }
    assert (LT : length ts = m') by apply base_times_length.
    assert (TX : table m' (l * ds) X).
    { apply rnd_table; [exact Hr|]. rewrite <- LT. apply (past_table n); auto. intros t Ht. specialize (HT t Ht). unfold d in *. nia. }
    assert (TZ : table m' (k * dd) Z).
    { rewrite <- LT. apply (past_table n); auto. intros t Ht. specialize (HT t Ht). unfold d in *. nia. }
    assert (TY : table m' dd Y).
    { rewrite <- LT. apply (present_table n); auto. intros t Ht. specialize (HT t Ht). lia. }
    assert (TB : forall l0, (forall v, In v l0 -> v = X \/ v = Y \/ v = Z) -> tables m' l0).
    { intros l0 H. unfold tables. apply Forall_forall. intros v Hv. destruct (H v Hv) as [->|[->| ->]]; eexists; eassumption. }
    rewrite (fam_cmi_plain E f _ m') by (cbn [length map rows2d]; try lia; apply TB; cbn; intuition).
    unfold fam_te, te_kw. cbn [a_prop a_offset a_step a_src a_dest].
    rewrite fte_init_plain by (destruct Ts, Td; congruence). cbn [bind fst snd].
    rewrite e_check_ok by (try lia; lra). cbn [bind]. rewrite no_noise. cbn [bind nth].
    rewrite (fte_spaces_ok (rows2d source) (rows2d dest) l k s n rnd Hl Hk Hs (proj1 Ts) (proj1 Td) Hd Hr). cbn [bind].
    fold d. fold m'. fold ts. fold X Z Y. unfold gen_te. cbn [map rows2d mapM app].
    fold (Hj f E (ex_args kn q b) m' [Z; Y]). fold (Hj f E (ex_args kn q b) m' [X; Z]). fold (Hj f E (ex_args kn q b) m' [X; Z; Y]). fold (Hj f E (ex_args kn q b) m' [Z]).
    rewrite (Hj_perm f E _ m' [Z; Y] [Y; Z]) by (try apply perm_swap; apply TB; cbn; intuition).
    rewrite (Hj_perm f E _ m' [X; Z; Y] [X; Y; Z]) by (try apply perm_skip, perm_swap; apply TB; cbn; intuition).
    apply comb4; apply (noraise_H f E b kn q m'); try assumption; apply jrows_length.
  Qed.

  (** conditional: given the joint past of the destination and of the condition *)
  Theorem C81_cte_is_conditional_mi : forall f n ds dd dc source dest cond l k c s kn q,
    table n ds (rows2d source) -> table n dd (rows2d dest) -> table n dc (rows2d cond) ->
    (1 <= l)%nat -> (1 <= k)%nat -> (1 <= c)%nat -> (1 <= s)%nat ->
    let d := (Nat.max (Nat.max k l) c * s)%nat in
    let m' := nrows n d s in
    let ts := base_times n d s in
    (d < n)%nat -> (1 <= kn < m')%nat -> 0 < q ->
    let X := past_pts (rows2d source) s l ts in
    let Z := past_pts (rows2d dest) s k ts in
    let C := past_pts (rows2d cond) s c ts in
    let Y := present_pts (rows2d dest) ts in
    fam_cte f E (ex_args kn q b) 0 source dest cond (te_kw l k c s)
      = fam_cmi f E (ex_args kn q b) 0 (Some 0%Z) false [F2 X; F2 Y] (F2 (joined m' [Z; C])).
  Proof.
    intros f n ds dd dc source dest cond l k c s kn q Ts Td Tc Hl Hk Hc Hs d m' ts Hd Hkn Hq X Z C Y.
    assert (HT : forall t, In t ts -> (d <= t < n)%nat).
    { intros t Ht. unfold ts in Ht. rewrite base_times_In in Ht by exact Hs. tauto. }
    assert (LT : length ts = m') by apply base_times_length.
    assert (TX : table m' (l * ds) X).
    { rewrite <- LT. apply (past_table n); auto. intros t Ht. specialize (HT t Ht). unfold d in *. nia. }
    assert (TZ : table m' (k * dd) Z).
    { rewrite <- LT. apply (past_table n); auto. intros t Ht. specialize (HT t Ht). unfold d in *. nia. }
    assert (TC : table m' (c * dc) C).
    { rewrite <- LT. apply (past_table n); auto. intros t Ht. specialize (HT t Ht). unfold d in *. nia. }
    assert (TY : table m' dd Y).
    { rewrite <- LT. apply (present_table n); auto. intros t Ht. specialize (HT t Ht). lia. }
    assert (TJ : table m' (total_dim [k * dd; c * dc]%nat) (joined m' [Z; C])).
    { apply joined_table. unfold tabs. repeat (apply Forall2_cons; [assumption|]). apply Forall2_nil. }
    assert (TB : forall l0, (forall v, In v l0 -> v = X \/ v = Y \/ v = Z \/ v = C) -> tables m' l0).
    { intros l0 H. unfold tables. apply Forall_forall. intros v Hv. destruct (H v Hv) as [->|[->|[->| ->]]]; eexists; eassumption. }
    assert (TJ1 : tables m' [rows2d (F2 (joined m' [Z; C]))]) by (unfold tables; repeat (apply Forall_cons; [eexists; exact TJ|]); apply Forall_nil).
    rewrite (fam_cmi_plain E f _ m') by (cbn [length map]; first [lia | exact TJ1 | apply TB; cbn; intuition]).
    unfold fam_cte, te_kw. cbn [a_prop a_offset a_step a_src a_dest a_cond].
    unfold fcte_init. rewrite (proj1 Ts), (proj1 Td), (proj1 Tc), Nat.eqb_refl. cbn [negb orb Z.eqb none_or_0 bind].
    rewrite e_check_ok by (try lia; lra). cbn [bind]. rewrite no_noise. cbn [bind nth].
    rewrite (fcte_spaces_ok (rows2d source) (rows2d dest) (rows2d cond) l k c s n Hl Hk Hc Hs (proj1 Ts) (proj1 Td) (proj1 Tc) Hd).
    cbn [bind]. fold d. fold m'. fold ts. fold X Z C Y. unfold gen_te. cbn [map rows2d mapM app].
    fold (Hj f E (ex_args kn q b) m' [Z; Y; C]). fold (Hj f E (ex_args kn q b) m' [X; Z; C]). fold (Hj f E (ex_args kn q b) m' [X; Z; Y; C]). fold (Hj f E (ex_args kn q b) m' [Z; C]).
    pose proof (Hj_joined f E (ex_args kn q b) m' [] [Z; C]) as J0. pose proof (Hj_joined f E (ex_args kn q b) m' [X] [Z; C]) as J1.
    pose proof (Hj_joined f E (ex_args kn q b) m' [Y] [Z; C]) as J2. pose proof (Hj_joined f E (ex_args kn q b) m' [X; Y] [Z; C]) as J3. cbn [app] in J0, J1, J2, J3.
    rewrite J0, J1, J2, J3.
    rewrite (Hj_perm f E _ m' [Z; Y; C] [Y; Z; C]) by (try apply perm_swap; apply TB; cbn; intuition).
    rewrite (Hj_perm f E _ m' [X; Z; Y; C] [X; Y; Z; C]) by (try apply perm_skip, perm_swap; apply TB; cbn; intuition).
    apply comb4; apply (noraise_H f E b kn q m'); try assumption; apply jrows_length.
  Qed.

  (** as many neighbours as embedded samples, or more: rejected *)
  Theorem C81_too_many_rejected : forall f n ds dd source dest l k c s rnd kn q,
    table n ds (rows2d source) -> table n dd (rows2d dest) ->
    (1 <= l)%nat -> (1 <= k)%nat -> (1 <= s)%nat ->
    let d := (Nat.max k l * s)%nat in
    (d < n)%nat -> (1 <= nrows n d s <= kn)%nat -> 0 < q -> rnd_ok rnd (nrows n d s) ->
    fam_te f E (ex_args kn q b) 0 source dest (te_kw l k c s) rnd = Raise ValueError.
  Proof.
    intros f n ds dd source dest l k c s rnd kn q Ts Td Hl Hk Hs d Hd Hkn Hq Hr.
    unfold fam_te, te_kw. cbn [a_prop a_offset a_step a_src a_dest].
    rewrite fte_init_plain by (destruct Ts, Td; congruence). cbn [bind fst snd].
    rewrite e_check_ok by (try lia; lra). cbn [bind]. rewrite no_noise. cbn [bind nth].
    rewrite (fte_spaces_ok (rows2d source) (rows2d dest) l k s n rnd Hl Hk Hs (proj1 Ts) (proj1 Td) Hd Hr). cbn [bind].
    unfold gen_te. rewrite fam_entropy_eq. unfold expfam at 1. cbn [make_rows rows2d bind]. rewrite e_check_ok by (try lia; lra). cbn [bind fst snd].
    unfold components. cbn [bind]. rewrite jrows_length. fold d. destruct (Z.ltb_spec (Z.of_nat (nrows n d s)) (Z.of_nat kn + 1)); [reflexivity|lia].
  Qed.
  Theorem C81_cte_too_many_rejected : forall f n ds dd dc source dest cond l k c s kn q,
    table n ds (rows2d source) -> table n dd (rows2d dest) -> table n dc (rows2d cond) ->
    (1 <= l)%nat -> (1 <= k)%nat -> (1 <= c)%nat -> (1 <= s)%nat ->
    let d := (Nat.max (Nat.max k l) c * s)%nat in
    (d < n)%nat -> (1 <= nrows n d s <= kn)%nat -> 0 < q ->
    fam_cte f E (ex_args kn q b) 0 source dest cond (te_kw l k c s) = Raise ValueError.
  Proof.
    intros f n ds dd dc source dest cond l k c s kn q Ts Td Tc Hl Hk Hc Hs d Hd Hkn Hq.
    unfold fam_cte, te_kw. cbn [a_prop a_offset a_step a_src a_dest a_cond].
    unfold fcte_init. rewrite (proj1 Ts), (proj1 Td), (proj1 Tc), Nat.eqb_refl. cbn [negb orb Z.eqb none_or_0 bind].
    rewrite e_check_ok by (try lia; lra). cbn [bind]. rewrite no_noise. cbn [bind nth].
    rewrite (fcte_spaces_ok (rows2d source) (rows2d dest) (rows2d cond) l k c s n Hl Hk Hc Hs (proj1 Ts) (proj1 Td) (proj1 Tc) Hd). cbn [bind].
    unfold gen_te. rewrite fam_entropy_eq. unfold expfam at 1. cbn [make_rows rows2d bind]. rewrite e_check_ok by (try lia; lra). cbn [bind fst snd].
    unfold components. cbn [bind]. rewrite jrows_length. fold d. destruct (Z.ltb_spec (Z.of_nat (nrows n d s)) (Z.of_nat kn + 1)); [reflexivity|lia].
  Qed.
End C81.
Example C81_example : table 4 1 (rows2d (F1 [0; 1; 0; 2])) /\ (1 < 4)%nat /\ (1 <= 2 < nrows 4 1 1)%nat /\ base_times 4 1 1 = [1; 2; 3]%nat.
Proof. repeat split; cbn; try lia; repeat constructor. Qed.

(** invalid parameters *)
Theorem C81_invalid_rejected : forall f E a lvl n source dest cond l k c s rnd,
  length (rows2d source) = n -> length (rows2d dest) = n -> length (rows2d cond) = n ->
  (e_q a = OOther \/ (exists r, e_q a = ONum r /\ r <= 0) \/ e_k a = NFloat \/ (exists k, e_k a = NInt k /\ (k <= 0)%Z)) ->
  fam_te f E a lvl source dest (te_kw l k c s) rnd = Raise ValueError /\
  fam_cte f E a lvl source dest cond (te_kw l k c s) = Raise ValueError.
Proof.
  intros f E a lvl n source dest cond l k c s rnd Ls Ld Lc H.
  assert (C : e_check a = Raise ValueError).
  { destruct H as [H|[(r & H & L)|[Hk|(k0 & Hk & L)]]]; unfold e_check; rewrite ?H, ?Hk.
    - reflexivity.
    - destruct (Rle_dec r 0); [reflexivity|contradiction].
    - destruct (e_q a); [|reflexivity]. destruct (Rle_dec _ 0); reflexivity.
    - destruct (e_q a); [|reflexivity]. destruct (Rle_dec _ 0); [reflexivity|]. destruct (Z.leb_spec k0 0); [reflexivity|lia]. }
  unfold fam_te, fam_cte, te_kw. cbn [a_prop a_offset a_step a_src a_dest a_cond].
  rewrite fte_init_plain by congruence. unfold fcte_init. rewrite Ls, Ld, Lc, Nat.eqb_refl. cbn [negb orb Z.eqb none_or_0 bind fst snd].
  rewrite C. split; reflexivity.
Qed.

(** [prop_time] = p > 0 pairs the source with the destination p steps later *)
Theorem C81_prop_time : forall f E a lvl (xs ys : list R) l k c s q n, length xs = n -> length ys = n ->
  (1 <= s)%nat -> (1 <= q)%nat ->
  fam_te f E a lvl (F1 xs) (F1 ys) (mkTE (NInt (Z.of_nat l)) (NInt (Z.of_nat k)) c (NInt (Z.of_nat s)) (Some (NInt (Z.of_nat q))) None) RNone =
  fam_te f E a lvl (F1 (firstn (n - q * s) xs)) (F1 (skipn (q * s) ys))
    (mkTE (NInt (Z.of_nat l)) (NInt (Z.of_nat k)) c (NInt (Z.of_nat s)) (Some (NInt 0)) None) RNone.
Proof.
  intros f E a lvl xs ys l k c s p n Lx Ly Hs Hp. unfold fam_te.
  cbn [a_prop a_offset a_step a_src a_dest rows2d].
  rewrite fte_init_plain by (rewrite !map_length, firstn_length, skipn_length; lia).
  unfold fte_init. cbn [none_or_0 negb bind]. rewrite !map_length, Lx, Ly, Nat.eqb_refl. cbn [negb].
  destruct (Z.eqb_spec (Z.of_nat p) 0); [lia|]. destruct (Z.ltb_spec 0 (Z.of_nat p)); [|lia].
  unfold fupto_or. destruct (Z.eqb_spec (- Z.of_nat p * Z.of_nat s) 0); [nia|].
  unfold fupto, ffrom. rewrite !map_length, Lx, Ly.
  destruct (Z.ltb_spec (- Z.of_nat p * Z.of_nat s) 0); [|nia].
  destruct (Z.ltb_spec (Z.of_nat p * Z.of_nat s) 0); [nia|].
  replace (Z.to_nat (Z.of_nat n + - Z.of_nat p * Z.of_nat s)) with (n - p * s)%nat by nia.
  replace (Z.to_nat (Z.of_nat p * Z.of_nat s)) with (p * s)%nat by nia.
  rewrite !firstn_map, !skipn_map. reflexivity.
Qed.

(** noise: sample t of the source is moved by draw t, of the destination by draw n + t, of the condition by draw 2n + t *)
Theorem C81_noise : forall f E a lvl n xs ys zs l k c s rnd, 0 < lvl -> length xs = n -> length ys = n -> length zs = n ->
  exists xs' ys' zs', length xs' = n /\ length ys' = n /\ length zs' = n /\
    (forall t, (t < n)%nat -> nth t xs' 0 = nth t xs 0 + lvl * draw E t) /\
    (forall t, (t < n)%nat -> nth t ys' 0 = nth t ys 0 + lvl * draw E (n + t)) /\
    (forall t, (t < n)%nat -> nth t zs' 0 = nth t zs 0 + lvl * draw E (2 * n + t)) /\
    fam_te f E a lvl (F1 xs) (F1 ys) (te_kw l k c s) rnd = fam_te f E a 0 (F1 xs') (F1 ys') (te_kw l k c s) rnd /\
    fam_cte f E a lvl (F1 xs) (F1 ys) (F1 zs) (te_kw l k c s) = fam_cte f E a 0 (F1 xs') (F1 ys') (F1 zs') (te_kw l k c s).
Proof.
  intros f E a lvl n xs ys zs l k c s rnd Hl Lx Ly Lz.
  exists (jitter lvl (draw E) 0 xs), (jitter lvl (draw E) n ys), (jitter lvl (draw E) (2 * n) zs). rewrite !jitter_length.
  split; [exact Lx|]. split; [exact Ly|]. split; [exact Lz|]. split; [|split; [|split; [|split]]].
  - intros t Ht. apply jitter_nth. lia.
  - intros t Ht. apply jitter_nth. lia.
  - intros t Ht. apply jitter_nth. lia.
  - unfold fam_te, te_kw. cbn [a_prop a_offset a_step a_src a_dest].
    rewrite !fte_init_plain by (cbn [rows2d]; rewrite !map_length, ?jitter_length; congruence). cbn [bind fst snd].
    rewrite no_noise. unfold with_noise. destruct (Req_EM_T lvl 0); [lra|]. destruct (Rlt_dec lvl 0); [lra|].
    cbn [rows2d noise_vars]. rewrite !noise_rows_F1, size_F1, Lx. cbn [bind nth Nat.add]. reflexivity.
  - unfold fam_cte, te_kw. cbn [a_prop a_offset a_step a_src a_dest a_cond].
    unfold fcte_init. cbn [rows2d]. rewrite !map_length, !jitter_length, Lx, Ly, Lz, Nat.eqb_refl. cbn [negb orb Z.eqb none_or_0 bind].
    rewrite no_noise. unfold with_noise. destruct (Req_EM_T lvl 0); [lra|]. destruct (Rlt_dec lvl 0); [lra|].
    cbn [rows2d noise_vars]. rewrite !noise_rows_F1, !size_F1, Lx, Ly. cbn [bind nth Nat.add]. replace (2 * n)%nat with (n + n)%nat by lia. reflexivity.
Qed.
Theorem C81_order_one_same : forall E a lvl source dest cond t rnd, e_q a = ONum 1 ->
  fam_te Renyi E a lvl source dest t rnd = fam_te Tsallis E a lvl source dest t rnd /\
  fam_cte Renyi E a lvl source dest cond t = fam_cte Tsallis E a lvl source dest cond t.
Proof.
  intros E a lvl source dest cond t rnd Hq.
  assert (X : forall i, fam_entropy Renyi E a i = fam_entropy Tsallis E a i) by (intros i; apply (proj1 (C78_order_one_same E a i Hq))).
  split; unfold fam_te, fam_cte.
  - destruct (fte_init _ _ _ _ _); cbn [bind]; try reflexivity. destruct (e_check a); cbn [bind]; try reflexivity.
    destruct (with_noise _ _ _); cbn [bind]; try reflexivity. destruct (fte_spaces _ _ _ _ _ _) as [[[[j dp] m1] m2]| |]; cbn [bind]; try reflexivity. apply gen_te_ext, X.
  - destruct (fcte_init _ _ _ _ _); cbn [bind]; try reflexivity. destruct (e_check a); cbn [bind]; try reflexivity.
    destruct (with_noise _ _ _); cbn [bind]; try reflexivity. destruct (fcte_spaces _ _ _ _ _ _ _) as [[[[j dp] m1] m2]| |]; cbn [bind]; try reflexivity. apply gen_te_ext, X.
Qed.
