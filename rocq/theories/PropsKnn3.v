(** C72 (noise, bounds), C73: transfer entropy by nearest neighbours. *)
From Coq Require Import Reals Lra Lia List ZArith Arith Bool Permutation.
From Verif Require Import Res RSum Spec SpecTE SpecTEc SpecBase SpecGamma MBase PBase MTE PTE2 MPct MNorm MEst PEst MCont SpecKern PKern PKern3 PKern4 PKern5 PTEc MKnn SpecKnn PKnn PKnn2 PropsKnn PropsKnn2.
Import ListNotations.
Local Open Scope R_scope.

Notation pcol := (fun xs : list R => map (fun x => [x]) xs).
Lemma upd_length {A} j (f : A -> A) l : length (upd j f l) = length l.
Proof. revert j. induction l as [|x l IH]; intros [|j]; cbn; try reflexivity. rewrite IH. reflexivity. Qed.
Lemma upd_nth {A} (d : A) f l : forall j t, (t < length l)%nat -> nth t (upd j f l) d = if Nat.eqb t j then f (nth t l d) else nth t l d.
Proof.
  induction l as [|x l IH]; intros [|j] [|t] H; cbn in *; try lia; try reflexivity. apply IH. lia.
Qed.
Lemma upd_pcol lvl z j pos xs : upd j (noise_row lvl z pos) (pcol xs) = pcol (upd j (fun x => x + lvl * z pos) xs).
Proof. revert j. induction xs as [|x xs IH]; intros [|j]; cbn; try reflexivity. rewrite IH. reflexivity. Qed.
Lemma noise_row_vars_ok lvl z n j : (j < n)%nat -> forall cols pos, all_len n cols ->
  exists cols', noise_row_vars lvl z j pos (map pcol cols) = (map pcol cols', (pos + length cols)%nat) /\
    length cols' = length cols /\ all_len n cols' /\
    forall i t, (i < length cols)%nat -> (t < n)%nat ->
      nth t (nth i cols' []) 0 = nth t (nth i cols []) 0 + (if Nat.eqb t j then lvl * z (pos + i)%nat else 0).
Proof.
  intros Hj. induction cols as [|xs cols IH]; intros pos L.
  - exists []. cbn. rewrite Nat.add_0_r. split; [reflexivity|]. split; [reflexivity|]. split; [constructor|]. intros; lia.
  - inversion L as [|? ? Lx L']; subst. cbn [map noise_row_vars].
    assert (L1 : length (nth j (pcol xs) []) = 1%nat).
    { rewrite (nth_indep _ [] [0]) by (rewrite map_length; exact Hj). rewrite (map_nth (fun x => [x])). reflexivity. }
    rewrite L1, upd_pcol. destruct (IH (pos + 1)%nat L') as (cols' & -> & Lc & Ac & N).
    exists (upd j (fun x => x + lvl * z pos) xs :: cols'). split.
    + cbn [map length]. f_equal. lia.
    + split; [cbn; congruence|]. split; [constructor; [apply upd_length|exact Ac]|].
      intros [|i] t Hi Ht; cbn [nth].
      * rewrite upd_nth by exact Ht. rewrite Nat.add_0_r. destruct (Nat.eqb t j); ring.
      * cbn in Hi. rewrite N by (try lia; exact Ht). rewrite <- Nat.add_assoc. reflexivity.
Qed.
Lemma jitter_nth lvl z first xs t : (t < length xs)%nat -> nth t (jitter lvl z first xs) 0 = nth t xs 0 + lvl * z (first + t)%nat.
Proof.
  revert first t. induction xs as [|x xs IH]; intros first t H; cbn in H; [lia|]. rewrite jitter_cons. destruct t as [|t]; cbn [nth].
  - rewrite Nat.add_0_r. reflexivity.
  - rewrite IH by lia. do 3 f_equal. lia.
Qed.
Lemma cmi_noise_ok lvl z n : forall r j pos cols c, (j + r <= n)%nat -> all_len n cols -> length c = n ->
  exists cols' c', cmi_noise lvl z (seq j r) pos (map pcol cols) (pcol c) = (map pcol cols', pcol c') /\
    length cols' = length cols /\ all_len n cols' /\ length c' = n /\
    (forall i t, (i < length cols)%nat -> (t < n)%nat -> nth t (nth i cols' []) 0 = nth t (nth i cols []) 0
        + (if Nat.leb j t && Nat.ltb t (j + r) then lvl * z (pos + (t - j) * (length cols + n) + i)%nat else 0)) /\
    (forall u, (u < n)%nat -> nth u c' 0 = nth u c 0 + lvl * sumf (fun s => z (pos + s * (length cols + n) + length cols + u)%nat) (seq 0 r)).
Proof.
  induction r as [|r IH]; intros j pos cols c Hr L Lc.
  - exists cols, c. cbn [seq cmi_noise]. split; [reflexivity|]. split; [reflexivity|]. split; [exact L|]. split; [exact Lc|]. split.
    + intros i t Hi Ht. destruct (Nat.leb_spec j t), (Nat.ltb_spec t (j + 0)); cbn; try ring; lia.
    + intros u Hu. cbn. ring.
  - cbn [seq cmi_noise]. destruct (noise_row_vars_ok lvl z n j ltac:(lia) cols pos L) as (c1 & -> & L1 & A1 & N1).
    rewrite noise_rows_F1, size_F1, Lc.
    destruct (IH (S j) (pos + length cols + n)%nat c1 (jitter lvl z (pos + length cols) c) ltac:(lia) A1 ltac:(rewrite jitter_length; exact Lc))
      as (c2 & d2 & -> & L2 & A2 & D2 & N2 & M2).
    exists c2, d2. split; [reflexivity|]. split; [congruence|]. split; [exact A2|]. split; [exact D2|]. split.
    + intros i t Hi Ht. rewrite N2, N1, L1 by (try lia; exact Ht). rewrite Rplus_assoc. f_equal.
      destruct (Nat.eqb_spec t j) as [->|Nt].
      * destruct (Nat.leb_spec (S j) j); [lia|]. destruct (Nat.leb_spec j j); [|lia]. destruct (Nat.ltb_spec j (j + S r)); [|lia].
        cbn [andb]. rewrite Nat.sub_diag. cbn [Nat.mul]. rewrite Nat.add_0_r. ring.
      * rewrite Rplus_0_l. destruct (Nat.leb_spec (S j) t).
        -- destruct (Nat.leb_spec j t); [|lia]. cbn [andb]. replace (S j + r)%nat with (j + S r)%nat by lia.
           destruct (Nat.ltb t (j + S r)); [|reflexivity]. do 2 f_equal. replace (t - j)%nat with (S (t - S j)) by lia. lia.
        -- destruct (Nat.leb_spec j t); [lia|]. reflexivity.
    + intros u Hu. rewrite M2, L1, jitter_nth by (try lia; exact Hu). cbn [seq sumf Nat.mul].
      rewrite <- seq_shift, sumf_map, Nat.add_0_r, Rplus_assoc, <- Rmult_plus_distr_l. do 3 f_equal.
      apply sumf_ext. intros s _. f_equal. lia.
Qed.

(** with noise, sample t of variable i is moved by one draw, as for the mutual information - but every sample of the
    condition by the sum of n draws: the loop adds noise to the whole condition once per sample *)
Theorem C72_condition_noise_refuted : forall E a lvl n cols zs, 0 < lvl -> (2 <= length cols)%nat -> all_len n cols -> length zs = n ->
  exists cols' zs', length cols' = length cols /\ all_len n cols' /\ length zs' = n /\
    (forall i t, (i < length cols)%nat -> (t < n)%nat ->
       nth t (nth i cols' []) 0 = nth t (nth i cols []) 0 + lvl * draw E (t * (length cols + n) + i)) /\
    (forall u, (u < n)%nat ->
       nth u zs' 0 = nth u zs 0 + lvl * sumf (fun s => draw E (s * (length cols + n) + length cols + u)) (seq 0 n)) /\
    ksg_cmi E (noisy a lvl) (Some 0%Z) false (map F1 cols) (F1 zs) = ksg_cmi E (noisy a 0) (Some 0%Z) false (map F1 cols') (F1 zs').
Proof.
  intros E a lvl n cols zs Hl Hc L Lz.
  destruct (cmi_noise_ok lvl (draw E) n n 0 0 cols zs ltac:(lia) L Lz) as (c' & d' & EQ & L1 & A1 & D1 & N1 & M1).
  exists c', d'. split; [exact L1|]. split; [exact A1|]. split; [exact D1|]. split; [|split].
  - intros i t Hi Ht. rewrite N1 by assumption. destruct (Nat.ltb_spec t (0 + n)); [|lia]. cbn [Nat.leb andb]. rewrite Nat.sub_0_r. reflexivity.
  - intros u Hu. rewrite M1 by exact Hu. reflexivity.
  - assert (TZ : forall l : list R, length l = n -> tables n [rows2d (F1 l)]) by (intros l H; apply (tables_F1 n [l]); repeat constructor; exact H).
    unfold ksg_cmi, ksg_cmi_local. cbn [bind].
    rewrite (fcmi_init_ok n), (fcmi_init_ok n (map F1 c')) by (rewrite ?map_length, ?L1; try assumption; try (apply TZ; assumption); apply tables_F1; assumption).
    cbn [bind fst snd noisy n_noise n_k n_id]. unfold id_ok. cbn [n_id]. rewrite no_cmi_noise.
    unfold cmi_with_noise. destruct (Req_EM_T lvl 0); [lra|]. destruct (Rlt_dec lvl 0); [lra|].
    pose proof (tables_F1 n cols L) as T. rewrite !(map_map F1 rows2d) in *.
    rewrite (hd_length n) by (try exact T; apply rows_ne; exact Hc).
    replace (existsb _ _) with false.
    + change (fun x : list R => rows2d (F1 x)) with pcol. rewrite map_map in EQ || idtac. cbn [rows2d]. rewrite EQ. reflexivity.
    + symmetry. apply not_true_iff_false. intros X. apply existsb_exists in X as (v & Hin & Hlt). apply in_map_iff in Hin as (x & <- & Hx).
      unfold all_len in L. rewrite Forall_forall in L. apply Nat.ltb_lt in Hlt. cbn in Hlt. rewrite map_length, (L x Hx) in Hlt. lia.
Qed.
Example C72_noise_example : all_len 2 [[0; 1]; [3; 7]] /\ length [5; 6] = 2%nat. Proof. split; [repeat constructor|reflexivity]. Qed.

Section C73.
  Context (E : nenv) (w : variant) (m : mink) (b : base).
  Context (Hp : norm_ok (np_of m)) (V : valid_base b).
  Notation p := (np_of m).
  Notation "'U'" := (unit_of b).

  (** bounds of the conditional mutual information of two variables *)
  Theorem C72_bounds : forall n x y cond k, big_base b ->
    tables n (map rows2d [x; y]) -> tables n [rows2d cond] -> (1 <= k < n)%nat ->
    exists v, ksg_cmi E (ksg_args w m b k) (Some 0%Z) false [x; y] cond = Ok v /\
      (psi k - corr w k - psi n) / unit_of b <= v /\
      (w = NonStrict -> v <= (psi n - psi k - 3 / INR k) / unit_of b).
  Proof.
    intros n x y cond k B T Tc Hk.
    assert (TA : tables n (map rows2d [x; y] ++ [rows2d cond])) by (unfold tables in *; apply Forall_app; auto).
    destruct (radii_exist p n (map rows2d [x; y] ++ [rows2d cond]) k Hk) as (es & He).
    eexists. split; [apply (C72_value E w m b Hp V n [x; y] cond k es); try assumption; cbn; lia|].
    set (X := rows2d x) in *. set (Y := rows2d y) in *. set (Z := rows2d cond) in *.
    assert (MX : forall t, (t < n)%nat -> (nbs w p n [X; Z] t (es t) <= nbs w p n [Z] t (es t))%nat).
    { intros t Ht. apply nbs_mono; try assumption.
      - unfold tables in *. inversion T; subst. constructor; assumption.
      - exists [X]. apply perm_swap. }
    assert (U1 : forall vs t, (t < n)%nat -> (1 <= nbs w p n vs t (es t) + 1 <= n)%nat)
      by (intros vs t Ht; pose proof (nbs_lt w n p vs t (es t) Ht); lia).
    split.
    - apply div_le; [exact V|exact B|]. apply mean_ge; [apply seq_ne; lia|]. intros t Ht. apply in_seq in Ht.
      unfold ksg_cond_value, sumR. cbn [map sumf]. fold X Y Z.
      pose proof (psi_mono (nbs w p n [X; Z] t (es t) + 1) (nbs w p n [Z] t (es t) + 1)) as P1.
      pose proof (psi_mono (nbs w p n [Y; Z] t (es t) + 1) n) as P2.
      specialize (MX t ltac:(lia)). pose proof (U1 [Y; Z] t ltac:(lia)). specialize (P1 ltac:(lia)). specialize (P2 ltac:(lia)). lra.
    - intros ->. apply div_le; [exact V|exact B|]. apply mean_le; [apply seq_ne; lia|]. intros t Ht. apply in_seq in Ht.
      unfold ksg_cond_value, sumR. cbn [map sumf corr]. fold X Y Z.
      destruct (He t ltac:(lia)) as (_ & _ & W). cbn [map] in W. fold X Y Z in W.
      pose proof (nbs_mono NonStrict p n [X; Z] ([X; Y] ++ [Z]) t (es t) Hp TA ltac:(lia)) as NX.
      pose proof (nbs_mono NonStrict p n [Y; Z] ([X; Y] ++ [Z]) t (es t) Hp TA ltac:(lia)) as NY.
      specialize (NX ltac:(exists [Y]; cbn; apply perm_skip, perm_swap)).
      specialize (NY ltac:(exists [X]; cbn; apply (Permutation_middle [Y; Z] [] X))).
      pose proof (U1 [Z] t ltac:(lia)) as U0. cbn [nbs] in *.
      pose proof (psi_mono (S k) (within p n [X; Z] t (es t) + 1) ltac:(lia)) as P1.
      pose proof (psi_mono (S k) (within p n [Y; Z] t (es t) + 1) ltac:(lia)) as P2.
      pose proof (psi_mono (within p n [Z] t (es t) + 1) n ltac:(lia)) as P3.
      rewrite psi_S in P1, P2 by lia. unfold Rdiv. lra.
  Qed.

  (** ** C73: transfer entropy is the conditional mutual information of the embedded series *)
  Definition te_kw (l k c s : nat) : te_args :=
    mkTE (NInt (Z.of_nat l)) (NInt (Z.of_nat k)) (NInt (Z.of_nat c)) (NInt (Z.of_nat s)) (Some (NInt 0)) None.

  Lemma te_value_cond n X Y Z k t e : tables n [X; Y; Z] -> (t < n)%nat ->
    te_value w m n [X; Z; Y] [Z] [X; Z] [Z; Y] k t e = ksg_cond_value w p n [X; Y] Z k t e.
  Proof.
    intros T Ht. unfold te_value, ksg_cond_value, sumR. cbn [map sumf].
    assert (TZ : tables n [Z; Y]) by (unfold tables in *; inversion T as [|? ? ? T1]; inversion T1 as [|? ? ? T2]; inversion T2; repeat constructor; assumption).
    rewrite (nbs_perm w p n [Z; Y] [Y; Z]) by (try assumption; apply perm_swap). ring.
  Qed.

  Theorem C73_te_is_conditional_mi : forall n ds dd source dest l k c s rnd kn,
    table n ds (rows2d source) -> table n dd (rows2d dest) ->
    (1 <= l)%nat -> (1 <= k)%nat -> (1 <= s)%nat ->
    let d := (Nat.max k l * s)%nat in
    let m' := nrows n d s in
    let ts := base_times n d s in
    (d < n)%nat -> (1 <= kn < m')%nat -> rnd_ok rnd m' ->
    let X := rnd_rows rnd (past_pts (rows2d source) s l ts) in
    let Z := past_pts (rows2d dest) s k ts in
    let Y := present_pts (rows2d dest) ts in
    ksg_te E (ksg_args w m b kn) source dest (te_kw l k c s) rnd
      = ksg_cmi E (ksg_args w m b kn) (Some 0%Z) false [F2 X; F2 Y] (F2 Z) /\
    forall es, radii p m' [X; Y; Z] kn es ->
      ksg_te E (ksg_args w m b kn) source dest (te_kw l k c s) rnd
        = Ok (mean (map (fun t => ksg_cond_value w p m' [X; Y] Z kn t (es t)) (seq 0 m')) / unit_of b).
  Proof.
    intros n ds dd source dest l k c s rnd kn Ts Td Hl Hk Hs d m' ts Hd Hkn Hr X Z Y.
    assert (HT : forall t, In t ts -> (d <= t < n)%nat).
    { intros t Ht. unfold ts in Ht. rewrite base_times_In in Ht by exact Hs. tauto. }
    assert (LT : length ts = m') by apply base_times_length.
    assert (TX : table m' (l * ds) X).
    { apply rnd_table; [exact Hr|]. rewrite <- LT. apply (past_table n); auto. intros t Ht. specialize (HT t Ht). unfold d in *. nia. }
    assert (TZ : table m' (k * dd) Z).
    { rewrite <- LT. apply (past_table n); auto. intros t Ht. specialize (HT t Ht). unfold d in *. nia. }
    assert (TY : table m' dd Y).
    { rewrite <- LT. apply (present_table n); auto. intros t Ht. specialize (HT t Ht). lia. }
    assert (TXY : tables m' (map rows2d [F2 X; F2 Y])) by (unfold tables; cbn; repeat (apply Forall_cons; [eexists; eassumption|]); apply Forall_nil).
    assert (TZ1 : tables m' [rows2d (F2 Z)]) by (unfold tables; cbn; repeat (apply Forall_cons; [eexists; eassumption|]); apply Forall_nil).
    assert (TXYZ : tables m' [X; Y; Z]) by (unfold tables; cbn; repeat (apply Forall_cons; [eexists; eassumption|]); apply Forall_nil).
    assert (G : forall es, radii p m' [X; Y; Z] kn es ->
      ksg_te E (ksg_args w m b kn) source dest (te_kw l k c s) rnd
        = Ok (mean (map (fun t => ksg_cond_value w p m' [X; Y] Z kn t (es t)) (seq 0 m')) / unit_of b)).
    { intros es He. unfold ksg_te, ksg_te_local, te_kw. cbn [a_prop a_offset a_step a_src a_dest].
      rewrite fte_init_plain by (destruct Ts, Td; congruence). cbn [bind fst snd]. rewrite id_ok_args. cbn [negb].
      change (n_noise (ksg_args w m b kn)) with 0. rewrite no_noise. cbn [bind nth].
      rewrite (fte_spaces_ok (rows2d source) (rows2d dest) l k s n rnd Hl Hk Hs (proj1 Ts) (proj1 Td) Hd Hr). cbn [bind].
      fold d. fold m'. fold ts. fold X Z Y. cbn [int_k ksg_args n_k bind]. fold (ksg_args w m b kn).
      assert (He' : radii p m' [X; Z; Y] kn es).
      { intros t Ht. apply (kth_perm p m' [X; Y; Z]); auto. apply perm_skip, perm_swap. }
      rewrite (ksg_te_form_ok w m b Hp V m' [X; Z; Y] [Z] [X; Z] [Z; Y] kn es) by assumption. cbn [bind].
      rewrite mean_ok by (apply map_ne, seq_ne; lia). rewrite mean_map_div. do 3 f_equal. apply map_ext_in. intros t Ht. apply in_seq in Ht.
      apply te_value_cond; [exact TXYZ|lia]. }
    split; [|exact G].
    destruct (radii_exist p m' [X; Y; Z] kn Hkn) as (es & He). rewrite (G es He).
    symmetry. apply (C72_value E w m b Hp V m' [F2 X; F2 Y] (F2 Z) kn es); try assumption. cbn; lia.
  Qed.

  Theorem C73_cte_is_conditional_mi : forall n ds dd dc source dest cond l k c s kn,
    table n ds (rows2d source) -> table n dd (rows2d dest) -> table n dc (rows2d cond) ->
    (1 <= l)%nat -> (1 <= k)%nat -> (1 <= c)%nat -> (1 <= s)%nat ->
    let d := (Nat.max (Nat.max k l) c * s)%nat in
    let m' := nrows n d s in
    let ts := base_times n d s in
    (d < n)%nat -> (1 <= kn < m')%nat ->
    let X := past_pts (rows2d source) s l ts in
    let Z := past_pts (rows2d dest) s k ts in
    let C := past_pts (rows2d cond) s c ts in
    let Y := present_pts (rows2d dest) ts in
    ksg_cte E (ksg_args w m b kn) source dest cond (te_kw l k c s)
      = ksg_cmi E (ksg_args w m b kn) (Some 0%Z) false [F2 X; F2 Y] (F2 (joined m' [Z; C])).
  Proof.
    intros n ds dd dc source dest cond l k c s kn Ts Td Tc Hl Hk Hc Hs d m' ts Hd Hkn X Z C Y.
    assert (HT : forall t, In t ts -> (d <= t < n)%nat).
    { intros t Ht. unfold ts in Ht. rewrite base_times_In in Ht by exact Hs. tauto. }
    assert (LT : length ts = m') by apply base_times_length.
    assert (TX : table m' (l * ds) X).
    { rewrite <- LT. apply (past_table n); auto. intros t Ht. specialize (HT t Ht). unfold d in *. nia. }
    assert (TZ : table m' (k * dd) Z).
    { rewrite <- LT. apply (past_table n); auto. intros t Ht. specialize (HT t Ht). unfold d in *. nia. }
    assert (TC : table m' (c * dc) C).
    { rewrite <- LT. apply (past_table n); auto. intros t Ht. specialize (HT t Ht). unfold d in *. nia. }
    assert (TY : table m' dd Y).
    { rewrite <- LT. apply (present_table n); auto. intros t Ht. specialize (HT t Ht). lia. }
    assert (TJ : table m' (total_dim [k * dd; c * dc]%nat) (joined m' [Z; C])).
    { apply joined_table. unfold tabs. repeat (apply Forall2_cons; [assumption|]). apply Forall2_nil. }
    assert (TXY : tables m' (map rows2d [F2 X; F2 Y])) by (unfold tables; cbn; repeat (apply Forall_cons; [eexists; eassumption|]); apply Forall_nil).
    assert (TJ1 : tables m' [rows2d (F2 (joined m' [Z; C]))]) by (unfold tables; repeat (apply Forall_cons; [eexists; exact TJ|]); apply Forall_nil).
    assert (TA : tables m' [X; Y; Z; C]) by (unfold tables; cbn; repeat (apply Forall_cons; [eexists; eassumption|]); apply Forall_nil).
    destruct (radii_exist p m' (map rows2d [F2 X; F2 Y] ++ [rows2d (F2 (joined m' [Z; C]))]) kn Hkn) as (es & He).
    rewrite (C72_value E w m b Hp V m' [F2 X; F2 Y] (F2 (joined m' [Z; C])) kn es) by (try assumption; cbn; lia).
    cbn [map rows2d] in He |- *.
    unfold ksg_cte, ksg_cte_local, te_kw. cbn [a_prop a_offset a_step a_src a_dest a_cond].
    unfold fcte_init. rewrite (proj1 Ts), (proj1 Td), (proj1 Tc), Nat.eqb_refl. cbn [negb orb Z.eqb none_or_0 bind].
    rewrite id_ok_args. cbn [negb]. change (n_noise (ksg_args w m b kn)) with 0. rewrite no_noise. cbn [bind nth].
    rewrite (fcte_spaces_ok (rows2d source) (rows2d dest) (rows2d cond) l k c s n Hl Hk Hc Hs (proj1 Ts) (proj1 Td) (proj1 Tc) Hd).
    cbn [bind]. fold d. fold m'. fold ts. fold X Z C Y. cbn [int_k ksg_args n_k bind]. fold (ksg_args w m b kn).
    assert (He' : radii p m' [X; Z; Y; C] kn es).
    { intros t Ht. apply (kth_perm p m' [X; Y; Z; C]); auto; [apply perm_skip, perm_swap|].
      apply (joined_kth p m' [X; Y] [Z; C] kn t (es t) Ht). apply He. exact Ht. }
    rewrite (ksg_te_form_ok w m b Hp V m' [X; Z; Y; C] [Z; C] [X; Z; C] [Z; Y; C] kn es) by assumption. cbn [bind].
    rewrite mean_ok by (apply map_ne, seq_ne; lia). rewrite mean_map_div. do 3 f_equal. apply map_ext_in. intros t Ht. apply in_seq in Ht.
    unfold te_value, ksg_cond_value, sumR. cbn [map sumf].
    rewrite (joined_nbs w p m' [] [Z; C]) by lia. cbn [app].
    pose proof (joined_nbs w p m' [X] [Z; C] t (es t) ltac:(lia)) as JX. cbn [app] in JX. rewrite JX.
    pose proof (joined_nbs w p m' [Y] [Z; C] t (es t) ltac:(lia)) as JY. cbn [app] in JY. rewrite JY.
    assert (TZY : tables m' [Z; Y; C]) by (unfold tables; cbn; repeat (apply Forall_cons; [eexists; eassumption|]); apply Forall_nil).
    rewrite (nbs_perm w p m' [Z; Y; C] [Y; Z; C] t (es t) Hp TZY ltac:(lia) ltac:(apply perm_swap)). ring.
  Qed.
End C73.
Example C73_example : table 4 1 (rows2d (F1 [0; 1; 0; 2])) /\ (1 < 4)%nat /\ (1 <= 2 < nrows 4 1 1)%nat /\ base_times 4 1 1 = [1; 2; 3]%nat.
Proof. repeat split; cbn; try lia; repeat constructor. Qed.

(** [prop_time] = p > 0 pairs the source with the destination p steps later *)
Theorem C73_prop_time : forall E a (xs ys : list R) l k c s q n, length xs = n -> length ys = n ->
  (1 <= s)%nat -> (1 <= q)%nat ->
  ksg_te E a (F1 xs) (F1 ys) (mkTE (NInt (Z.of_nat l)) (NInt (Z.of_nat k)) c (NInt (Z.of_nat s)) (Some (NInt (Z.of_nat q))) None) RNone =
  ksg_te E a (F1 (firstn (n - q * s) xs)) (F1 (skipn (q * s) ys))
    (mkTE (NInt (Z.of_nat l)) (NInt (Z.of_nat k)) c (NInt (Z.of_nat s)) (Some (NInt 0)) None) RNone.
Proof.
  intros E a xs ys l k c s p n Lx Ly Hs Hp. unfold ksg_te, ksg_te_local.
  cbn [a_prop a_offset a_step a_src a_dest rows2d].
  rewrite fte_init_plain by (rewrite !map_length, firstn_length, skipn_length; lia).
  unfold fte_init. cbn [none_or_0 negb bind]. rewrite !map_length, Lx, Ly, Nat.eqb_refl. cbn [negb].
  destruct (Z.eqb_spec (Z.of_nat p) 0); [lia|]. destruct (Z.ltb_spec 0 (Z.of_nat p)); [|lia].
  unfold fupto_or. destruct (Z.eqb_spec (- Z.of_nat p * Z.of_nat s) 0); [nia|].
  unfold fupto, ffrom. rewrite !map_length, Lx, Ly.
  destruct (Z.ltb_spec (- Z.of_nat p * Z.of_nat s) 0); [|nia].
  destruct (Z.ltb_spec (Z.of_nat p * Z.of_nat s) 0); [nia|].
  replace (Z.to_nat (Z.of_nat n + - Z.of_nat p * Z.of_nat s)) with (n - p * s)%nat by nia.
  replace (Z.to_nat (Z.of_nat p * Z.of_nat s)) with (p * s)%nat by nia.
  rewrite !firstn_map, !skipn_map. reflexivity.
Qed.

(** k at least the number of embedded samples is not rejected; the result ignores the data *)
Theorem C73_too_many_neighbours_refuted : forall E w m b n ds dd source dest l k c s rnd kn,
  norm_ok (np_of m) -> valid_base b ->
  table n ds (rows2d source) -> table n dd (rows2d dest) ->
  (1 <= l)%nat -> (1 <= k)%nat -> (1 <= s)%nat ->
  let d := (Nat.max k l * s)%nat in
  (d < n)%nat -> (1 <= nrows n d s <= kn)%nat -> rnd_ok rnd (nrows n d s) ->
  ksg_te E (ksg_args w m b kn) source dest (te_kw l k c s) rnd = Ok ((psi kn - corr w kn - psi (nrows n d s)) / unit_of b).
Proof.
  intros E w m b n ds dd source dest l k c s rnd kn Hp V Ts Td Hl Hk Hs d Hd Hkn Hr.
  unfold ksg_te, ksg_te_local, te_kw. cbn [a_prop a_offset a_step a_src a_dest].
  rewrite fte_init_plain by (destruct Ts, Td; congruence). cbn [bind fst snd]. rewrite id_ok_args. cbn [negb].
  change (n_noise (ksg_args w m b kn)) with 0. rewrite no_noise. cbn [bind nth].
  rewrite (fte_spaces_ok (rows2d source) (rows2d dest) l k s n rnd Hl Hk Hs (proj1 Ts) (proj1 Td) Hd Hr). cbn [bind].
  fold d. cbn [int_k ksg_args n_k bind]. fold (ksg_args w m b kn).
  rewrite ksg_te_form_inf by (try assumption; lia). cbn [bind].
  rewrite mean_ok by (apply map_ne, seq_ne; lia). f_equal. rewrite mean_map, sumf_const, seq_length. field.
  split; [|apply not_0_INR; lia].
  destruct b as [|r]; cbn in *; [lra|]. intros C. destruct V as [V1 V2]. apply V2. apply ln_inv; [exact V1|lra|rewrite ln_1; exact C].
Qed.

(** noise: sample t of the destination is moved by draw t, sample t of the source by draw n + t *)
Theorem C73_noise : forall E a lvl n xs ys l k c s rnd, 0 < lvl -> length xs = n -> length ys = n ->
  exists xs' ys', length xs' = n /\ length ys' = n /\
    (forall t, (t < n)%nat -> nth t ys' 0 = nth t ys 0 + lvl * draw E t) /\
    (forall t, (t < n)%nat -> nth t xs' 0 = nth t xs 0 + lvl * draw E (n + t)) /\
    ksg_te E (noisy a lvl) (F1 xs) (F1 ys) (te_kw l k c s) rnd = ksg_te E (noisy a 0) (F1 xs') (F1 ys') (te_kw l k c s) rnd.
Proof.
  intros E a lvl n xs ys l k c s rnd Hl Lx Ly.
  exists (jitter lvl (draw E) n xs), (jitter lvl (draw E) 0 ys). rewrite !jitter_length.
  split; [exact Lx|]. split; [exact Ly|]. split; [|split].
  - intros t Ht. apply jitter_nth. lia.
  - intros t Ht. apply jitter_nth. lia.
  - unfold ksg_te, ksg_te_local, te_kw. cbn [a_prop a_offset a_step a_src a_dest].
    rewrite !fte_init_plain by (cbn [rows2d]; rewrite !map_length, ?jitter_length; congruence). cbn [bind fst snd noisy n_noise n_k n_id].
    unfold id_ok. cbn [n_id]. rewrite no_noise. unfold with_noise. destruct (Req_EM_T lvl 0); [lra|]. destruct (Rlt_dec lvl 0); [lra|].
    cbn [rows2d noise_vars]. rewrite !noise_rows_F1, size_F1, Ly. cbn [bind nth Nat.add]. reflexivity.
Qed.
