(** C70-C73: parameters, offset and noise of the KSG mutual information; conditional mutual information. *)
From Coq Require Import Reals Lra Lia List ZArith Arith Bool Permutation.
From Verif Require Import Res RSum Spec SpecBase SpecGamma MBase PBase MTE MPct MNorm MEst PEst MCont SpecKern PKern PKern3 PKern4 MKnn SpecKnn PKnn PKnn2 PropsKnn.
Import ListNotations.
Local Open Scope R_scope.

(** ** C70: parameters *)
(** a number of neighbours that no sample has is not rejected: the result then ignores the data *)
Theorem C70_too_many_neighbours_refuted : forall E w m b n vars k,
  norm_ok (np_of m) -> valid_base b -> (2 <= length vars)%nat -> tables n (map rows2d vars) -> (1 <= n <= k)%nat ->
  ksg_mi E (ksg_args w m b k) (Some 0%Z) false vars = Ok ((psi k - corr w k - psi n) / unit_of b).
Proof.
  intros E w m b n vars k Hp V Hv T Hk. unfold ksg_mi. rewrite (ksg_mi_local_form E w m b n) by assumption.
  rewrite (ksg_mi_form_inf w m b Hp V n) by (try assumption; try lia; apply rows_ne; exact Hv). cbn [bind].
  rewrite mean_ok by (apply map_ne, seq_ne; lia). f_equal. rewrite mean_map, sumf_const, seq_length. field.
  split; [|apply not_0_INR; lia].
  destruct b as [|r]; cbn in *; [lra|]. intros C. destruct V as [V1 V2]. apply V2. apply ln_inv; [exact V1|lra|rewrite ln_1; exact C].
Qed.
Example C70_example : tables 2 (map rows2d [F1 [0; 1]; F1 [3; 7]]) /\ tables 2 (map rows2d [F1 [0; 1]; F1 [7; 3]]) /\ (1 <= 2 <= 2)%nat.
Proof. split; [apply (tables_F1 2 [[0; 1]; [3; 7]])|split; [apply (tables_F1 2 [[0; 1]; [7; 3]])|lia]]; repeat constructor. Qed.

(** an invalid variant, Minkowski parameter, noise level or non-positive number of neighbours is an error *)
Theorem C70_invalid_rejected : forall E (a : nargs) n vars,
  (2 <= length vars)%nat -> tables n (map rows2d vars) ->
  (n_id a <> 1 -> n_id a <> 2 -> ksg_mi E a (Some 0%Z) false vars = Raise ValueError)%Z /\
  (id_ok a = true -> n_noise a < 0 -> ksg_mi E a (Some 0%Z) false vars = Raise ValueError) /\
  (forall k p, id_ok a = true -> n_noise a = 0 -> n_k a = NInt k -> n_p a = MP p -> p < 1 ->
     ksg_mi E a (Some 0%Z) false vars = Raise ValueError) /\
  (forall k, id_ok a = true -> n_noise a = 0 -> n_k a = NInt k -> (k < 0)%Z -> ksg_mi E a (Some 0%Z) false vars = Raise ValueError) /\
  (id_ok a = true -> n_noise a = 0 -> mink_ok (n_p a) = true -> n_k a = NInt 0 -> ksg_mi E a (Some 0%Z) false vars = Raise IndexError).
Proof.
  intros E a n vars Hv T. unfold ksg_mi, ksg_mi_local. rewrite (fmi_init_ok n) by assumption. cbn [bind].
  assert (Hc : cstack (map rows2d vars) = Ok (jrows n (map rows2d vars))) by (apply cstack_ok; [apply rows_ne; exact Hv|exact T]).
  split; [|split; [|split; [|split]]].
  - intros H1 H2. unfold id_ok. destruct (Z.eqb_spec (n_id a) 1); [contradiction|]. destruct (Z.eqb_spec (n_id a) 2); [contradiction|]. reflexivity.
  - intros -> H. cbn [negb]. unfold with_noise. destruct (Req_EM_T _ 0); [lra|]. destruct (Rlt_dec _ 0); [reflexivity|lra].
  - intros k q -> H0 Hk Hm Hq. cbn [negb]. rewrite H0, no_noise. unfold int_k. rewrite Hk. cbn [bind]. unfold ksg_mi_form. rewrite Hc. cbn [bind].
    unfold kth_query, mink_ok. rewrite Hm. destruct (Rle_dec 1 q); [lra|]. reflexivity.
  - intros k -> H0 Hk Hk0. cbn [negb]. rewrite H0, no_noise. unfold int_k. rewrite Hk. cbn [bind]. unfold ksg_mi_form. rewrite Hc. cbn [bind].
    unfold kth_query. destruct (mink_ok (n_p a)); [|reflexivity]. cbn [negb]. destruct (Z.ltb_spec (k + 1) 1); [reflexivity|lia].
  - intros -> H0 Hm Hk. cbn [negb]. rewrite H0, no_noise. unfold int_k. rewrite Hk. cbn [bind]. unfold ksg_mi_form. rewrite Hc. cbn [bind].
    unfold kth_query. rewrite Hm. reflexivity.
Qed.

(** ** C71: offset and noise *)
(** a positive offset pairs sample t of the first with sample t + o of the second series, a negative one vice versa *)
Theorem C71_offset : forall E a (xs ys : list R) o, length xs = length ys ->
  ksg_mi E a (Some (Z.of_nat o)) false [F1 xs; F1 ys] =
    ksg_mi E a (Some 0%Z) false [F1 (firstn (length xs - o) xs); F1 (skipn o ys)] /\
  ksg_mi E a (Some (- Z.of_nat o)%Z) false [F1 xs; F1 ys] =
    ksg_mi E a (Some 0%Z) false [F1 (skipn o xs); F1 (firstn (length ys - o) ys)].
Proof.
  intros E a xs ys o L.
  assert (G0 : forall us vs : list R, length us = length vs -> fmi_init (Some 0%Z) false [F1 us; F1 vs] = Ok (map rows2d [F1 us; F1 vs])).
  { intros us vs H. unfold fmi_init. cbn [length Nat.ltb Nat.leb andb forallb hd flen]. rewrite H, Nat.eqb_refl. reflexivity. }
  split; unfold ksg_mi, ksg_mi_local.
  - rewrite (G0 (firstn (length xs - o) xs)) by (rewrite firstn_length, skipn_length; lia).
    unfold fmi_init. cbn [length Nat.ltb Nat.leb andb forallb hd flen]. rewrite L, Nat.eqb_refl. cbn [andb negb].
    destruct (Z.ltb_spec 0 (Z.of_nat o)).
    + cbn [bind map fdrop_last fskip nth]. rewrite Nat2Z.id, L. reflexivity.
    + destruct (Z.ltb_spec (Z.of_nat o) 0); [lia|]. assert (o = 0)%nat as -> by lia. cbn [bind skipn]. rewrite Nat.sub_0_r.
      rewrite <- L at 1. rewrite firstn_all. reflexivity.
  - rewrite (G0 (skipn o xs)) by (rewrite firstn_length, skipn_length; lia).
    unfold fmi_init. cbn [length Nat.ltb Nat.leb andb forallb hd flen]. rewrite L, Nat.eqb_refl. cbn [andb negb].
    destruct (Z.ltb_spec 0 (- Z.of_nat o)); [lia|]. destruct (Z.ltb_spec (- Z.of_nat o) 0).
    + cbn [bind map fdrop_last fskip nth]. rewrite Z.opp_involutive, Nat2Z.id. reflexivity.
    + assert (o = 0)%nat as -> by lia. cbn [bind skipn]. rewrite Nat.sub_0_r, firstn_all. reflexivity.
Qed.

(** noise of level [lvl] added to a series: sample t receives the draw numbered [first + t] *)
Definition jitter (lvl : R) (z : nat -> R) (first : nat) (xs : list R) : list R :=
  map (fun tx => snd tx + lvl * z (first + fst tx)%nat) (combine (seq 0 (length xs)) xs).
Lemma jitter_cons lvl z first x xs : jitter lvl z first (x :: xs) = (x + lvl * z first) :: jitter lvl z (S first) xs.
Proof.
  unfold jitter. cbn [length seq combine map fst snd]. rewrite Nat.add_0_r. f_equal.
  rewrite <- seq_shift.
  assert (C : forall (l : list nat) (l' : list R), combine (map S l) l' = map (fun tx => (S (fst tx), snd tx)) (combine l l')).
  { induction l as [|a l IH]; intros [|c l']; cbn; try reflexivity. rewrite IH. reflexivity. }
  rewrite C, map_map. apply map_ext. intros [t y]. cbn [fst snd]. rewrite Nat.add_succ_r. reflexivity.
Qed.
Lemma jitter_length lvl z first xs : length (jitter lvl z first xs) = length xs.
Proof. unfold jitter. rewrite map_length, combine_length, seq_length. lia. Qed.
Lemma noise_rows_F1 lvl z pos xs : noise_rows lvl z pos (map (fun x => [x]) xs) = map (fun x => [x]) (jitter lvl z pos xs).
Proof.
  revert pos. induction xs as [|x xs IH]; intros pos; [reflexivity|]. rewrite jitter_cons. cbn [map noise_rows noise_row length].
  rewrite Nat.add_1_r, IH. reflexivity.
Qed.
Lemma size_F1 (xs : list R) : size (map (fun x => [x]) xs) = length xs.
Proof. unfold size. induction xs as [|x xs IH]; cbn in *; [reflexivity|]. rewrite IH. reflexivity. Qed.
(** all series, one after the other *)
Fixpoint jitter_all (lvl : R) (z : nat -> R) (first : nat) (cols : list (list R)) : list (list R) :=
  match cols with [] => [] | xs :: cols => jitter lvl z first xs :: jitter_all lvl z (first + length xs) cols end.
Lemma noise_vars_F1 lvl z pos cols : noise_vars lvl z pos (map rows2d (map F1 cols)) = map rows2d (map F1 (jitter_all lvl z pos cols)).
Proof.
  revert pos. induction cols as [|xs cols IH]; intros pos; [reflexivity|]. cbn [map rows2d noise_vars jitter_all].
  rewrite noise_rows_F1, size_F1, IH. reflexivity.
Qed.
Lemma jitter_all_len n lvl z first cols : all_len n cols -> all_len n (jitter_all lvl z first cols).
Proof. intros L. revert first. induction L as [|xs cols H L IH]; intros first; cbn; constructor; [rewrite jitter_length; exact H|apply IH]. Qed.
Lemma jitter_all_length lvl z first cols : length (jitter_all lvl z first cols) = length cols.
Proof. revert first. induction cols; intros; cbn; [reflexivity|]. rewrite IHcols. reflexivity. Qed.
Lemma jitter_all_nth n lvl z cols : all_len n cols -> forall first i, (i < length cols)%nat ->
  nth i (jitter_all lvl z first cols) [] = jitter lvl z (first + i * n) (nth i cols []).
Proof.
  induction 1 as [|xs cols H L IH]; intros first i Hi; cbn in Hi; [lia|]. destruct i as [|i]; cbn [jitter_all nth].
  - f_equal. lia.
  - rewrite IH by lia. f_equal. rewrite H. lia.
Qed.

Definition noisy (a : nargs) (lvl : R) : nargs := mkNargs (n_k a) (n_id a) lvl (n_p a) (n_base a).
(** with noise, the result is the noise-free result of the jittered series: sample t of variable i is moved by the level
    times draw number i n + t, and nothing else changes *)
Theorem C71_noise : forall E a lvl n cols, 0 < lvl -> (2 <= length cols)%nat -> all_len n cols ->
  exists cols', length cols' = length cols /\
    (forall i, (i < length cols)%nat -> length (nth i cols' []) = n /\
       forall t, (t < n)%nat -> nth t (nth i cols' []) 0 = nth t (nth i cols []) 0 + lvl * draw E (i * n + t)) /\
    ksg_mi E (noisy a lvl) (Some 0%Z) false (map F1 cols) = ksg_mi E (noisy a 0) (Some 0%Z) false (map F1 cols').
Proof.
  intros E a lvl n cols Hl Hc L. exists (jitter_all lvl (draw E) 0 cols). split; [apply jitter_all_length|]. split.
  - intros i Hi. rewrite (jitter_all_nth n) by assumption. cbn [Nat.add].
    assert (Ln : length (nth i cols []) = n) by (unfold all_len in L; rewrite Forall_forall in L; apply L, nth_In; exact Hi).
    split; [rewrite jitter_length; exact Ln|]. intros t Ht. unfold jitter.
    rewrite (nth_indep _ 0 ((fun tx => snd tx + lvl * draw E (i * n + fst tx)%nat) (0%nat, 0))) by (rewrite map_length, combine_length, seq_length; lia).
    rewrite (map_nth (fun tx => snd tx + lvl * draw E (i * n + fst tx)%nat)), combine_nth by (rewrite seq_length; lia). cbn [fst snd].
    rewrite seq_nth by lia. cbn [Nat.add]. reflexivity.
  - unfold ksg_mi, ksg_mi_local.
    rewrite !(fmi_init_ok n) by (rewrite ?map_length, ?jitter_all_length; try assumption; apply tables_F1; try assumption; apply jitter_all_len; assumption).
    cbn [bind noisy n_noise n_k n_id]. unfold with_noise at 1. destruct (Req_EM_T lvl 0); [lra|]. destruct (Rlt_dec lvl 0); [lra|].
    rewrite no_noise. cbn [bind]. rewrite noise_vars_F1. reflexivity.
Qed.
(** without noise the random generator has no influence *)
Theorem C71_no_noise_deterministic : forall E E' a offset norm vars, n_noise a = 0 ->
  ksg_mi E a offset norm vars = ksg_mi E' a offset norm vars.
Proof.
  intros E E' a offset nm vars H. unfold ksg_mi, ksg_mi_local. destruct (fmi_init offset nm vars); cbn [bind]; try reflexivity.
  rewrite H, !no_noise. reflexivity.
Qed.
Example C71_example : all_len 2 [[0; 1]; [3; 7]]. Proof. repeat constructor. Qed.

(** ** C72: conditional mutual information *)
Lemma fcmi_init_ok n vars cond : (2 <= length vars)%nat -> tables n (map rows2d vars) -> tables n [rows2d cond] ->
  fcmi_init false vars cond = Ok (map rows2d vars, rows2d cond).
Proof.
  intros Hv T Tc. unfold fcmi_init. destruct vars as [|x [|y vars]]; cbn in Hv; try lia.
  pose proof (tables_map n (x :: y :: vars) T) as L. pose proof (tables_map n [cond] Tc) as Lc.
  inversion L as [|? ? L1 L']; subst. inversion L' as [|? ? L2 _]; subst. inversion Lc as [|? ? L3 _]; subst.
  rewrite L2, L3, !Nat.eqb_refl. reflexivity.
Qed.
Lemma no_cmi_noise z data c : cmi_with_noise 0 z data c = Ok (data, c).
Proof. unfold cmi_with_noise. destruct (Req_EM_T 0 0); [reflexivity|congruence]. Qed.

Section C72.
  Context (E : nenv) (w : variant) (m : mink) (b : base).
  Context (Hp : norm_ok (np_of m)) (V : valid_base b).
  Notation p := (np_of m).

  Lemma ksg_cmi_local_form n vars cond k : (2 <= length vars)%nat -> tables n (map rows2d vars) -> tables n [rows2d cond] ->
    ksg_cmi_local E (ksg_args w m b k) (Some 0%Z) false vars cond
      = ksg_cmi_form (ksg_args w m b k) (Z.of_nat k) (map rows2d vars) (rows2d cond).
  Proof.
    intros Hv T Tc. unfold ksg_cmi_local. cbn [bind]. rewrite (fcmi_init_ok n) by assumption. cbn [bind fst snd]. rewrite id_ok_args. cbn [negb].
    change (n_noise (ksg_args w m b k)) with 0. rewrite no_cmi_noise. reflexivity.
  Qed.
  Theorem C72_local_values : forall n vars cond k es,
    (2 <= length vars)%nat -> tables n (map rows2d vars) -> tables n [rows2d cond] -> (1 <= k < n)%nat ->
    radii p n (map rows2d vars ++ [rows2d cond]) k es ->
    ksg_cmi_local E (ksg_args w m b k) (Some 0%Z) false vars cond
      = Ok (map (fun t => ksg_cond_value w p n (map rows2d vars) (rows2d cond) k t (es t) / unit_of b) (seq 0 n)).
  Proof.
    intros n vars cond k es Hv T Tc Hk He. rewrite (ksg_cmi_local_form n) by assumption. apply ksg_cmi_form_ok; assumption.
  Qed.
  Theorem C72_value : forall n vars cond k es,
    (2 <= length vars)%nat -> tables n (map rows2d vars) -> tables n [rows2d cond] -> (1 <= k < n)%nat ->
    radii p n (map rows2d vars ++ [rows2d cond]) k es ->
    ksg_cmi E (ksg_args w m b k) (Some 0%Z) false vars cond
      = Ok (mean (map (fun t => ksg_cond_value w p n (map rows2d vars) (rows2d cond) k t (es t)) (seq 0 n)) / unit_of b).
  Proof.
    intros n vars cond k es Hv T Tc Hk He. unfold ksg_cmi. rewrite (C72_local_values n vars cond k es) by assumption. cbn [bind].
    rewrite mean_ok by (apply map_ne, seq_ne; lia). rewrite mean_map_div. reflexivity.
  Qed.
  (** the order of the variables does not matter *)
  Theorem C72_symmetric : forall n vars vars' cond k,
    (2 <= length vars)%nat -> tables n (map rows2d vars) -> tables n [rows2d cond] -> (1 <= k < n)%nat -> Permutation vars vars' ->
    ksg_cmi E (ksg_args w m b k) (Some 0%Z) false vars' cond = ksg_cmi E (ksg_args w m b k) (Some 0%Z) false vars cond.
  Proof.
    intros n vars vars' cond k Hv T Tc Hk P.
    assert (PR : Permutation (map rows2d vars) (map rows2d vars')) by (apply Permutation_map; exact P).
    assert (T' : tables n (map rows2d vars')) by (unfold tables in *; apply (Permutation_Forall PR); exact T).
    assert (Hv' : (2 <= length vars')%nat) by (rewrite <- (Permutation_length P); exact Hv).
    assert (TA : tables n (map rows2d vars ++ [rows2d cond])) by (unfold tables in *; apply Forall_app; auto).
    destruct (radii_exist p n (map rows2d vars ++ [rows2d cond]) k Hk) as (es & He).
    assert (He' : radii p n (map rows2d vars' ++ [rows2d cond]) k es).
    { intros t Ht. apply (kth_perm p n (map rows2d vars ++ [rows2d cond])); auto. apply Permutation_app_tail. exact PR. }
    rewrite (C72_value n vars cond k es), (C72_value n vars' cond k es) by assumption. do 3 f_equal. apply map_ext. intros t.
    unfold ksg_cond_value. f_equal.
    unfold sumR. apply sumf_perm. apply Permutation_map, Permutation_sym. exact PR.
  Qed.

  Lemma norm_app_zero v : norm p (v ++ [0]) = norm p v.
  Proof.
    clear - Hp. apply Rle_antisym.
    - destruct p as [q|]; cbn [norm].
      + cbn in Hp. fold (psum q v) (psum q (v ++ [0])). rewrite psum_app. right. f_equal. unfold psum, sumR. cbn. rewrite Rabs_R0, powr_0. ring.
      + induction v as [|a v IH]; cbn; [rewrite Rabs_R0; unfold Rmax; destruct (Rle_dec 0 0); lra|]. apply Rle_max_compat_l. exact IH.
    - rewrite <- (norm_map_abs p v), <- (norm_map_abs p (v ++ [0])), map_app. apply norm_incl; [exact Hp| |].
      + intros a Ha. apply in_map_iff in Ha as (x & <- & _). apply Rabs_pos.
      + eexists. apply Permutation_refl.
  Qed.
  Lemma jdist_const n vars z t u : tables n vars -> tables n [z] -> (t < n)%nat -> (u < n)%nat -> dst p (nth t z []) (nth u z []) = 0 ->
    jdist p (vars ++ [z]) t u = jdist p vars t u.
  Proof.
    intros T Tz Ht Hu D. assert (TA : tables n (vars ++ [z])) by (unfold tables in *; apply Forall_app; auto).
    rewrite !(jdist_norm p n) by assumption. rewrite map_app. cbn [map]. rewrite D. apply norm_app_zero.
  Qed.

  (** with a constant condition, the conditional mutual information of two variables is their mutual information
      (strict variant: if no two samples coincide).  With m variables it is smaller by (m - 2) psi(N). *)
  Lemma constant_condition n vars cond k es :
    (2 <= length vars)%nat -> tables n (map rows2d vars) -> tables n [rows2d cond] -> (1 <= k < n)%nat ->
    (forall t, (t < n)%nat -> nth t (rows2d cond) [] = nth 0 (rows2d cond) []) ->
    radii p n (map rows2d vars) k es -> w = NonStrict \/ (forall t, (t < n)%nat -> 0 < es t) ->
    exists mi, ksg_mi E (ksg_args w m b k) (Some 0%Z) false vars = Ok mi /\
      ksg_cmi E (ksg_args w m b k) (Some 0%Z) false vars cond = Ok (mi - (INR (length vars) - 2) * psi n / unit_of b).
  Proof.
    intros Hv T Tc Hk Hc He Hw. eexists. split; [apply (C67_value E w m b Hp V n vars k es); assumption|].
    assert (D : forall t u, (t < n)%nat -> (u < n)%nat -> dst p (nth t (rows2d cond) []) (nth u (rows2d cond) []) = 0)
      by (intros t u Ht Hu; rewrite (Hc t), (Hc u) by assumption; apply dst_self).
    assert (K : forall vs t e, tables n vs -> (t < n)%nat -> nbs w p n (vs ++ [rows2d cond]) t e = nbs w p n vs t e).
    { intros vs t e Tv Ht. rewrite <- (Rmult_1_l e) at 1. apply (nbs_ext w p p n _ _ t t (fun u => u)); [lra|apply map_id_perm|].
      intros u Hu. apply others_in in Hu as [Hu _]. rewrite (jdist_const n) by auto. ring. }
    assert (He' : radii p n (map rows2d vars ++ [rows2d cond]) k es).
    { intros t Ht. rewrite <- (Rmult_1_l (es t)). apply (kth_ext p p n (map rows2d vars) _ k t t (fun u => u)); [lra|apply map_id_perm| |apply He; exact Ht].
      intros u Hu. apply others_in in Hu as [Hu _]. rewrite (jdist_const n) by auto. ring. }
    rewrite (C72_value n vars cond k es) by assumption. f_equal.
    assert (G : forall t, In t (seq 0 n) -> ksg_cond_value w p n (map rows2d vars) (rows2d cond) k t (es t)
       = ksg_value w p n (map rows2d vars) k t (es t) - (INR (length vars) - 2) * psi n).
    { intros t Ht. apply in_seq in Ht. unfold ksg_cond_value, ksg_value. rewrite map_length.
      assert (Z : (nbs w p n [rows2d cond] t (es t) + 1 = n)%nat).
      { assert (X : nbs w p n [rows2d cond] t (es t) = length (others n t)).
        { assert (FA : forall f, (forall u, In u (others n t) -> f u = true) -> length (filter f (others n t)) = length (others n t)).
          { intros f. generalize (others n t). induction l as [|x l IH]; cbn; intros H; [reflexivity|]. rewrite (H x) by (left; reflexivity). cbn.
            rewrite IH by (intros; apply H; right; assumption). reflexivity. }
          destruct w; cbn [nbs]; unfold closer, within; apply FA; intros u Hu; apply others_in in Hu as [Hu _]; rewrite jdist_1, D by lia.
          - destruct (Rlt_dec 0 (es t)) as [|C]; [reflexivity|exfalso]. destruct Hw as [Hw|Hw]; [discriminate|]. apply C, Hw. lia.
          - destruct (Rle_dec 0 (es t)) as [|C]; [reflexivity|exfalso]. apply C. eapply kth_nonneg. apply He. lia. }
        rewrite X, others_length by lia. lia. }
      rewrite Z.
      assert (S0 : sumR (map (fun v => psi (nbs w p n [v; rows2d cond] t (es t) + 1)) (map rows2d vars))
          = sumR (map (fun v => psi (nbs w p n [v] t (es t) + 1)) (map rows2d vars))).
      { f_equal. apply map_ext_in. intros v Hin. change [v; rows2d cond] with ([v] ++ [rows2d cond]); rewrite (K [v] t (es t)); [reflexivity| |lia].
        unfold tables in *. constructor; [|constructor]. rewrite Forall_forall in T. apply T. exact Hin. }
      rewrite S0. ring. }
    rewrite (map_ext_in _ _ _ G), !mean_map, seq_length.
    assert (S1 : forall (f : nat -> R) c l, sumf (fun t => f t - c) l = sumf f l - INR (length l) * c).
    { intros f c l. induction l as [|x l IH]; [cbn; ring|]. cbn [sumf length]. rewrite IH, S_INR. ring. }
    rewrite S1, seq_length. field. split; [|apply not_0_INR; lia].
    clear - V. destruct b as [|r]; cbn in *; [lra|]. intros C. destruct V as [V1 V2]. apply V2. apply ln_inv; [exact V1|lra|rewrite ln_1; exact C].
  Qed.
  Theorem C72_constant_condition : forall n x y cond k es,
    tables n (map rows2d [x; y]) -> tables n [rows2d cond] -> (1 <= k < n)%nat ->
    (forall t, (t < n)%nat -> nth t (rows2d cond) [] = nth 0 (rows2d cond) []) ->
    radii p n (map rows2d [x; y]) k es -> w = NonStrict \/ (forall t, (t < n)%nat -> 0 < es t) ->
    ksg_cmi E (ksg_args w m b k) (Some 0%Z) false [x; y] cond = ksg_mi E (ksg_args w m b k) (Some 0%Z) false [x; y].
  Proof.
    intros n x y cond k es T Tc Hk Hc He Hw.
    destruct (constant_condition n [x; y] cond k es ltac:(cbn; lia) T Tc Hk Hc He Hw) as (mi & -> & ->). f_equal. cbn [length INR]. unfold Rdiv. ring.
  Qed.
  Lemma psi_pos n : (2 <= n)%nat -> 0 < psi n.
  Proof.
    intros H. apply Rlt_le_trans with (psi 2); [|apply psi_mono; lia].
    rewrite psi_S, psi_1 by lia. cbn [INR]. rewrite Rinv_1. pose proof (gamma_le 1) as G. unfold gseq in G.
    rewrite !harm_S in G. unfold harm in G. cbn in G. pose proof (ln_lt_2) as L.
    replace (1 + 1) with 2 in G by lra. rewrite Rinv_1 in G. lra.
  Qed.
  Theorem C72_three_variables_refuted : forall n x y z cond k es,
    tables n (map rows2d [x; y; z]) -> tables n [rows2d cond] -> (1 <= k < n)%nat ->
    (forall t, (t < n)%nat -> nth t (rows2d cond) [] = nth 0 (rows2d cond) []) ->
    radii p n (map rows2d [x; y; z]) k es -> w = NonStrict \/ (forall t, (t < n)%nat -> 0 < es t) ->
    exists mi, ksg_mi E (ksg_args w m b k) (Some 0%Z) false [x; y; z] = Ok mi /\
      ksg_cmi E (ksg_args w m b k) (Some 0%Z) false [x; y; z] cond = Ok (mi - psi n / unit_of b) /\ psi n / unit_of b <> 0.
  Proof.
    intros n x y z cond k es T Tc Hk Hc He Hw.
    destruct (constant_condition n [x; y; z] cond k es ltac:(cbn; lia) T Tc Hk Hc He Hw) as (mi & -> & ->). exists mi.
    split; [reflexivity|]. split; [f_equal; cbn [length INR]; unfold Rdiv; ring|].
    pose proof (psi_pos n ltac:(lia)) as P0. unfold Rdiv. apply Rmult_integral_contrapositive_currified; [lra|]. apply Rinv_neq_0_compat.
    clear - V. destruct b as [|r]; cbn in *; [lra|]. intros C. destruct V as [V1 V2]. apply V2. apply ln_inv; [exact V1|lra|rewrite ln_1; exact C].
  Qed.
End C72.
