(** C110 continued: the Miller-Madow local values are the plug-in ones plus one constant; shrinkage local values. *)
From Coq Require Import Reals Lra Lia List ZArith Arith Bool Permutation.
From Verif Require Import Res RSum Spec SpecBase SpecTE SpecInput SpecLocal Info Info2 Ord MBase MData MEntropy MMI MTE PBase PEntropy PCoo PMI PMI2 PMI3 PCMI PMI4 PCMI2 PMI5 PMI6
  PropsMI PTE PTE2 PropsTE PEst PEst3 PEst4 PEst5 PEst6 SpecEst MEst MGeneric PLocal PropsPoint.
Import ListNotations.
Local Open Scope R_scope.

(** Miller-Madow term of a sample: (number of different values - 1) / (2 N) *)
Definition mm_term {A} `{EqDec A} (xs : list A) : R := (INR (length (distinct xs)) - 1) / (2 * INR (length xs)).

Lemma mm_term_mmc {A} `{EqDec A} (xs : list A) : mm_term xs = mmc xs.
Proof. reflexivity. Qed.

Lemma shift_zero n : map (fun v => v + 0) (repeat 0 n) = repeat 0 n.
Proof. induction n as [|n IH]; [reflexivity|]. cbn [repeat map]. rewrite IH. f_equal. ring. Qed.

Lemma mi_local_shift b bb vars ls0 ls : mi_local b None vars = Ok ls0 -> mi_local b (Some bb) vars = Ok ls ->
  exists c, ls = map (fun v => v + c) ls0.
Proof.
  unfold mi_local. destruct (coo_of vars) as [c|e|]; cbn [bind]; try discriminate.
  destruct (existsb _ _).
  - intros E1 E2. exists 0. assert (ls0 = repeat 0 (arr_len (hd (A1 []) vars))) by congruence. assert (ls = repeat 0 (arr_len (hd (A1 []) vars))) by congruence.
    subst. symmetry. apply shift_zero.
  - destruct (mapM _ _) as [l|e|]; cbn [bind]; try discriminate. intros E1. destruct (mm_mi_corr _ _ _ _ _) as [kk|e|]; cbn [bind]; try discriminate.
    intros E2. exists kk. congruence.
Qed.

Lemma cmi_local_shift b bb vars z ls0 ls : cmi_local b None vars z = Ok ls0 -> cmi_local b (Some bb) vars z = Ok ls ->
  exists c, ls = map (fun v => v + c) ls0.
Proof.
  unfold cmi_local. destruct (coo_of _) as [c|e|]; cbn [bind]; try discriminate.
  destruct (existsb _ _).
  - intros E1 E2. exists 0. assert (ls0 = repeat 0 (arr_len (hd (A1 []) vars))) by congruence. assert (ls = repeat 0 (arr_len (hd (A1 []) vars))) by congruence.
    subst. symmetry. apply shift_zero.
  - destruct (mapM _ _) as [l|e|]; cbn [bind]; try discriminate. intros E1. destruct (mm_mi_corr _ _ _ _ _) as [kk|e|]; cbn [bind]; try discriminate.
    intros E2. exists kk. congruence.
Qed.

Lemma mean_shift ls c : ls <> [] -> mean (map (fun v => v + c) ls) = mean ls + c.
Proof.
  intros NE. unfold mean, sumR. rewrite map_length, sumf_map, sumf_plus, sumf_const.
  assert (0 < INR (length ls)) by (apply INR_pos; destruct ls; [congruence|cbn [length]; lia]). field. lra.
Qed.

Lemma shift_value ls0 ls c m m0 : ls0 <> [] -> ls = map (fun v => v + c) ls0 -> mean ls = m -> mean ls0 = m0 -> c = m - m0.
Proof. intros NE -> E1 E0. rewrite mean_shift in E1 by exact NE. lra. Qed.

Theorem C110_mi_mm b (xs ys : list Z) : valid_base b -> length xs = length ys -> xs <> [] ->
  let c := (mm_term xs + mm_term ys - mm_term (combine xs ys)) / unit_of b in
  mi_mm_local b (Some 0%Z) [A1 xs; A1 ys] = Ok (map (fun v => v + c) (in_base b (local_mi xs ys))).
Proof.
  intros V L NE c. pose proof (C110_mi b xs ys V L NE) as E0. unfold mi_discrete_local, mi_mm_local in *.
  rewrite mi_init_2 in E0 |- * by exact L. cbn [bind] in *.
  destruct (mi2_local_any b None xs ys V L NE Logic.I) as [l0 [F1 [F2 F3]]].
  destruct (mi2_local_any b (Some b) xs ys V L NE V) as [l1 [G1 [G2 G3]]].
  assert (EE : l0 = in_base b (local_mi xs ys)) by congruence. rewrite <- EE.
  destruct (mi_local_shift b b _ _ _ F1 G1) as [c' E]. rewrite G1. f_equal.
  assert (NEl : l0 <> []). { intros Q. rewrite Q in F2. destruct xs; [congruence|discriminate F2]. }
  pose proof (shift_value l0 l1 c' _ _ NEl E G3 F3) as EC. rewrite E. unfold c. change @mm_term with @mmc.
  replace c' with ((mmc xs + mmc ys - mmc (combine xs ys)) / unit_of b) by lra. reflexivity.
Qed.
Print Assumptions C110_mi_mm.

Theorem C110_cmi_mm b (xs ys zs : list Z) : valid_base b -> length xs = length ys -> length xs = length zs -> xs <> [] -> small2 (length xs) ->
  let c := (mm_term (combine xs zs) + mm_term (combine ys zs) - mm_term (combine (combine xs ys) zs) - mm_term zs) / unit_of b in
  cmi_mm_local b [A1 xs; A1 ys] (A1 zs) = Ok (map (fun v => v + c) (in_base b (local_cmi xs ys zs))).
Proof.
  intros V L1 L2 NE SM c. pose proof (C110_cmi b xs ys zs V L1 L2 NE) as E0. unfold cmi_discrete_local, cmi_mm_local in *.
  cbn [reduce_joint_space bind arr_len] in *. rewrite cmi_init_ok in E0 |- * by congruence. cbn [bind] in *.
  destruct (cmi2_general b None xs ys zs V L1 L2 ltac:(apply len_pos; exact NE) SM Logic.I) as [_ (l0 & F1 & F2 & F3)].
  destruct (cmi2_general b (Some b) xs ys zs V L1 L2 ltac:(apply len_pos; exact NE) SM V) as [_ (l1 & G1 & G2 & G3)].
  assert (EE : l0 = in_base b (local_cmi xs ys zs)) by congruence. rewrite <- EE.
  destruct (cmi_local_shift b b _ _ _ _ F1 G1) as [c' E]. rewrite G1. f_equal.
  assert (NEl : l0 <> []). { intros Q. rewrite Q in F2. destruct xs; [congruence|discriminate F2]. }
  pose proof (shift_value l0 l1 c' _ _ NEl E G3 F3) as EC. rewrite E. unfold c. change @mm_term with @mmc.
  replace c' with ((mmc (combine xs zs) + mmc (combine ys zs) - mmc (combine (combine xs ys) zs) - mmc zs) / unit_of b) by lra. reflexivity.
Qed.
Print Assumptions C110_cmi_mm.

Theorem C110_te_mm b (xs ys : list Z) l k s n : valid_base b -> length xs = n -> length ys = n -> (1 <= l)%nat -> (1 <= k)%nat -> (1 <= s)%nat ->
  (Nat.max k l * s < n)%nat -> small2 n ->
  let ts := base_times n (Nat.max k l * s) s in
  let fut := presents 0%Z ys ts in let src := pasts 0%Z xs s l ts in let past := pasts 0%Z ys s k ts in
  let c := (mm_term (combine fut past) + mm_term (combine src past) - mm_term (combine (combine fut src) past) - mm_term past) / unit_of b in
  te_mm_local b (A1 xs) (A1 ys) (te_kw l k s) = Ok (map (fun v => v + c) (in_base b (local_cmi fut src past))).
Proof.
  intros V Lx Ly Hl Hk Hs Hd SM ts fut src pst c.
  assert (HT : forall b, In b ts -> (Nat.max k l * s <= b < n)%nat).
  { intros b' Hb'. unfold ts in Hb'. rewrite base_times_In in Hb' by exact Hs. tauto. }
  pose proof (C110_te b xs ys l k s n V Lx Ly Hl Hk Hs Hd) as E0. cbv zeta in E0. fold ts in E0. fold fut src pst in E0.
  destruct (te_gen_ok b None (A1 xs) (A1 ys) l k s n V Logic.I Lx Ly Hl Hk Hs Hd SM) as [_ (l0 & F1 & F2 & F3)].
  destruct (te_gen_ok b (Some b) (A1 xs) (A1 ys) l k s n V V Lx Ly Hl Hk Hs Hd SM) as [_ (l1 & G1 & G2 & G3)].
  fold ts in F3, G3. rewrite !flat_pasts_1d, flat_presents_1d in F3, G3; try assumption; try (intros b' Hb'; specialize (HT b' Hb'); lia).
  fold fut src pst in F3, G3.
  assert (MC : mm_comb (map (fun v => [v]) fut) src pst = mm_comb fut src pst).
  { apply mm_comb_partition; rewrite ?map_length; try apply same_partition_refl; try apply singletons_partition; unfold fut, src, pst; rewrite presents_length, pasts_length; reflexivity. }
  unfold te_discrete_local in E0. assert (EE : l0 = in_base b (local_cmi fut src pst)) by congruence. rewrite <- EE.
  unfold te_mm_local. rewrite G1. f_equal.
  assert (SH : exists c', l1 = map (fun v => v + c') l0).
  { revert F1 G1. unfold te_gen_local. destruct (te_init _ _ _ _ _) as [sd|e|]; cbn [bind]; try discriminate.
    destruct (te_observations _ _ _ _ _ _) as [[[sh dh] df]|e|]; cbn [bind]; try discriminate. unfold te_form_local.
    destruct (reduce_joint_space _) as [z|e|]; cbn [bind]; try discriminate. apply cmi_local_shift. }
  destruct SH as [c' E]. pose proof (nrows_pos n (Nat.max k l * s) s Hs Hd) as NP.
  assert (NEl : l0 <> []) by (intros Q; rewrite Q in F2; cbn [length] in F2; lia).
  pose proof (shift_value l0 l1 c' _ _ NEl E G3 F3) as EC. rewrite E. unfold c. change @mm_term with @mmc.
  rewrite MC in EC. unfold mm_comb in EC.
  match goal with |- _ = map (fun v => v + ?cc) l0 => replace c' with cc by (change @mm_term with @mmc in *; lra) end. reflexivity.
Qed.
Print Assumptions C110_te_mm.

(** shrinkage: the surprise under the shrunk distribution *)
Theorem C110_entropy_shrink b (xs : list Z) : valid_base b -> xs <> [] ->
  local_of est_shrink b (EArr (A1 xs)) = Ok (in_base b (map (fun x => - ln (shrunk xs x)) xs)).
Proof.
  intros V NE. unfold local_of. replace (make_data (EArr (A1 xs))) with (Ok (dd_of xs)) by (symmetry; apply from_data_dd; exact NE).
  cbn [bind]. unfold e_local. cbn [e_calc e_extract est_shrink]. rewrite shrink_ok, shrink_local_ok by assumption. unfold rmap. cbn [bind].
  f_equal. unfold in_base. rewrite map_map. apply map_ext. intros x. unfold Rdiv. ring.
Qed.
Print Assumptions C110_entropy_shrink.
