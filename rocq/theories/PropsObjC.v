(** Property theorems: significance tests of the estimators for numeric data (C90). *)
From Coq Require Import Reals Lra Lia List ZArith Arith Bool Permutation Sorted.
From Verif Require Import SpecKern PKern PKern2 PKern3.
From Verif Require Import Res RSum Spec SpecBase MBase MTE MGeneric MObj MNorm SpecObj PObj PObj2 PObj3 MCont MKern MKnn MFam MObjC SpecObjC Info Info2 PTE PTE2 PropsTE Ord PMI PMI5 PropsMI PropsObj.
Import ListNotations.
Local Open Scope R_scope.

Lemma fl_of_VNum (r : res R) : fl_of (rmap VNum r) = reported r.
Proof. destruct r; reflexivity. Qed.
Lemma all_fin_map ls : all_fin (map Fin ls) = Some ls.
Proof. induction ls as [|x ls IH]; [reflexivity|]. cbn. rewrite IH. reflexivity. Qed.
Lemma fl_of_VArr (r : res (list R)) : fl_of (rmap VArr r) = reported (let* ls := r in mean_res ls).
Proof.
  destruct r as [ls|e|]; [|reflexivity|reflexivity]. unfold rmap, fl_of. cbn. unfold np_mean. rewrite all_fin_map.
  destruct ls; reflexivity.
Qed.
Lemma of_res_not_bad r pv : of_res r = inr pv -> pv <> PBad.
Proof. destruct r as [[x|ls]|e|]; cbn; intros Q; try discriminate Q; injection Q as <-; discriminate. Qed.

Lemma rows_at_ids X : rows_at X (row_ids (length X)) = X.
Proof.
  unfold rows_at, row_ids. rewrite map_map. transitivity (map (fun i => nth i X []) (seq 0 (length X))); [|symmetry; apply (list_as_map [] X (length X) eq_refl)].
  apply map_ext. intros i. rewrite Nat2Z.id. reflexivity.
Qed.
Lemma rows_at_take X js : Forall (fun j => (j < length X)%nat) js ->
  rows_at X (take_rows js (row_ids (length X))) = map (fun j => nth j X []) js.
Proof.
  intros F. rewrite Forall_forall in F. unfold row_ids. rewrite take_rows_A1. unfold rows_at. rewrite map_map. apply map_ext_in. intros j Hj.
  specialize (F j Hj). rewrite (map_nth Z.of_nat (seq 0 (length X)) 0%nat j : nth j (map Z.of_nat (seq 0 (length X))) 0%Z = _).
  rewrite seq_nth by exact F. rewrite Nat2Z.id. reflexivity.
Qed.

Section Num.
Variables (X Y : list pt) (calc : list (list pt) -> nat -> nat * res value).
Hypothesis MONO : forall d q, (q <= fst (calc d q))%nat.
Variables (pd bd : nat -> nat -> list nat).
Hypothesis LG : legal pd bd.
Let K := klass_num_mi [X; Y] calc.
Let ids := [row_ids (length X); row_ids (length Y)].

Lemma draw_redrawn m q : let X' := map (fun j => nth j X []) (PObj2.draw pd bd m q (length X)) in
  rows_at X (take_rows (PObj2.draw pd bd m q (length X)) (row_ids (length X))) = X' /\ redrawn m X X'.
Proof.
  destruct LG as [LP LB].
  assert (F : Forall (fun j => (j < length X)%nat) (PObj2.draw pd bd m q (length X))).
  { unfold PObj2.draw. destruct m; [|apply LB|apply LB]. apply Forall_forall. intros j Hj. apply (Permutation_in _ (LP q (length X))) in Hj. apply in_seq in Hj. lia. }
  cbv zeta. split; [apply rows_at_take; exact F|]. rewrite Forall_forall in F.
  unfold redrawn. destruct m.
  - apply Permutation_sym, perm_by_index. apply LP.
  - rewrite map_length. split; [apply LB|]. intros p Hp. apply in_map_iff in Hp. destruct Hp as (j & <- & Hj). apply nth_In, F, Hj.
  - rewrite map_length. split; [apply LB|]. intros p Hp. apply in_map_iff in Hp. destruct Hp as (j & <- & Hj). apply nth_In, F, Hj.
Qed.

Lemma num_surrogates m n o o' vs : o_orig o = Some ids ->
  repeatM n (mi_surrogate never K pd bd m) o = (o', inr vs) ->
  o_orig o' = Some ids /\ o_glob o' = o_glob o /\ o_loc o' = o_loc o /\ o_flag o' = o_flag o /\ length vs = n /\
  exists qs, successive (S (o_rng o)) (o_rng o') qs /\ (o_rng o <= o_rng o')%nat /\
    Forall2 (fun q v => exists X', redrawn m X X' /\ fl_of (snd (calc [X'; Y] q)) = Some v) qs vs.
Proof.
  revert o vs. induction n as [|n IH]; intros o vs EO; cbn [repeatM].
  - unfold ret. intros E. injection E as <- <-. repeat split; auto. exists []. repeat split; auto; constructor.
  - unfold mbind at 1. unfold mi_surrogate at 1, mbind, read. rewrite EO. unfold ids at 1. unfold resample, MObj.upd, run_calc, never.
    cbn [o_data o_flag o_rng tick set_data set_rng]. unfold K at 1. cbn [klass_num_mi k_calc combine map fst snd].
    assert (AL : arr_len (row_ids (length X)) = length X) by (unfold row_ids; cbn; rewrite map_length, seq_length; reflexivity).
    rewrite AL. fold (PObj2.draw pd bd m). destruct (draw_redrawn m (o_rng o)) as [RA RD]. rewrite RA, rows_at_ids.
    set (X' := map _ _) in *.
    pose proof (MONO [X'; Y] (S (o_rng o))) as MN. destruct (calc [X'; Y] (S (o_rng o))) as [q1 v1] eqn:EC. cbn [fst] in MN.
    destruct (of_res v1) as [e|pv] eqn:E1; [discriminate|].
    unfold ret. set (o1 := set_rng _ _).
    destruct (repeatM n _ o1) as [o2 [e|vs']] eqn:E2; [discriminate|]. intros E. injection E as <- <-.
    destruct (IH o1 vs' EO E2) as (A1 & A2 & A3 & A4 & A5 & qs & B1 & B3 & B4).
    change (o_rng o1) with q1 in *.
    split; [exact A1|]. split; [exact A2|]. split; [exact A3|]. split; [exact A4|]. split; [cbn; congruence|].
    destruct B1 as [B1 B2]. exists (S (o_rng o) :: qs). split; [split|].
    { constructor; [exact B1|]. eapply Forall_impl; [|exact B2]. cbv beta. intros p Hp. lia. }
    { constructor; [lia|]. eapply Forall_impl; [|exact B2]. cbv beta. intros p Hp. lia. }
    split; [lia|]. constructor; [|exact B4].
    exists X'. split; [exact RD|]. rewrite EC. cbn [snd]. unfold fl_of. rewrite E1. reflexivity.
Qed.

Lemma num_test q n m o' g vs :
  run_op never K pd bd (OpTest (NInt n) m) (fresh ids q) = (o', inr (ATest g vs)) ->
  length vs = Z.to_nat n /\ o_data o' = ids /\ o_flag o' = FOff /\
  exists qs qg, successive q qg qs /\ fl_of (snd (calc [X; Y] qg)) = Some g /\
    Forall2 (fun p v => exists X', redrawn m X X' /\ fl_of (snd (calc [X'; Y] p)) = Some v) qs vs.
Proof.
  intros E. cbn [run_op] in E. unfold mmap, statistical_test, mbind in E.
  destruct (statistical_test_values never K pd bd (NInt n) m (fresh ids q)) as [o1 [e|ws]] eqn:E1; [discriminate|].
  destruct (global_val never K o1) as [o2 [e|g2]] eqn:EG; [discriminate|].
  destruct (Nat.ltb (length ws) 2); [discriminate|]. injection E as -> -> ->. rename E1 into E.
  unfold statistical_test_values in E. cbn [pos_int] in E. destruct (Z.ltb_spec 0 n) as [Hn|]; [|discriminate].
  unfold K at 1 in E. cbn [klass_num_mi k_te] in E. unfold mbind at 1, read in E. cbn [fresh o_data length Nat.eqb ids] in E.
  unfold test_mi, mbind at 1, MObj.upd in E.
  assert (W : exists o3, repeatM (Z.to_nat n) (mi_surrogate never K pd bd m) (set_orig (fresh ids q) (Some ids)) = (o3, inr vs) /\
              o1 = match o_orig o3 with Some d => set_data o3 d | None => o3 end).
  { destruct m; [| |discriminate]; unfold mbind, ret in E; cbn [fresh o_data] in E; fold ids in E;
      match type of E with context [repeatM ?k ?q ?st] => destruct (repeatM k q st) as [o3 [e|us]] eqn:E3; [discriminate|] end;
      exists o3; injection E as <- <-; (split; [first [reflexivity|exact E3]|reflexivity]). }
  destruct W as (o3 & E3 & ->). apply num_surrogates in E3; [|reflexivity].
  destruct E3 as (A1 & A2 & A3 & A4 & A5 & qs & B1 & B3 & B4). rewrite A1 in EG.
  split; [exact A5|].
  unfold global_val, mbind, read in EG. cbn [set_data o_glob] in EG. rewrite A2 in EG. cbn [set_orig fresh o_glob] in EG.
  unfold calculate, mbind, run_calc, never in EG. cbn [o_data o_flag o_rng tick set_data] in EG.
  unfold K in EG. cbn [klass_num_mi k_calc combine map fst snd ids] in EG. rewrite !rows_at_ids in EG.
  destruct (calc [X; Y] (o_rng o3)) as [qq vv] eqn:EC.
  destruct (of_res vv) as [e|pv] eqn:EV; [discriminate|].
  assert (G : fl_of vv = Some g /\ o_data o' = ids /\ o_flag o' = FOff).
  { unfold fl_of. rewrite EV. pose proof (of_res_not_bad _ _ EV) as NB.
    destruct pv as [x|ls|]; [| |congruence]; cbn in EG; injection EG as <- <-; cbn; rewrite ?A4; repeat split; reflexivity. }
  destruct G as (G & D & F). split; [exact D|]. split; [exact F|].
  exists qs, (o_rng o3). split; [destruct B1 as [B1 B2]; split; [exact B1|]; eapply Forall_impl; [|exact B2]; cbv beta; cbn [set_orig fresh o_rng]; intros; lia|]. split; [rewrite EC; exact G|exact B4].
Qed.
End Num.


Section NumTE.
Variables (pd bd : nat -> nat -> list nat) (rows noise : nat) (calc : nat -> rand -> res value).
Hypothesis LG : legal pd bd.
Let K := klass_num_te pd bd rows noise calc.
Let flag_of (m : method) : flag := match m with MPermute => FPermute | _ => FResample end.

Lemma num_te_calcs m n o o' us : m <> MUnknown -> o_flag o = flag_of m ->
  repeatM n (run_calc never K) o = (o', inr us) ->
  o_data o' = o_data o /\ o_glob o' = o_glob o /\ length us = n /\
  exists qs, successive (o_rng o) (o_rng o') qs /\ (o_rng o <= o_rng o')%nat /\
    Forall2 (fun q v => exists rnd, legal_rows m rows rnd /\ fl_of (calc q rnd) = Some (val_of v)) qs us.
Proof.
  intros Hm. revert o us. induction n as [|n IH]; intros o us EF; cbn [repeatM].
  - unfold ret. intros E. injection E as <- <-. repeat split; auto. exists []. repeat split; auto; constructor.
  - unfold mbind.
    rewrite (eq_refl : run_calc never K o =
       let '(r, v) := k_calc K (o_data o) (o_flag o) (o_rng o) in (set_rng (tick o) r, v)).
    assert (X : exists rnd, legal_rows m rows rnd /\ k_calc K (o_data o) (o_flag o) (o_rng o) = (S (o_rng o + noise), of_res (calc (o_rng o) rnd))).
    { rewrite EF. unfold K. cbn [klass_num_te k_calc]. destruct LG as [LP LB]. destruct m; [| |congruence]; cbn [flag_of].
      - exists (RPermute (pd (o_rng o + noise)%nat rows)). split; [apply LP|reflexivity].
      - exists (RResample (bd (o_rng o + noise)%nat rows)). split; [apply LB|reflexivity]. }
    destruct X as (rnd & LR & ->). destruct (of_res _) as [e|pv] eqn:E1; [discriminate|].
    set (o1 := set_rng _ _). unfold ret. destruct (repeatM n _ o1) as [o2 [e|vs']] eqn:E2; [discriminate|].
    intros E. injection E as <- <-. destruct (IH o1 vs' EF E2) as (A1 & A2 & A3 & qs & [B1 B2] & B3 & B4).
    change (o_rng o1) with (S (o_rng o + noise)) in *.
    split; [exact A1|]. split; [exact A2|]. split; [cbn; congruence|]. exists (o_rng o :: qs). split; [split|].
    { constructor; [exact B1|]. eapply Forall_impl; [|exact B2]. cbv beta. intros p Hp. lia. }
    { constructor; [lia|]. eapply Forall_impl; [|exact B2]. cbv beta. intros p Hp. lia. }
    split; [lia|]. constructor; [|exact B4]. exists rnd. split; [exact LR|]. unfold fl_of. rewrite E1. reflexivity.
Qed.

Lemma num_te_test data q n m o' g vs :
  run_op never K pd bd (OpTest (NInt n) m) (fresh data q) = (o', inr (ATest g vs)) ->
  length vs = Z.to_nat n /\ o_data o' = data /\ o_flag o' = FOff /\
  exists qs qg, successive q qg qs /\ fl_of (calc qg RNone) = Some g /\
    Forall2 (fun p v => exists rnd, legal_rows m rows rnd /\ fl_of (calc p rnd) = Some v) qs vs.
Proof.
  intros E. cbn [run_op] in E. unfold mmap, statistical_test, mbind in E.
  destruct (statistical_test_values never K pd bd (NInt n) m (fresh data q)) as [o1 [e|ws]] eqn:E1; [discriminate|].
  destruct (global_val never K o1) as [o2 [e|g2]] eqn:EG; [discriminate|].
  destruct (Nat.ltb (length ws) 2); [discriminate|]. injection E as -> -> ->. rename E1 into E.
  unfold statistical_test_values in E. cbn [pos_int] in E. destruct (Z.ltb_spec 0 n) as [Hn|]; [|discriminate].
  unfold K at 1 in E. cbn [klass_num_te k_te] in E. unfold test_te in E.
  assert (W : m <> MUnknown /\ exists o3 us, repeatM (Z.to_nat n) (run_calc never K) (set_flag (fresh data q) (flag_of m)) = (o3, inr us) /\
              vs = map val_of us /\ o1 = set_flag o3 FOff).
  { destruct m; [| |discriminate]; (split; [discriminate|]); unfold mbind, MObj.upd, ret in E;
      match type of E with context [repeatM ?k ?q ?st] => destruct (repeatM k q st) as [o3 [e|us]] eqn:E3; [discriminate|] end;
      exists o3, us; injection E as <- <-; (split; [first [reflexivity|exact E3]|split; reflexivity]). }
  destruct W as (Hm & o3 & us & E3 & -> & ->). apply (num_te_calcs m) in E3; [|exact Hm|reflexivity].
  destruct E3 as (A1 & A2 & A3 & qs & B1 & B3 & B4).
  rewrite map_length. split; [exact A3|].
  unfold global_val, mbind, read in EG. cbn [set_flag o_glob] in EG. rewrite A2 in EG. cbn [set_flag fresh o_glob] in EG.
  unfold calculate, mbind, run_calc, never in EG. cbn [o_data o_flag o_rng tick set_flag] in EG.
  unfold K in EG. cbn [klass_num_te k_calc] in EG.
  destruct (of_res (calc (o_rng o3) RNone)) as [e|pv] eqn:EV; [discriminate|].
  assert (G : fl_of (calc (o_rng o3) RNone) = Some g /\ o_data o' = data /\ o_flag o' = FOff).
  { unfold fl_of. rewrite EV. pose proof (of_res_not_bad _ _ EV) as NB.
    destruct pv as [x|ls|]; [| |congruence]; cbn in EG; injection EG as <- <-; cbn; rewrite ?A1; repeat split; reflexivity. }
  destruct G as (G & D & F). split; [exact D|]. split; [exact F|].
  exists qs, (o_rng o3). split; [exact B1|]. split; [exact G|].
  clear -B4. induction B4; constructor; assumption.
Qed.
End NumTE.

Lemma num_cte_test noise calc pd bd data q n m o' g vs :
  run_op never (klass_num_cte noise calc) pd bd (OpTest (NInt n) m) (fresh data q) = (o', inr (ATest g vs)) ->
  length vs = Z.to_nat n /\ exists qs qg, fl_of (calc qg) = Some g /\ Forall2 (fun p v => fl_of (calc p) = Some v) qs vs.
Proof.
  intros E. pose proof (num_te_test) as _. set (K := klass_num_cte noise calc) in *.
  cbn [run_op] in E. unfold mmap, statistical_test, mbind in E.
  destruct (statistical_test_values never K pd bd (NInt n) m (fresh data q)) as [o1 [e|ws]] eqn:E1; [discriminate|].
  destruct (global_val never K o1) as [o2 [e|g2]] eqn:EG; [discriminate|].
  destruct (Nat.ltb (length ws) 2); [discriminate|]. injection E as -> -> ->. rename E1 into E.
  unfold statistical_test_values in E. cbn [pos_int] in E. destruct (Z.ltb_spec 0 n) as [Hn|]; [|discriminate].
  unfold K at 1 in E. cbn [klass_num_cte k_te] in E. unfold test_te in E.
  assert (W : exists fg o3 us, repeatM (Z.to_nat n) (run_calc never K) (set_flag (fresh data q) fg) = (o3, inr us) /\
              vs = map val_of us /\ o1 = set_flag o3 FOff).
  { destruct m; [exists FPermute|exists FResample|discriminate]; unfold mbind, MObj.upd, ret in E;
      match type of E with context [repeatM ?k ?q ?st] => destruct (repeatM k q st) as [o3 [e|us]] eqn:E3; [discriminate|] end;
      exists o3, us; injection E as <- <-; (split; [first [reflexivity|exact E3]|split; reflexivity]). }
  destruct W as (fg & o3 & us & E3 & -> & ->).
  assert (R : forall n o o' us, repeatM n (run_calc never K) o = (o', inr us) -> o_glob o' = o_glob o /\ length us = n /\
     exists qs, Forall2 (fun q v => fl_of (calc q) = Some (val_of v)) qs us).
  { clear. intros n. induction n as [|n IH]; intros o o' us; cbn [repeatM].
    - unfold ret. intros E. injection E as <- <-. repeat split; auto. exists []. constructor.
    - unfold mbind.
      rewrite (eq_refl : run_calc never K o = (set_rng (tick o) (o_rng o + noise), of_res (calc (o_rng o)))).
      destruct (of_res _) as [e|pv] eqn:E1; [discriminate|]. set (o1 := set_rng _ _). unfold ret.
      destruct (repeatM n _ o1) as [o2 [e|vs']] eqn:E2; [discriminate|]. intros E. injection E as <- <-.
      destruct (IH o1 _ _ E2) as (A1 & A2 & qs & B). split; [exact A1|]. split; [cbn; congruence|].
      exists (o_rng o :: qs). constructor; [|exact B]. unfold fl_of. rewrite E1. reflexivity. }
  destruct (R _ _ _ _ E3) as (A2 & A3 & qs & B).
  rewrite map_length. split; [exact A3|]. exists qs, (o_rng o3).
  unfold global_val, mbind, read in EG. cbn [set_flag o_glob] in EG. rewrite A2 in EG. cbn [set_flag fresh o_glob] in EG.
  unfold calculate, mbind, run_calc, never in EG. cbn [o_data o_flag o_rng tick set_flag] in EG.
  unfold K in EG. cbn [klass_num_cte k_calc] in EG.
  destruct (of_res (calc (o_rng o3))) as [e|pv] eqn:EV; [discriminate|].
  split.
  - unfold fl_of. rewrite EV. pose proof (of_res_not_bad _ _ EV) as NB.
    destruct pv as [x|ls|]; [| |congruence]; cbn in EG; injection EG as <- <-; reflexivity.
  - clear -B. induction B; constructor; assumption.
Qed.

(** ** Constructors *)
Lemma mapM_length {A B} (f : A -> res B) l ys : mapM f l = Ok ys -> length ys = length l.
Proof. revert ys. induction l as [|x l IH]; intros ys; cbn; [intros E; injection E as <-; reflexivity|]. destruct (f x); [|discriminate|discriminate]. cbn. destruct (mapM f l) as [zs|e|]; [|discriminate|discriminate]. cbn. intros E. injection E as <-. cbn. rewrite (IH zs eq_refl). reflexivity. Qed.
Lemma normalize_0_1_len xs ys : normalize_0_1 xs = Ok ys -> length ys = length xs.
Proof. destruct xs; [discriminate|]. intros H. apply (mapM_length _ _ _ H). Qed.
Lemma norm1_len a b : norm1 a = Ok b -> flen b = flen a.
Proof.
  destruct a as [xs|rs]; [|discriminate]. cbn [norm1]. destruct (normalize_0_1 xs) as [ys|e|] eqn:E; cbn; intros H; try discriminate H.
  injection H as <-. cbn. apply normalize_0_1_len. exact E.
Qed.
Lemma norm_any_len a b : norm_any a = Ok b -> flen b = flen a.
Proof.
  destruct a as [xs|rs]; [apply (norm1_len (F1 xs))|]. cbn [norm_any]. destruct (normalize_0_1_cols _) as [ys|e|] eqn:E; cbn; intros H; try discriminate H.
  injection H as <-. cbn. unfold rows_of. rewrite map_length, seq_length. reflexivity.
Qed.
Lemma rows2d_len a : length (rows2d a) = flen a.
Proof. destruct a; cbn; rewrite ?map_length; reflexivity. Qed.
Lemma fskip_len k a : flen (fskip k a) = (flen a - k)%nat.
Proof. destruct a; cbn; apply skipn_length. Qed.
Lemma fdrop_len k a : flen (fdrop_last k a) = (flen a - k)%nat.
Proof. destruct a; cbn; rewrite firstn_length; lia. Qed.

Lemma fmi_init_len off nm vars X Y : fmi_init off nm vars = Ok [X; Y] -> length X = length Y.
Proof.
  unfold fmi_init. destruct (Nat.ltb_spec (length vars) 2) as [|L2]; [discriminate|]. destruct (_ && _); [discriminate|].
  destruct (forallb _ vars) eqn:FB; [|discriminate]. cbn [negb].
  destruct off as [o|]; [|discriminate]. set (vs := if Z.ltb 0 o then _ else _). cbn zeta.
  assert (LV : forall a b, vs = [a; b] -> flen a = flen b).
  { destruct vars as [|x [|y r]]; cbn in L2; try lia. intros a b. cbn [forallb hd] in FB. rewrite Nat.eqb_refl in FB. cbn [andb] in FB.
    apply andb_prop in FB. destruct FB as [FB _]. apply Nat.eqb_eq in FB. unfold vs. cbn [nth].
    destruct (Z.ltb 0 o); [|destruct (Z.ltb o 0)]; intros E; injection E; intros; subst; rewrite ?fskip_len, ?fdrop_len; congruence. }
  destruct nm.
  - destruct (existsb _ vs); [discriminate|].
    destruct vs as [|a [|b [|c r]]]; cbn [mapM]; try discriminate.
    + destruct (norm1 a); discriminate.
    + destruct (norm1 a) as [a'|e|] eqn:EA; try discriminate. destruct (norm1 b) as [b'|e|] eqn:EB; try discriminate. cbn. intros E. injection E as <- <-.
      rewrite !rows2d_len, (norm1_len _ _ EA), (norm1_len _ _ EB). apply LV. reflexivity.
    + destruct (norm1 a) as [a'|e|] eqn:EA; try discriminate. destruct (norm1 b) as [b'|e|] eqn:EB; try discriminate. cbn.
      destruct (norm1 c); [|discriminate|discriminate]. cbn. destruct (mapM norm1 r); discriminate.
  - destruct vs as [|a [|b [|c r]]]; try discriminate. cbn. intros E. injection E as <- <-. rewrite !rows2d_len. apply LV. reflexivity.
Qed.
Lemma fmi_init_F2 X Y : length X = length Y -> fmi_init (Some 0%Z) false [F2 X; F2 Y] = Ok [X; Y].
Proof. intros E. unfold fmi_init. cbn. rewrite <- E, !Nat.eqb_refl. reflexivity. Qed.

Lemma fcmi_init_len nm vars cond X Y Z : fcmi_init nm vars cond = Ok ([X; Y], Z) -> length X = length Y /\ length X = length Z.
Proof.
  unfold fcmi_init. destruct vars as [|x [|y r]]; try discriminate.
  destruct (Nat.eqb_spec (flen x) (flen y)) as [E1|]; [|discriminate]. destruct (Nat.eqb_spec (flen x) (flen cond)) as [E2|]; [|discriminate]. cbn [negb orb].
  destruct nm.
  - destruct (existsb _ _); [discriminate|]. cbn [mapM].
    destruct (norm_any x) as [a'|e|] eqn:EA; try discriminate. destruct (norm_any y) as [b'|e|] eqn:EB; try discriminate. cbn.
    destruct r as [|w r]; cbn [mapM].
    + cbn. destruct (norm_any cond) as [c'|e|] eqn:EC; try discriminate. cbn. intros E. injection E as <- <- <-.
      rewrite !rows2d_len, (norm_any_len _ _ EA), (norm_any_len _ _ EB), (norm_any_len _ _ EC). auto.
    + destruct (norm_any w); [|discriminate|discriminate]. cbn. destruct (mapM norm_any r); try discriminate. cbn. destruct (norm_any cond); discriminate.
  - destruct r as [|w r]; [|discriminate]. cbn. intros E. injection E as <- <- <-. rewrite !rows2d_len. auto.
Qed.
Lemma fcmi_init_F2 X Y Z : length X = length Y -> length X = length Z -> fcmi_init false [F2 X; F2 Y] (F2 Z) = Ok ([X; Y], Z).
Proof. intros E1 E2. unfold fcmi_init. cbn [flen]. rewrite <- E1, <- E2, !Nat.eqb_refl. reflexivity. Qed.
Lemma redrawn_len {A} m (X X' : list A) : redrawn m X X' -> length X' = length X.
Proof. destruct m; cbn; [intros P; symmetry; apply Permutation_length; exact P|intros [E _]; exact E|intros [E _]; exact E]. Qed.

Lemma num_two vars calc pd bd q n m o' a :
  run_op never (klass_num_mi vars calc) pd bd (OpTest (NInt n) m) (fresh (map (fun X => row_ids (length X)) vars) q) = (o', inr a) ->
  exists X Y, vars = [X; Y].
Proof.
  intros E. cbn [run_op] in E. unfold mmap, statistical_test, mbind in E.
  destruct (statistical_test_values _ _ _ _ _ _ _) as [o1 [e|ws]] eqn:E1; [discriminate|].
  unfold statistical_test_values in E1. destruct (pos_int (NInt n)); [|discriminate]. cbn [klass_num_mi k_te] in E1.
  unfold mbind at 1, read in E1. cbn [fresh o_data] in E1. rewrite map_length in E1.
  destruct (Nat.eqb_spec (length vars) 2) as [L|]; [|discriminate].
  destruct vars as [|X [|Y [|]]]; cbn in L; try lia. exists X, Y. reflexivity.
Qed.

(** ** C90 *)
Section API.
Variables (pd bd : nat -> nat -> list nat).
Hypothesis LG : legal pd bd.

(** a test on an MI or CMI object, in terms of the functional interface *)
Lemma num_object_test vars calc (full : nat -> res R) (surr : nat -> list (list pt) -> res R) q n m o' g vs :
  (forall d q, (q <= fst (calc d q))%nat) ->
  (forall q, fl_of (snd (calc vars q)) = reported (full q)) ->
  (forall q X Y X', vars = [X; Y] -> length X' = length X -> fl_of (snd (calc [X'; Y] q)) = reported (surr q [X'; Y])) ->
  run_op never (klass_num_mi vars calc) pd bd (OpTest (NInt n) m) (fresh (map (fun X => row_ids (length X)) vars) q) = (o', inr (ATest g vs)) ->
  exists X Y, vars = [X; Y] /\ length vs = Z.to_nat n /\ o_data o' = map (fun X => row_ids (length X)) vars /\ o_flag o' = FOff /\
  exists ps pg, successive q pg ps /\ reported (full pg) = Some g /\
    Forall2 (fun p v => exists X', redrawn m X X' /\ reported (surr p [X'; Y]) = Some v) ps vs.
Proof.
  intros MONO HF HS E. destruct (num_two _ _ _ _ _ _ _ _ _ E) as (X & Y & ->). exists X, Y. split; [reflexivity|].
  destruct (num_test X Y calc MONO pd bd LG q n m o' g vs E) as (A & B & C & qs & qg & D1 & D2 & D3).
  split; [exact A|]. split; [exact B|]. split; [exact C|]. exists qs, qg. split; [exact D1|]. split; [rewrite <- HF; exact D2|].
  clear -D3 HS. induction D3 as [|p v ps vs (X' & R & F) D3 IH]; constructor; [|exact IH]. exists X'. split; [exact R|].
  rewrite <- (HS p X Y X' eq_refl (redrawn_len _ _ _ R)). exact F.
Qed.

Theorem C90_kernel_mi : forall E a off nm vars K d q n m o' g vs,
  kernel_mi_object E a off nm vars = Ok (K, d) ->
  run_op never K pd bd (OpTest (NInt n) m) (fresh d q) = (o', inr (ATest g vs)) ->
  exists X Y, fmi_init off nm vars = Ok [X; Y] /\ length vs = Z.to_nat n /\ o_data o' = d /\ o_flag o' = FOff /\
    reported (kernel_mi E a off nm vars) = Some g /\
    List.Forall (fun v => exists X', redrawn m X X' /\ reported (kernel_mi E a (Some 0%Z) false [F2 X'; F2 Y]) = Some v) vs.
Proof.
  intros E a off nm vars K d q n m o' g vs O RO. unfold kernel_mi_object in O. destruct (fmi_init off nm vars) as [ws|e|] eqn:EI; try discriminate O.
  cbn [bind] in O. unfold num_object in O. injection O as <- <-.
  apply (num_object_test ws _ (fun _ => kernel_mi E a off nm vars) (fun _ d => kernel_mi E a (Some 0%Z) false (map F2 d))) in RO.
  - destruct RO as (X & Y & -> & A & B & C & ps & pg & D1 & D2 & D3). exists X, Y. split; [reflexivity|]. do 3 (split; [assumption|]). split; [exact D2|].
    clear -D3. induction D3; constructor; assumption.
  - intros; cbn; lia.
  - intros q0. cbn [snd]. rewrite fl_of_VArr. unfold kernel_mi, kernel_mi_local. rewrite EI. reflexivity.
  - intros q0 X Y X' -> L. cbn [snd map]. rewrite fl_of_VArr. unfold kernel_mi, kernel_mi_local.
    rewrite fmi_init_F2 by (rewrite L; apply (fmi_init_len _ _ _ _ _ EI)). reflexivity.
Qed.

Theorem C90_kernel_cmi : forall E a off nm vars cond K d q n m o' g vs,
  kernel_cmi_object E a off nm vars cond = Ok (K, d) ->
  run_op never K pd bd (OpTest (NInt n) m) (fresh d q) = (o', inr (ATest g vs)) ->
  exists X Y Z, fcmi_init nm vars cond = Ok ([X; Y], Z) /\ length vs = Z.to_nat n /\ o_data o' = d /\ o_flag o' = FOff /\
    reported (kernel_cmi E a off nm vars cond) = Some g /\
    List.Forall (fun v => exists X', redrawn m X X' /\ reported (kernel_cmi E a None false [F2 X'; F2 Y] (F2 Z)) = Some v) vs.
Proof.
  intros E a off nm vars cond K d q n m o' g vs O RO. unfold kernel_cmi_object in O. destruct (match off with None | Some 0%Z => Ok tt | _ => Raise ValueError end) as [u|e|] eqn:EO; try discriminate O. cbn [bind] in O.
  destruct (fcmi_init nm vars cond) as [[ws Z]|e|] eqn:EI; try discriminate O.
  cbn [bind fst snd] in O. unfold num_object in O. injection O as <- <-.
  apply (num_object_test ws _ (fun _ => kernel_cmi E a off nm vars cond) (fun _ d => kernel_cmi E a None false (map F2 d) (F2 Z))) in RO.
  - destruct RO as (X & Y & -> & A & B & C & ps & pg & D1 & D2 & D3). exists X, Y, Z. split; [reflexivity|]. do 3 (split; [assumption|]). split; [exact D2|].
    clear -D3. induction D3; constructor; assumption.
  - intros; cbn; lia.
  - intros q0. cbn [snd]. rewrite fl_of_VArr. unfold kernel_cmi, kernel_cmi_local. rewrite EO, EI. reflexivity.
  - intros q0 X Y X' -> L. cbn [snd map]. rewrite fl_of_VArr. unfold kernel_cmi, kernel_cmi_local. destruct (fcmi_init_len _ _ _ _ _ _ EI) as [L1 L2].
    rewrite fcmi_init_F2 by congruence. reflexivity.
Qed.

Theorem C90_ksg_mi : forall E a off nm vars K d q n m o' g vs,
  ksg_mi_object E a off nm vars = Ok (K, d) ->
  run_op never K pd bd (OpTest (NInt n) m) (fresh d q) = (o', inr (ATest g vs)) ->
  exists X Y, fmi_init off nm vars = Ok [X; Y] /\ length vs = Z.to_nat n /\ o_data o' = d /\ o_flag o' = FOff /\
  exists ps pg, successive q pg ps /\ reported (ksg_mi (after E pg) a off nm vars) = Some g /\
    Forall2 (fun p v => exists X', redrawn m X X' /\ reported (ksg_mi (after E p) a (Some 0%Z) false [F2 X'; F2 Y]) = Some v) ps vs.
Proof.
  intros E a off nm vars K d q n m o' g vs O RO. unfold ksg_mi_object in O. destruct (fmi_init off nm vars) as [ws|e|] eqn:EI; try discriminate O.
  cbn [bind] in O. destruct (id_ok a) eqn:ID; [|discriminate O]. unfold num_object in O. cbn [negb] in O. injection O as <- <-.
  apply (num_object_test ws _ (fun p => ksg_mi (after E p) a off nm vars) (fun p d => ksg_mi (after E p) a (Some 0%Z) false (map F2 d))) in RO.
  - destruct RO as (X & Y & -> & A & B & C & D). exists X, Y. split; [reflexivity|]. do 3 (split; [assumption|]). exact D.
  - intros; cbn; lia.
  - intros p. cbn [snd]. unfold ksg_mi, ksg_mi_local. rewrite EI, ID. cbn [bind negb].
    destruct (with_noise _ _ _); [|reflexivity|reflexivity]. cbn [bind]. destruct (int_k a); [|reflexivity|reflexivity]. cbn [bind]. apply fl_of_VArr.
  - intros p X Y X' -> L. cbn [snd map]. unfold ksg_mi, ksg_mi_local.
    rewrite fmi_init_F2 by (rewrite L; apply (fmi_init_len _ _ _ _ _ EI)). rewrite ID. cbn [bind negb].
    destruct (with_noise _ _ _); [|reflexivity|reflexivity]. cbn [bind]. destruct (int_k a); [|reflexivity|reflexivity]. cbn [bind]. apply fl_of_VArr.
Qed.

Theorem C90_ksg_cmi : forall E a off nm vars cond K d q n m o' g vs,
  ksg_cmi_object E a off nm vars cond = Ok (K, d) ->
  run_op never K pd bd (OpTest (NInt n) m) (fresh d q) = (o', inr (ATest g vs)) ->
  exists X Y Z, fcmi_init nm vars cond = Ok ([X; Y], Z) /\ length vs = Z.to_nat n /\ o_data o' = d /\ o_flag o' = FOff /\
  exists ps pg, successive q pg ps /\ reported (ksg_cmi (after E pg) a off nm vars cond) = Some g /\
    Forall2 (fun p v => exists X', redrawn m X X' /\ reported (ksg_cmi (after E p) a None false [F2 X'; F2 Y] (F2 Z)) = Some v) ps vs.
Proof.
  intros E a off nm vars cond K d q n m o' g vs O RO. unfold ksg_cmi_object in O. destruct (match off with None | Some 0%Z => Ok tt | _ => Raise ValueError end) as [u|e|] eqn:EO; try discriminate O. cbn [bind] in O.
  destruct (fcmi_init nm vars cond) as [[ws Z]|e|] eqn:EI; try discriminate O.
  cbn [bind fst snd] in O. destruct (id_ok a) eqn:ID; [|discriminate O]. unfold num_object in O. cbn [negb] in O. injection O as <- <-.
  apply (num_object_test ws _ (fun p => ksg_cmi (after E p) a off nm vars cond) (fun p d => ksg_cmi (after E p) a None false (map F2 d) (F2 Z))) in RO.
  - destruct RO as (X & Y & -> & A & B & C & D). exists X, Y, Z. split; [reflexivity|]. do 3 (split; [assumption|]). exact D.
  - intros; cbn; lia.
  - intros p. cbn [snd]. unfold ksg_cmi, ksg_cmi_local. rewrite EO, EI, ID. cbn [bind negb fst snd].
    destruct (cmi_with_noise _ _ _ _); [|reflexivity|reflexivity]. cbn [bind]. destruct (int_k a); [|reflexivity|reflexivity]. cbn [bind]. apply fl_of_VArr.
  - intros p X Y X' -> L. cbn [snd map]. unfold ksg_cmi, ksg_cmi_local. destruct (fcmi_init_len _ _ _ _ _ _ EI) as [L1 L2].
    rewrite fcmi_init_F2 by congruence. rewrite ID. cbn [bind negb fst snd].
    destruct (cmi_with_noise _ _ _ _); [|reflexivity|reflexivity]. cbn [bind]. destruct (int_k a); [|reflexivity|reflexivity]. cbn [bind]. apply fl_of_VArr.
Qed.

Theorem C90_renyi_tsallis_mi : forall f E a noise off nm vars K d q n m o' g vs,
  fam_mi_object f E a noise off nm vars = Ok (K, d) ->
  run_op never K pd bd (OpTest (NInt n) m) (fresh d q) = (o', inr (ATest g vs)) ->
  exists X Y, fmi_init off nm vars = Ok [X; Y] /\ length vs = Z.to_nat n /\ o_data o' = d /\ o_flag o' = FOff /\
  exists ps pg, successive q pg ps /\ reported (fam_mi f (after E pg) a noise off nm vars) = Some g /\
    Forall2 (fun p v => exists X', redrawn m X X' /\ reported (fam_mi f (after E p) a noise (Some 0%Z) false [F2 X'; F2 Y]) = Some v) ps vs.
Proof.
  intros f E a noise off nm vars K d q n m o' g vs O RO. unfold fam_mi_object in O. destruct (fmi_init off nm vars) as [ws|e|] eqn:EI; try discriminate O.
  cbn [bind] in O. destruct (e_check a) as [kq|e|] eqn:ID; try discriminate O. unfold num_object in O. cbn [bind] in O. injection O as <- <-.
  apply (num_object_test ws _ (fun p => fam_mi f (after E p) a noise off nm vars) (fun p d => fam_mi f (after E p) a noise (Some 0%Z) false (map F2 d))) in RO.
  - destruct RO as (X & Y & -> & A & B & C & D). exists X, Y. split; [reflexivity|]. do 3 (split; [assumption|]). exact D.
  - intros; cbn; lia.
  - intros p. cbn [snd]. unfold fam_mi. rewrite EI, ID. cbn [bind negb].
    destruct (with_noise _ _ _); [|reflexivity|reflexivity]. cbn [bind]. apply fl_of_VNum.
  - intros p X Y X' -> L. cbn [snd map]. unfold fam_mi.
    rewrite fmi_init_F2 by (rewrite L; apply (fmi_init_len _ _ _ _ _ EI)). rewrite ID. cbn [bind negb].
    destruct (with_noise _ _ _); [|reflexivity|reflexivity]. cbn [bind]. apply fl_of_VNum.
Qed.

Theorem C90_renyi_tsallis_cmi : forall f E a noise off nm vars cond K d q n m o' g vs,
  fam_cmi_object f E a noise off nm vars cond = Ok (K, d) ->
  run_op never K pd bd (OpTest (NInt n) m) (fresh d q) = (o', inr (ATest g vs)) ->
  exists X Y Z, fcmi_init nm vars cond = Ok ([X; Y], Z) /\ length vs = Z.to_nat n /\ o_data o' = d /\ o_flag o' = FOff /\
  exists ps pg, successive q pg ps /\ reported (fam_cmi f (after E pg) a noise off nm vars cond) = Some g /\
    Forall2 (fun p v => exists X', redrawn m X X' /\ reported (fam_cmi f (after E p) a noise None false [F2 X'; F2 Y] (F2 Z)) = Some v) ps vs.
Proof.
  intros f E a noise off nm vars cond K d q n m o' g vs O RO. unfold fam_cmi_object in O. destruct (match off with None | Some 0%Z => Ok tt | _ => Raise ValueError end) as [u|e|] eqn:EO; try discriminate O. cbn [bind] in O.
  destruct (fcmi_init nm vars cond) as [[ws Z]|e|] eqn:EI; try discriminate O.
  cbn [bind fst snd] in O. destruct (e_check a) as [kq|e|] eqn:ID; try discriminate O. unfold num_object in O. cbn [bind] in O. injection O as <- <-.
  apply (num_object_test ws _ (fun p => fam_cmi f (after E p) a noise off nm vars cond) (fun p d => fam_cmi f (after E p) a noise None false (map F2 d) (F2 Z))) in RO.
  - destruct RO as (X & Y & -> & A & B & C & D). exists X, Y, Z. split; [reflexivity|]. do 3 (split; [assumption|]). exact D.
  - intros; cbn; lia.
  - intros p. cbn [snd]. unfold fam_cmi. rewrite EO, EI, ID. cbn [bind negb fst snd].
    destruct (with_noise _ _ _); [|reflexivity|reflexivity]. cbn [bind]. apply fl_of_VNum.
  - intros p X Y X' -> L. cbn [snd map]. unfold fam_cmi. destruct (fcmi_init_len _ _ _ _ _ _ EI) as [L1 L2].
    rewrite fcmi_init_F2 by congruence. rewrite ID. cbn [bind negb fst snd].
    destruct (with_noise _ _ _); [|reflexivity|reflexivity]. cbn [bind]. apply fl_of_VNum.
Qed.

(** transfer entropy: the source histories are the rows drawn *)
Theorem C90_kernel_te : forall E k source dest a data q n m o' g vs,
  run_op never (kernel_te_klass pd bd E k source dest a) pd bd (OpTest (NInt n) m) (fresh data q) = (o', inr (ATest g vs)) ->
  length vs = Z.to_nat n /\ o_data o' = data /\ o_flag o' = FOff /\ reported (kernel_te E k source dest a RNone) = Some g /\
  List.Forall (fun v => exists rnd, legal_rows m (source_rows source dest a) rnd /\ reported (kernel_te E k source dest a rnd) = Some v) vs.
Proof.
  intros E k source dest a data q n m o' g vs RO.
  destruct (num_te_test pd bd _ 0%nat _ LG data q n m o' g vs RO) as (A & B & C & qs & qg & D1 & D2 & D3).
  do 3 (split; [assumption|]). rewrite fl_of_VArr in D2. split; [exact D2|].
  clear -D3. induction D3 as [|p v ps vs (rnd & L & F) D IH]; constructor; [|exact IH]. rewrite fl_of_VArr in F. exists rnd. split; assumption.
Qed.
Theorem C90_ksg_te : forall E k source dest a data q n m o' g vs,
  run_op never (ksg_te_klass pd bd E k source dest a) pd bd (OpTest (NInt n) m) (fresh data q) = (o', inr (ATest g vs)) ->
  length vs = Z.to_nat n /\ o_data o' = data /\ o_flag o' = FOff /\
  exists ps pg, successive q pg ps /\ reported (ksg_te (after E pg) k source dest a RNone) = Some g /\
    Forall2 (fun p v => exists rnd, legal_rows m (source_rows source dest a) rnd /\ reported (ksg_te (after E p) k source dest a rnd) = Some v) ps vs.
Proof.
  intros E k source dest a data q n m o' g vs RO.
  destruct (num_te_test pd bd _ _ _ LG data q n m o' g vs RO) as (A & B & C & qs & qg & D1 & D2 & D3).
  do 3 (split; [assumption|]). exists qs, qg. split; [exact D1|]. rewrite fl_of_VArr in D2. split; [exact D2|].
  clear -D3. induction D3 as [|p v ps vs (rnd & L & F) D IH]; constructor; [|exact IH]. rewrite fl_of_VArr in F. exists rnd. split; assumption.
Qed.
Theorem C90_renyi_tsallis_te : forall f E e noise source dest a data q n m o' g vs,
  run_op never (fam_te_klass pd bd f E e noise source dest a) pd bd (OpTest (NInt n) m) (fresh data q) = (o', inr (ATest g vs)) ->
  length vs = Z.to_nat n /\ o_data o' = data /\ o_flag o' = FOff /\
  exists ps pg, successive q pg ps /\ reported (fam_te f (after E pg) e noise source dest a RNone) = Some g /\
    Forall2 (fun p v => exists rnd, legal_rows m (source_rows source dest a) rnd /\ reported (fam_te f (after E p) e noise source dest a rnd) = Some v) ps vs.
Proof.
  intros f E e noise source dest a data q n m o' g vs RO.
  destruct (num_te_test pd bd _ _ _ LG data q n m o' g vs RO) as (A & B & C & qs & qg & D1 & D2 & D3).
  do 3 (split; [assumption|]). exists qs, qg. split; [exact D1|]. rewrite fl_of_VNum in D2. split; [exact D2|].
  clear -D3. induction D3 as [|p v ps vs (rnd & L & F) D IH]; constructor; [|exact IH]. rewrite fl_of_VNum in F. exists rnd. split; assumption.
Qed.
End API.

(** the rows drawn from are the rows of the embedding *)
Theorem C90_source_rows : forall source dest a sd j dp m1 m2,
  fte_init (rows2d source) (rows2d dest) (a_prop a) (a_offset a) (a_step a) = Ok sd ->
  fte_spaces (fst sd) (snd sd) (a_src a) (a_dest a) (a_step a) RNone = Ok (j, dp, m1, m2) ->
  length j = source_rows source dest a.
Proof.
  intros source dest a sd j dp m1 m2 EI ES. unfold source_rows. rewrite EI. unfold fte_spaces in ES.
  destruct (pos_int (a_src a)) as [l|]; [|discriminate]. destruct (pos_int (a_dest a)) as [k|]; [|discriminate]. destruct (pos_int (a_step a)) as [s|]; [|discriminate].
  destruct (Nat.leb _ _); [discriminate|]. unfold fslices in ES.
  destruct (mapM (fgather (fst sd)) _) as [sh|e|] eqn:E1; try discriminate. cbn [bind] in ES.
  destruct (mapM (fgather (snd sd)) _) as [dh|e|] eqn:E2; try discriminate. cbn [bind] in ES.
  destruct (mapM (fgather (snd sd)) (map _ _)) as [df|e|] eqn:E3; try discriminate. cbn [bind] in ES.
  assert (J : j = fhcat [sh; dh; df]) by congruence. rewrite J. unfold fhcat, rows_of. cbn [hd]. rewrite !map_length, seq_length.
  rewrite (mapM_length _ _ _ E1). unfold hist_idx. rewrite map_length. reflexivity.
Qed.

(** the conditional classes evaluate the observed data again and again *)
Theorem C90_kernel_cte_refuted : forall pd bd E k source dest cond a data q n m o' g vs,
  run_op never (kernel_cte_klass E k source dest cond a) pd bd (OpTest (NInt n) m) (fresh data q) = (o', inr (ATest g vs)) ->
  reported (kernel_cte E k source dest cond a) = Some g /\ vs = repeat g (Z.to_nat n).
Proof.
  intros pd bd E k source dest cond a data q n m o' g vs RO. destruct (num_cte_test _ _ _ _ _ _ _ _ _ _ _ RO) as (L & qs & qg & A & B).
  rewrite fl_of_VArr in A. split; [exact A|]. rewrite <- L. clear -A B. induction B as [|p v ps vs F B IH]; [reflexivity|].
  rewrite fl_of_VArr in F. cbn [length repeat]. f_equal; [|exact IH]. unfold kernel_cte in *. congruence.
Qed.
Theorem C90_ksg_cte_refuted : forall pd bd E k source dest cond a data q n m o' g vs,
  run_op never (ksg_cte_klass E k source dest cond a) pd bd (OpTest (NInt n) m) (fresh data q) = (o', inr (ATest g vs)) ->
  length vs = Z.to_nat n /\ (exists p, reported (ksg_cte (after E p) k source dest cond a) = Some g) /\
  List.Forall (fun v => exists p, reported (ksg_cte (after E p) k source dest cond a) = Some v) vs.
Proof.
  intros pd bd E k source dest cond a data q n m o' g vs RO. destruct (num_cte_test _ _ _ _ _ _ _ _ _ _ _ RO) as (L & qs & qg & A & B).
  rewrite fl_of_VArr in A. split; [exact L|]. split; [exists qg; exact A|]. clear -B. induction B as [|p v ps vs F B IH]; constructor; [|exact IH].
  rewrite fl_of_VArr in F. exists p. exact F.
Qed.
Theorem C90_renyi_tsallis_cte_refuted : forall pd bd f E e noise source dest cond a data q n m o' g vs,
  run_op never (fam_cte_klass f E e noise source dest cond a) pd bd (OpTest (NInt n) m) (fresh data q) = (o', inr (ATest g vs)) ->
  length vs = Z.to_nat n /\ (exists p, reported (fam_cte f (after E p) e noise source dest cond a) = Some g) /\
  List.Forall (fun v => exists p, reported (fam_cte f (after E p) e noise source dest cond a) = Some v) vs.
Proof.
  intros pd bd f E e noise source dest cond a data q n m o' g vs RO. destruct (num_cte_test _ _ _ _ _ _ _ _ _ _ _ RO) as (L & qs & qg & A & B).
  rewrite fl_of_VNum in A. split; [exact L|]. split; [exists qg; exact A|]. clear -B. induction B as [|p v ps vs F B IH]; constructor; [|exact IH].
  rewrite fl_of_VNum in F. exists p. exact F.
Qed.

(** ** The tests complete when no evaluation raises *)
Section Progress.
Variables (X Y : list pt) (calc : list (list pt) -> nat -> nat * res value).
Variables (pd bd : nat -> nat -> list nat).
Hypothesis LG : legal pd bd.
Let K := klass_num_mi [X; Y] calc.
Let ids := [row_ids (length X); row_ids (length Y)].

Lemma num_surrogates_run m n o : o_orig o = Some ids ->
  (forall X' p, redrawn m X X' -> fl_of (snd (calc [X'; Y] p)) <> None) ->
  exists o' vs, repeatM n (mi_surrogate never K pd bd m) o = (o', inr vs) /\ o_orig o' = Some ids /\ o_glob o' = o_glob o /\ o_flag o' = o_flag o /\ length vs = n.
Proof.
  intros EO HC. revert o EO. induction n as [|n IH]; intros o EO; cbn [repeatM].
  - exists o, []. unfold ret. auto.
  - assert (S1 : exists o1 v, mi_surrogate never K pd bd m o = (o1, inr v) /\ o_orig o1 = Some ids /\ o_glob o1 = o_glob o /\ o_flag o1 = o_flag o).
    { unfold mi_surrogate at 1, mbind, read. rewrite EO. unfold ids at 1. unfold resample, MObj.upd, run_calc, never.
      cbn [o_data o_flag o_rng tick set_data set_rng]. unfold K. cbn [klass_num_mi k_calc combine map fst snd].
      assert (AL : arr_len (row_ids (length X)) = length X) by (unfold row_ids; cbn; rewrite map_length, seq_length; reflexivity).
      rewrite AL. fold (PObj2.draw pd bd m). destruct (draw_redrawn X pd bd LG m (o_rng o)) as [RA RD]. rewrite RA, rows_at_ids.
      specialize (HC _ (S (o_rng o)) RD). destruct (calc _ _) as [q1 v1]. cbn [snd] in HC. unfold fl_of in HC. destruct (of_res v1) as [e|pv]; [congruence|].
      unfold ret. eexists _, _. split; [reflexivity|]. cbn. auto. }
    destruct S1 as (o1 & v & E1 & A1 & A2 & A3). destruct (IH o1 A1) as (o2 & vs & E2 & B1 & B2 & B3 & B4).
    exists o2, (v :: vs). unfold mbind. rewrite E1, E2. unfold ret. cbn [length]. repeat split; congruence.
Qed.

Lemma num_test_run q n m : (2 <= n)%Z -> m <> MUnknown ->
  (forall X' p, redrawn m X X' -> fl_of (snd (calc [X'; Y] p)) <> None) ->
  exists o' g vs, run_op never K pd bd (OpTest (NInt n) m) (fresh ids q) = (o', inr (ATest g vs)).
Proof.
  intros Hn Hm HC.
  destruct (num_surrogates_run m (Z.to_nat n) (set_orig (fresh ids q) (Some ids)) eq_refl HC) as (o1 & vs & E1 & A1 & A2 & A3 & A4).
  assert (RX : redrawn m X X) by (destruct m; cbn; [apply Permutation_refl|split; [reflexivity|apply incl_refl]|split; [reflexivity|apply incl_refl]]).
  assert (E2 : statistical_test_values never K pd bd (NInt n) m (fresh ids q) = (set_data o1 ids, inr vs)).
  { unfold statistical_test_values. cbn [pos_int]. destruct (Z.ltb_spec 0 n); [|lia].
    unfold K at 1. cbn [klass_num_mi k_te]. unfold mbind at 1, read. cbn [fresh o_data length Nat.eqb ids].
    unfold test_mi. destruct m; [| |congruence]; unfold mbind, MObj.upd; cbn [fresh o_data]; fold ids; rewrite E1, A1; reflexivity. }
  pose proof (HC X (o_rng o1) RX) as G. unfold fl_of in G.
  assert (E3 : exists o2 g, global_val never K (set_data o1 ids) = (o2, inr g)).
  { unfold global_val, mbind, read. cbn [set_data o_glob]. rewrite A2. cbn [set_orig fresh o_glob].
    unfold calculate, mbind, run_calc, never. cbn [o_data o_flag o_rng tick set_data].
    unfold K. cbn [klass_num_mi k_calc combine map fst snd ids]. rewrite !rows_at_ids.
    destruct (calc [X; Y] (o_rng o1)) as [q1 v1]. cbn [snd] in G. destruct (of_res v1) as [e|pv] eqn:EV; [congruence|].
    pose proof (of_res_not_bad _ _ EV) as NB. destruct pv as [x|ls|]; [| |congruence]; cbn; eexists _, _; reflexivity. }
  destruct E3 as (o2 & g & E3). exists o2, g, vs. cbn [run_op]. unfold mmap, statistical_test, mbind. rewrite E2, E3, A4.
  destruct (Nat.ltb_spec (Z.to_nat n) 2); [lia|reflexivity].
Qed.
End Progress.

(** the kernel MI test completes for every order or selection of rows on which the estimate itself is defined *)
Theorem C90_kernel_mi_completes : forall pd bd E a off nm vars K d X Y q n m, legal pd bd ->
  kernel_mi_object E a off nm vars = Ok (K, d) -> fmi_init off nm vars = Ok [X; Y] -> (2 <= n)%Z -> m <> MUnknown ->
  (forall X', redrawn m X X' -> reported (kernel_mi E a (Some 0%Z) false [F2 X'; F2 Y]) <> None) ->
  exists o' g vs, run_op never K pd bd (OpTest (NInt n) m) (fresh d q) = (o', inr (ATest g vs)).
Proof.
  intros pd bd E a off nm vars K d X Y q n m LG O EI Hn Hm HC. unfold kernel_mi_object in O. rewrite EI in O. cbn [bind] in O.
  unfold num_object in O. injection O as <- <-. apply num_test_run; auto.
  intros X' p R. cbn [snd]. rewrite fl_of_VArr. specialize (HC X' R). unfold kernel_mi, kernel_mi_local in HC.
  rewrite fmi_init_F2 in HC by (rewrite (redrawn_len _ _ _ R); apply (fmi_init_len _ _ _ _ _ EI)). exact HC.
Qed.
(** box kernel: for tables of numbers it always completes, with finite values *)
Theorem C90_box_kernel_completes : forall pd bd E h w b (X Y : list pt) r d1 d2 q n m, legal pd bd ->
  0 < h -> (0 < cpus E)%Z -> workers_ok w -> valid_base b -> (0 < r)%nat -> SpecKern.table r d1 X -> SpecKern.table r d2 Y ->
  (2 <= n)%Z -> m <> MUnknown ->
  exists K d o' g vs, kernel_mi_object E (box_args h w b) (Some 0%Z) false [F2 X; F2 Y] = Ok (K, d) /\
    run_op never K pd bd (OpTest (NInt n) m) (fresh d q) = (o', inr (ATest (Fin g) vs)).
Proof.
  intros pd bd E h w b X Y r d1 d2 q n m LG Hh HC HW HV Hr [LX FX] [LY FY] Hn Hm.
  assert (EI : fmi_init (Some 0%Z) false [F2 X; F2 Y] = Ok [X; Y]) by (apply fmi_init_F2; congruence).
  assert (VAL : forall X', length X' = r -> List.Forall (fun p => length p = d1) X' ->
     exists x, kernel_mi E (box_args h w b) (Some 0%Z) false [F2 X'; F2 Y] = Ok x).
  { intros X' L F. eexists. apply (kernel_mi_ok E h w b r [d1; d2]); auto. cbn. constructor; [split; assumption|constructor; [split; assumption|constructor]]. }
  assert (O : exists K d, kernel_mi_object E (box_args h w b) (Some 0%Z) false [F2 X; F2 Y] = Ok (K, d)).
  { unfold kernel_mi_object. rewrite EI. cbn [bind]. unfold num_object. eexists _, _. reflexivity. }
  destruct O as (K & d & O). destruct (C90_kernel_mi_completes pd bd E _ _ _ _ K d X Y q n m LG O EI Hn Hm) as (o' & g & vs & RO).
  - intros X' R. destruct (VAL X') as (x & ->); [rewrite (redrawn_len _ _ _ R); exact LX| |discriminate].
    rewrite Forall_forall in FX |- *. intros p Hp. apply FX. destruct m; cbn in R; [apply (Permutation_in _ (Permutation_sym R)); exact Hp|apply R; exact Hp|apply R; exact Hp].
  - destruct (C90_kernel_mi pd bd LG E _ _ _ _ K d q n m o' g vs O RO) as (X0 & Y0 & E0 & _ & _ & _ & G & _).
    destruct (VAL X LX FX) as (x & EX). rewrite EX in G. cbn in G. injection G as <-. exists K, d, o', x, vs. split; assumption.
Qed.
Example C90_example : legal swap_draw id_draw /\ SpecKern.table 3 1 [[0]; [1]; [5]] /\ SpecKern.table 3 2 [[0; 1]; [2; 3]; [4; 4]] /\ workers_ok (-1).
Proof. split; [apply ex_legal|]. split; [split; repeat constructor|]. split; [split; repeat constructor|]. right. reflexivity. Qed.
