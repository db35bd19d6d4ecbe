(** Proofs: memory.  Renyi, Tsallis and Kozachenko-Leonenko. *)
From Coq Require Import Reals List ZArith Arith Bool Lia Lra.
From Verif Require Import Res RSum Spec SpecBase MBase MTE MPct MNorm MEst MCont MKnn MFam MHeap SpecHeap PHeap PHeap2 PHeap3 PHeap4.
Import ListNotations.
Local Open Scope R_scope.

Lemma fam_mi_calc_meets f E a noise l h : 0 <= noise -> Forall (nd_ok h) l ->
  meets h (p_fam_mi_calc f E a noise l)
    (let* data := with_noise noise (draw E) (map (fun b => rows2d (contents h b)) l) in MFam.gen_mi (fam_entropy f E a) data) same.
Proof.
  intros HL OK. apply meets0_end. unfold p_fam_mi_calc.
  destruct (forp_spec _ copy_spec l h h [] [] (st_nil h) OK) as (h1 & d & E1 & X1 & L1 & S1). cbn [app] in S1.
  eapply meets0_step; [exact E1|]. destruct (Req_EM_T noise 0) as [Z|NZ].
  - rewrite (with_noise_0 _ _ _ Z). eapply meets0_step; [reflexivity|]. eapply meets0_step; [apply forp_load|].
    rewrite (st_contents _ _ _ _ S1), map_map. cbn [bind]. apply meets0_val. apply S1.
  - rewrite (with_noise_pos _ _ _ HL NZ).
    destruct (go_spec noise (draw E) (fun _ => false) h HL d [] [] (map (contents h) l) 0 h1 eq_refl) as (h2 & d2 & E2 & L2 & S2).
    { rewrite map_length. exact L1. } { exact S1. }
    cbn [app] in S2. eapply meets0_step; [etransitivity; [eapply seqp_ok; exact E2|reflexivity]|]. eapply meets0_step; [apply forp_load|].
    rewrite (st_contents _ _ _ _ S2), noise_list_rows, map_map. cbn [bind]. apply meets0_val. apply S2.
Qed.
Lemma fam_mi_calc_preserves f E a noise l h : noise < 0 -> Forall (nd_ok h) l -> preserves (p_fam_mi_calc f E a noise l) h.
Proof.
  intros HN OK. unfold p_fam_mi_calc.
  destruct (forp_spec _ copy_spec l h h [] [] (st_nil h) OK) as (h1 & d & E1 & X1 & L1 & S1).
  eapply preserves_step; [exact E1|exact X1|]. apply preserves_bind.
  - destruct (Req_EM_T noise 0); [apply quiet_preserves, quiet_lift|]. apply preserves_bind; [apply (go_preserves noise (draw E) (fun _ => false) HN)|].
    intros h' r _ _. apply quiet_preserves, quiet_lift.
  - intros h2 d2 _ _. apply quiet_preserves. apply quiet_seq; [apply quiet_forp; apply quiet_load|]. intros vs. apply quiet_lift.
Qed.
Lemma firstn_app_exact {A} (l r : list A) n : n = length l -> firstn n (l ++ r) = l.
Proof. intros ->. rewrite firstn_app, Nat.sub_diag, firstn_all, firstn_O, app_nil_r. reflexivity. Qed.
Lemma fam_cmi_calc_meets f E a noise isf l c h : 0 <= noise -> Forall (nd_ok h) l -> nd_ok h c ->
  meets h (p_fam_cmi_calc f E a noise isf l c)
    (let rows := map (fun b => rows2d (contents h b)) l in
     let* data := with_noise noise (draw E) (rows ++ [rows2d (contents h c)]) in
     MFam.gen_cmi (fam_entropy f E a) (firstn (length rows) data) (last data [])) same.
Proof.
  intros HL OK OC. apply meets0_end. unfold p_fam_cmi_calc.
  destruct (forp_spec _ copy_spec l h h [] [] (st_nil h) OK) as (h1 & d & E1 & X1 & L1 & S1). cbn [app] in S1.
  destruct (copy_spec h h1 d _ c S1) as (h2 & w & E2 & X2 & S2). rewrite (contents_ext _ _ _ OC X1) in S2.
  eapply meets0_step; [exact E1|]. eapply meets0_step; [exact E2|]. rewrite map_length, L1.
  assert (ER : map rows2d (map (contents h) l ++ [contents h c]) = map (fun b => rows2d (contents h b)) l ++ [rows2d (contents h c)]).
  { rewrite map_app, map_map. reflexivity. }
  destruct (Req_EM_T noise 0) as [Z|NZ].
  - rewrite (with_noise_0 _ _ _ Z). eapply meets0_step; [reflexivity|]. eapply meets0_step; [apply forp_load|].
    rewrite (st_contents _ _ _ _ S2), ER. cbn [bind]. apply meets0_val. apply S2.
  - rewrite (with_noise_pos _ _ _ HL NZ).
    destruct (go_spec noise (draw E) isf h HL (d ++ [w]) [] [] (map (contents h) l ++ [contents h c]) 0 h2 eq_refl) as (h3 & d3 & E3 & L3 & S3).
    { rewrite !app_length, map_length. cbn. lia. } { exact S2. }
    cbn [app] in S3. eapply meets0_step; [exact E3|]. eapply meets0_step; [apply forp_load|].
    rewrite (st_contents _ _ _ _ S3), noise_list_rows, ER. cbn [bind]. apply meets0_val. apply S3.
Qed.
Lemma fam_cmi_calc_preserves f E a noise isf l c h : noise < 0 -> Forall (nd_ok h) l -> nd_ok h c -> preserves (p_fam_cmi_calc f E a noise isf l c) h.
Proof.
  intros HN OK OC. unfold p_fam_cmi_calc.
  destruct (forp_spec _ copy_spec l h h [] [] (st_nil h) OK) as (h1 & d & E1 & X1 & L1 & S1).
  destruct (copy_spec h h1 d _ c S1) as (h2 & w & E2 & X2 & S2).
  eapply preserves_step; [exact E1|exact X1|]. eapply preserves_step; [exact E2|exact X2|]. apply preserves_bind.
  - destruct (Req_EM_T noise 0); [apply quiet_preserves, quiet_lift|]. apply (go_preserves noise (draw E) isf HN).
  - intros h3 d3 _ _. apply quiet_preserves. apply quiet_seq; [apply quiet_forp; apply quiet_load|]. intros vs. apply quiet_lift.
Qed.

Lemma afloat_spec h0 h l vs a : st h0 h l vs -> exists h' b, astype_float a h = (h', Ok b) /\ ext h h' /\ st h0 h' (l ++ [b]) (vs ++ [contents h a]).
Proof. apply copy_spec. Qed.

Lemma fam_te_calc_meets f E e noise a rnd s d h : 0 <= noise -> nd_ok h s -> nd_ok h d ->
  meets h (p_fam_te_calc f E e noise a rnd (s, d))
    (let* ds := with_noise noise (draw E) [rows2d (contents h s); rows2d (contents h d)] in
     let* sp := fte_spaces (nth 0 ds []) (nth 1 ds []) (a_src a) (a_dest a) (a_step a) rnd in
     let '(j, dp, m1, m2) := sp in MFam.gen_te (fam_entropy f E e) j dp m1 m2) same.
Proof.
  intros HL OS OD. apply meets0_end. unfold p_fam_te_calc. cbn [fst snd].
  destruct (copy_spec h h [] [] s (st_nil h)) as (h1 & ws & E1 & X1 & S1). cbn [app] in S1.
  destruct (copy_spec h h1 _ _ d S1) as (h2 & wd & E2 & X2 & S2). rewrite (contents_ext _ _ _ OD X1) in S2. cbn [app] in S2.
  eapply meets0_step; [exact E1|]. eapply meets0_step; [exact E2|]. pose proof (st_contents _ _ _ _ S2) as CC. cbn [map] in CC. injection CC as CS CD.
  destruct (Req_EM_T noise 0) as [Z|NZ].
  - rewrite (with_noise_0 _ _ _ Z). eapply meets0_step; [reflexivity|]. eapply meets0_step; [reflexivity|]. eapply meets0_step; [reflexivity|].
    cbn [fst snd]. rewrite CS, CD. cbn [bind nth].
    apply meets0_lift; [apply S2|]. intros [[[j dp] m1] m2]. apply meets0_val. apply S2.
  - rewrite (with_noise_pos _ _ _ HL NZ).
    destruct (afloat_spec h h2 _ _ ws S2) as (h3 & fs & E3 & X3 & S3). cbn [app] in S3. rewrite CS in S3.
    destruct (afloat_spec h h3 _ _ wd S3) as (h4 & fd & E4 & X4 & S4). cbn [app] in S4.
    assert (CD3 : contents h3 wd = contents h d). { pose proof (st_contents _ _ _ _ S3) as CC. cbn [map] in CC. injection CC as _ CC _. exact CC. }
    rewrite CD3 in S4.
    destruct (st_iadd_all noise (draw E) 0 h h4 [ws; wd] fs [fd] [contents h s; contents h d] (contents h s) [contents h d] HL S4 eq_refl) as (h5 & E5 & S5). cbn [app] in S5.
    destruct (st_iadd_all noise (draw E) (0 + fsize (contents h s)) h h5 [ws; wd; fs] fd [] [contents h s; contents h d; noise_farr noise (draw E) 0 (contents h s)] (contents h d) [] HL S5 eq_refl) as (h6 & E6 & S6).
    cbn [app] in S6. eapply meets0_step; [rewrite (seqp_ok _ _ _ _ _ E3), (seqp_ok _ _ _ _ _ E4), (seqp_ok _ _ _ _ _ E5), (seqp_ok _ _ _ _ _ E6); reflexivity|].
    pose proof (st_contents _ _ _ _ S6) as CC. cbn [map] in CC. injection CC as _ _ CS6 CD6.
    eapply meets0_step; [reflexivity|]. eapply meets0_step; [reflexivity|]. cbn [fst snd]. rewrite CS6, CD6. cbn [bind nth noise_vars]. rewrite !rows2d_noise, size_rows2d.
    apply meets0_lift; [apply S6|]. intros [[[j dp] m1] m2]. apply meets0_val. apply S6.
Qed.
Lemma alloc_preserves v h : preserves (alloc v) h.
Proof. destruct (alloc_spec v h) as (buf & a & E & _). exists [buf]. rewrite E. reflexivity. Qed.
Lemma afloat_preserves a h : preserves (astype_float a) h.
Proof. apply (alloc_preserves (contents h a) h). Qed.
Lemma fam_te_calc_preserves f E e noise a rnd s d h : noise < 0 -> preserves (p_fam_te_calc f E e noise a rnd (s, d)) h.
Proof.
  intros HN. unfold p_fam_te_calc. cbn [fst snd].
  apply preserves_bind; [apply (afloat_preserves s)|]. intros h1 ws _ _. apply preserves_bind; [apply (afloat_preserves d)|]. intros h2 wd _ _.
  apply preserves_bind.
  - destruct (Req_EM_T noise 0); [apply quiet_preserves, quiet_lift|].
    apply preserves_bind; [apply afloat_preserves|]. intros h3 fs _ _. apply preserves_bind; [apply afloat_preserves|]. intros h4 fd _ _.
    apply quiet_preserves. apply quiet_seq; [apply quiet_all; exact HN|]. intros p. apply quiet_seq; [apply quiet_all; exact HN|]. intros _. apply quiet_lift.
  - intros h3 r _ _. apply quiet_preserves. do 2 (apply quiet_seq; [apply quiet_load|intros ?]). apply quiet_seq; [apply quiet_lift|]. intros [[[j dp] m1] m2]. apply quiet_lift.
Qed.
Lemma fam_cte_calc_meets f E e noise a s d c h : 0 <= noise -> nd_ok h s -> nd_ok h d -> nd_ok h c ->
  meets h (p_fam_cte_calc f E e noise a (s, d, c))
    (let* ds := with_noise noise (draw E) [rows2d (contents h s); rows2d (contents h d); rows2d (contents h c)] in
     let* sp := fcte_spaces (nth 0 ds []) (nth 1 ds []) (nth 2 ds []) (a_src a) (a_dest a) (a_cond a) (a_step a) in
     let '(j, dp, m1, m2) := sp in MFam.gen_te (fam_entropy f E e) j dp m1 m2) same.
Proof.
  intros HL OS OD OC. apply meets0_end. unfold p_fam_cte_calc.
  destruct (copy_spec h h [] [] s (st_nil h)) as (h1 & ws & E1 & X1 & S1). cbn [app] in S1.
  destruct (copy_spec h h1 _ _ d S1) as (h2 & wd & E2 & X2 & S2). rewrite (contents_ext _ _ _ OD X1) in S2. cbn [app] in S2.
  destruct (copy_spec h h2 _ _ c S2) as (h3 & wc & E3 & X3 & S3). rewrite (contents_ext _ _ _ OC (ext_trans _ _ _ X1 X2)) in S3. cbn [app] in S3.
  eapply meets0_step; [exact E1|]. eapply meets0_step; [exact E2|]. eapply meets0_step; [exact E3|].
  pose proof (st_contents _ _ _ _ S3) as CC. cbn [map] in CC. injection CC as CS CD CW.
  set (vs := contents h s) in *. set (vd := contents h d) in *. set (vc := contents h c) in *.
  destruct (Req_EM_T noise 0) as [Z|NZ].
  - rewrite (with_noise_0 _ _ _ Z). eapply meets0_step; [reflexivity|]. do 3 (eapply meets0_step; [reflexivity|]).
    rewrite CS, CD, CW. cbn [bind nth].
    apply meets0_lift; [apply S3|]. intros [[[j dp] m1] m2]. apply meets0_val. apply S3.
  - rewrite (with_noise_pos _ _ _ HL NZ). set (z := draw E).
    destruct (afloat_spec h h3 _ _ ws S3) as (h4 & fs & E4 & X4 & S4). cbn [app] in S4. rewrite CS in S4.
    destruct (afloat_spec h h4 _ _ wd S4) as (h5 & fd & E5 & X5 & S5). cbn [app] in S5.
    assert (CD4 : contents h4 wd = vd). { pose proof (st_contents _ _ _ _ S4) as CC. cbn [map] in CC. injection CC as _ CC _ _. exact CC. }
    rewrite CD4 in S5.
    destruct (afloat_spec h h5 _ _ wc S5) as (h6 & fc & E6 & X6 & S6). cbn [app] in S6.
    assert (CD5 : contents h5 wc = vc). { pose proof (st_contents _ _ _ _ S5) as CC. cbn [map] in CC. injection CC as _ _ CC _ _. exact CC. }
    rewrite CD5 in S6.
    destruct (st_iadd_all noise z 0 h h6 [ws; wd; wc] fs [fd; fc] [vs; vd; vc] vs [vd; vc] HL S6 eq_refl) as (h7 & E7 & S7). cbn [app] in S7.
    destruct (st_iadd_all noise z (0 + fsize vs) h h7 [ws; wd; wc; fs] fd [fc] [vs; vd; vc; noise_farr noise z 0 vs] vd [vc] HL S7 eq_refl) as (h8 & E8 & S8). cbn [app] in S8.
    destruct (st_iadd_all noise z (0 + fsize vs + fsize vd) h h8 [ws; wd; wc; fs; fd] fc [] [vs; vd; vc; noise_farr noise z 0 vs; noise_farr noise z (0 + fsize vs) vd] vc [] HL S8 eq_refl) as (h9 & E9 & S9).
    cbn [app] in S9. eapply meets0_step.
    { rewrite (seqp_ok _ _ _ _ _ E4), (seqp_ok _ _ _ _ _ E5), (seqp_ok _ _ _ _ _ E6), (seqp_ok _ _ _ _ _ E7), (seqp_ok _ _ _ _ _ E8), (seqp_ok _ _ _ _ _ E9); reflexivity. }
    pose proof (st_contents _ _ _ _ S9) as CC. cbn [map] in CC. injection CC as _ _ _ CS9 CD9 CC9.
    do 3 (eapply meets0_step; [reflexivity|]). rewrite CS9, CD9, CC9. cbn [bind nth noise_vars]. rewrite !rows2d_noise, !size_rows2d.
    apply meets0_lift; [apply S9|]. intros [[[j dp] m1] m2]. apply meets0_val. apply S9.
Qed.
Lemma fam_cte_calc_preserves f E e noise a s d c h : noise < 0 -> preserves (p_fam_cte_calc f E e noise a (s, d, c)) h.
Proof.
  intros HN. unfold p_fam_cte_calc.
  apply preserves_bind; [apply (afloat_preserves s)|]. intros h1 ws _ _. apply preserves_bind; [apply (afloat_preserves d)|]. intros h2 wd _ _.
  apply preserves_bind; [apply (afloat_preserves c)|]. intros h3 wc _ _.
  apply preserves_bind.
  - destruct (Req_EM_T noise 0); [apply quiet_preserves, quiet_lift|].
    do 3 (apply preserves_bind; [apply afloat_preserves|]; intros ? ? _ _).
    apply quiet_preserves. do 3 (apply quiet_seq; [apply quiet_all; exact HN|]; intros ?). apply quiet_lift.
  - intros h4 [[r1 r2] r3] _ _. apply quiet_preserves. do 3 (apply quiet_seq; [apply quiet_load|intros ?]). apply quiet_seq; [apply quiet_lift|]. intros [[[j dp] m1] m2]. apply quiet_lift.
Qed.

(** ** Kozachenko-Leonenko *)
Lemma width_noise lvl z pos rows : width (noise_rows lvl z pos rows) = width rows.
Proof. destruct rows; [reflexivity|]. cbn. apply noise_row_length. Qed.
Lemma length_noise lvl z pos rows : length (noise_rows lvl z pos rows) = length rows.
Proof. revert pos. induction rows; intros pos; cbn; auto. Qed.
Definition kl_value (E : nenv) (a : nargs) (k : Z) (rows : list pt) : res (list R) :=
  let* vs := with_noise (n_noise a) (draw E) [rows] in kl_form E a k (hd [] vs).
Lemma kl_simple_meets E a k v h : 0 <= n_noise a -> nd_ok h v -> meets h (p_kl_simple E a k v) (kl_value E a k (rows2d (contents h v))) same.
Proof.
  intros HL OK. apply meets0_end. unfold p_kl_simple, kl_value.
  destruct (fcopy_spec h h [] [] v (st_nil h)) as (h1 & w & E1 & X1 & S1). cbn [app] in S1.
  eapply meets0_step; [exact E1|]. destruct (Req_EM_T (n_noise a) 0) as [Z|NZ].
  - rewrite (with_noise_0 _ _ _ Z). eapply meets0_step; [reflexivity|]. eapply meets0_step; [reflexivity|].
    pose proof (st_contents _ _ _ _ S1) as CC. cbn [map] in CC. injection CC as CC. rewrite CC. cbn [bind hd]. apply meets0_val. apply S1.
  - rewrite (with_noise_pos _ _ _ HL NZ). destruct (st_iadd_all (n_noise a) (draw E) 0 h h1 [] w [] [] (contents h v) [] HL S1 eq_refl) as (h2 & E2 & S2). cbn [app] in S2.
    eapply meets0_step; [exact E2|]. eapply meets0_step; [reflexivity|].
    pose proof (st_contents _ _ _ _ S2) as CC. cbn [map] in CC. injection CC as CC. rewrite CC, rows2d_noise. cbn [bind hd noise_vars]. apply meets0_val. apply S2.
Qed.
Lemma kl_value_eq E a i : kl_entropy_local E a i = let* k := kl_check a in let* rows := make_rows i in kl_value E a k rows.
Proof.
  unfold kl_entropy_local, kl_value, kl_form. destruct (kl_check a) as [k|e|]; cbn [bind]; auto. destruct (make_rows i) as [rows|e|]; cbn [bind]; auto.
  unfold with_noise. destruct (Req_EM_T (n_noise a) 0); [reflexivity|]. destruct (Rlt_dec (n_noise a) 0); [reflexivity|]. cbn [bind hd noise_vars].
  rewrite width_noise, length_noise. reflexivity.
Qed.
Lemma kl_check_noise a k : kl_check a = Ok k -> 0 <= n_noise a.
Proof.
  unfold kl_check. destruct (n_k a) as [k'|]; [|discriminate]. destruct (Z.leb k' 0); [discriminate|]. destruct (Rlt_dec (n_noise a) 0); [discriminate|]. intros _. lra.
Qed.
