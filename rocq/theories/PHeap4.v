(** Proofs: memory.  The calculations: they write to their own copies only and give the value the other model files compute. *)
From Coq Require Import Reals List ZArith Arith Bool Lia Lra.
From Verif Require Import Res RSum Spec SpecBase MBase MTE MPct MNorm MEst MCont MKnn MFam MHeap SpecHeap PHeap PHeap2 PHeap3.
Import ListNotations.
Local Open Scope R_scope.

Definition same {A} (_ : heap) (a b : A) : Prop := a = b.
Lemma meets_same {A} h (m : prog A) r : meets h m r same -> exists new, m h = (h ++ new, r).
Proof.
  intros (h' & x & E & [n ->] & K). exists n. rewrite E. f_equal. destruct x, r; try contradiction; unfold same in K; congruence.
Qed.
Lemma meets_quiet {A} h (m : prog A) r : m h = (h, r) -> meets h m r same.
Proof. intros E. exists h, r. split; [exact E|]. split; [apply ext_refl|]. destruct r; reflexivity. Qed.
Lemma meets_ext {A} h (m : prog A) r h' : m h = (h', r) -> ext h h' -> meets h m r same.
Proof. intros E X. exists h', r. split; [exact E|]. split; [exact X|]. destruct r; reflexivity. Qed.

Lemma st_swap h0 h l1 l2 a vs1 vs2 v : length l1 = length vs1 -> length l2 = length vs2 ->
  st h0 h (l1 ++ l2 ++ [a]) (vs1 ++ vs2 ++ [v]) -> st h0 h (l1 ++ a :: l2) (vs1 ++ v :: vs2).
Proof.
  intros L1 L2 (X & F & ND). split; [exact X|]. split.
  - apply Forall2_app_inv_l in F. destruct F as (m1 & m2 & F1 & F2' & E).
    assert (LM : length m1 = length vs1) by (rewrite <- L1; symmetry; clear -F1; induction F1; cbn; auto).
    assert (EM : m1 = vs1 /\ m2 = vs2 ++ [v]).
    { clear -E LM. revert vs1 LM E. induction m1 as [|x m1 IH]; intros [|y vs1] LM E; cbn in *; try discriminate; auto.
      injection E as <- E. destruct (IH vs1 ltac:(congruence) E) as [-> ->]. auto. }
    destruct EM as [-> ->]. apply Forall2_app_inv_l in F2'. destruct F2' as (n1 & n2 & G1 & G2 & E2). inversion G2 as [|? w ? ? Ga Gn]; subst. inversion Gn; subst.
    apply app_inj_tail in E2. destruct E2 as [-> ->]. apply Forall2_app; [exact F1|]. constructor; assumption.
  - rewrite !map_app in ND. cbn [map] in ND. rewrite map_app. cbn [map]. eapply Permutation.Permutation_NoDup; [|exact ND].
    apply Permutation.Permutation_app_head. apply Permutation.Permutation_sym. apply Permutation.Permutation_cons_append.
Qed.
Lemma st_remove h0 h l1 a l2 vs1 v vs2 : length l1 = length vs1 -> st h0 h (l1 ++ a :: l2) (vs1 ++ v :: vs2) -> st h0 h (l1 ++ l2) (vs1 ++ vs2).
Proof.
  intros L1 (X & F & ND). split; [exact X|]. split.
  - apply Forall2_app_inv_l in F. destruct F as (m1 & m2 & F1 & F2' & E).
    assert (LM : length m1 = length vs1) by (rewrite <- L1; symmetry; clear -F1; induction F1; cbn; auto).
    assert (EM : m1 = vs1 /\ m2 = v :: vs2).
    { clear -E LM. revert vs1 LM E. induction m1 as [|x m1 IH]; intros [|y vs1] LM E; cbn in *; try discriminate; auto.
      injection E as <- E. destruct (IH vs1 ltac:(congruence) E) as [-> ->]. auto. }
    destruct EM as [-> ->]. inversion F2'; subst. apply Forall2_app; assumption.
  - rewrite map_app in *. cbn [map] in ND. apply NoDup_remove_1 in ND. exact ND.
Qed.
Lemma st_lengths h0 h l vs : st h0 h l vs -> length l = length vs.
Proof. intros (_ & F & _). induction F; cbn; auto. Qed.

(** noise on a list of arrays *)
Fixpoint noise_list (lvl : R) (z : nat -> R) (pos : nat) (vs : list farr) : list farr :=
  match vs with [] => [] | v :: vs => noise_farr lvl z pos v :: noise_list lvl z (pos + fsize v) vs end.
Lemma noise_list_rows lvl z pos vs : map rows2d (noise_list lvl z pos vs) = noise_vars lvl z pos (map rows2d vs).
Proof. revert pos. induction vs as [|v vs IH]; intros pos; [reflexivity|]. cbn. rewrite rows2d_noise, IH, size_rows2d. reflexivity. Qed.

Section Go.
  Variables (lvl : R) (z : nat -> R) (isf : nd -> bool).
  Definition go := fix go (l : list nd) (pos : nat) : prog (list nd) :=
    match l with
    | [] => lift (Ok [])
    | v :: l => do w <- (if isf v then lift (Ok v) else astype_float v);
                do pos' <- iadd_all lvl z pos w;
                do ws <- go l pos'; lift (Ok (w :: ws))
    end.
  Lemma go_spec h0 : 0 <= lvl -> forall l ws ns vs pos h, length ws = length ns -> length l = length vs -> st h0 h (ws ++ l) (ns ++ vs) ->
    exists h' l', go l pos h = (h', Ok l') /\ length l' = length l /\ st h0 h' (ws ++ l') (ns ++ noise_list lvl z pos vs).
  Proof.
    intros HL. induction l as [|a l IH]; intros ws ns [|v vs] pos h L1 L S; try discriminate L.
    - exists h, []. cbn. auto.
    - assert (G : exists h1 w, (if isf a then lift (Ok a) else astype_float a) h = (h1, Ok w) /\ st h0 h1 (ws ++ w :: l) (ns ++ v :: vs)).
      { destruct (isf a); [exists h, a; split; [reflexivity|exact S]|].
        pose proof (st_get _ _ _ _ _ _ _ _ S L1) as (_ & _ & _ & _ & C).
        destruct (st_alloc h0 h (ws ++ a :: l) (ns ++ v :: vs) v S) as (h1 & w & E1 & _ & S1). exists h1, w.
        split; [unfold astype_float; rewrite <- E1, <- C; reflexivity|]. rewrite <- !app_assoc in S1. apply (st_swap h0 h1 ws (a :: l) w ns (v :: vs) v L1 L) in S1.
        replace (ws ++ w :: a :: l) with ((ws ++ [w]) ++ a :: l) in S1 by (rewrite <- app_assoc; reflexivity).
        replace (ns ++ v :: v :: vs) with ((ns ++ [v]) ++ v :: vs) in S1 by (rewrite <- app_assoc; reflexivity).
        apply st_remove in S1; [|rewrite !app_length; cbn; lia]. rewrite <- !app_assoc in S1. exact S1. }
      destruct G as (h1 & w & E1 & S1).
      destruct (st_iadd_all lvl z pos h0 h1 ws w l ns v vs HL S1 L1) as (h2 & E2 & S2).
      destruct (IH (ws ++ [w]) (ns ++ [noise_farr lvl z pos v]) vs (pos + fsize v)%nat h2) as (h3 & l' & E3 & L3 & S3).
      { rewrite !app_length. cbn. lia. } { cbn in L. lia. } { rewrite <- !app_assoc. exact S2. }
      exists h3, (w :: l'). cbn [go]. rewrite (seqp_ok _ _ _ _ _ E1), (seqp_ok _ _ _ _ _ E2), (seqp_ok _ _ _ _ _ E3). split; [reflexivity|].
      split; [cbn; congruence|]. rewrite <- !app_assoc in S3. exact S3.
  Qed.
  Lemma go_preserves : lvl < 0 -> forall l pos h, preserves (go l pos) h.
  Proof.
    intros N. induction l as [|a l IH]; intros pos h; [apply quiet_preserves, quiet_lift|]. cbn [go].
    apply preserves_bind; [destruct (isf a); [apply quiet_preserves, quiet_lift|]|].
    - destruct (alloc_spec (contents h a) h) as (buf & w & E & _ & _). exists [buf]. change (fst (alloc (contents h a) h) = h ++ [buf]). rewrite E. reflexivity.
    - intros h1 w E1 X1. apply preserves_bind; [apply quiet_preserves, quiet_all; exact N|]. intros h2 p2 E2 X2.
      apply preserves_bind; [apply IH|]. intros h3 ws E3 X3. apply quiet_preserves, quiet_lift.
  Qed.
End Go.
Lemma with_noise_0 lvl z vs : lvl = 0 -> with_noise lvl z vs = Ok vs.
Proof. intros ->. unfold with_noise. destruct (Req_EM_T 0 0); [reflexivity|contradiction]. Qed.
Lemma with_noise_pos lvl z vs : 0 <= lvl -> lvl <> 0 -> with_noise lvl z vs = Ok (noise_vars lvl z 0 vs).
Proof. intros P N. unfold with_noise. destruct (Req_EM_T lvl 0); [contradiction|]. destruct (Rlt_dec lvl 0); [lra|reflexivity]. Qed.
Lemma map_rows_F2 vs : map rows2d (map F2 vs) = vs.
Proof. rewrite map_map. cbn. apply map_id. Qed.
Lemma contents_2d_list h l : map (contents h) (map v_2d l) = map F2 (map (fun a => rows2d (contents h a)) l).
Proof. rewrite !map_map. apply map_ext. intros a. apply contents_2d. Qed.
Lemma ok_2d_list h l : Forall (nd_ok h) l -> Forall (nd_ok h) (map v_2d l).
Proof. intros F. induction F; cbn; constructor; [apply v_2d_ok|]; assumption. Qed.


(** [meets] relative to the memory at the start of the whole call *)
Definition meets0 {A} (h0 h : heap) (m : prog A) (r : res A) : Prop := exists h', m h = (h', r) /\ ext h0 h'.
Lemma meets0_step {A B} h0 h (m : prog A) (f : A -> prog B) r h1 a : m h = (h1, Ok a) -> meets0 h0 h1 (f a) r -> meets0 h0 h (seqp m f) r.
Proof. intros E (h2 & E2 & X). exists h2. rewrite (seqp_ok _ _ _ _ _ E). auto. Qed.
Lemma meets0_raise {A B} h0 h (m : prog A) (f : A -> prog B) h1 e : m h = (h1, Raise e) -> ext h0 h1 -> meets0 h0 h (seqp m f) (Raise e).
Proof. intros E X. exists h1. rewrite (seqp_raise _ _ _ _ _ E). auto. Qed.
Lemma meets0_end {A} h (m : prog A) r : meets0 h h m r -> meets h m r same.
Proof. intros (h' & E & X). eapply meets_ext; eassumption. Qed.
Lemma meets0_lift {A B} h0 h (r : res A) (f : A -> prog B) (g : A -> res B) :
  ext h0 h -> (forall a, meets0 h0 h (f a) (g a)) -> meets0 h0 h (seqp (lift r) f) (let* x := r in g x).
Proof. intros X F. destruct r as [a|e|]; [eapply meets0_step; [reflexivity|apply F]|exists h; auto|exists h; auto]. Qed.
Lemma meets0_val {A} h0 h (r : res A) : ext h0 h -> meets0 h0 h (lift r) r.
Proof. intros X. exists h. auto. Qed.

(** ** KSG mutual information *)
Lemma ksg_mi_calc_meets E a l h : 0 <= n_noise a -> Forall (nd_ok h) l ->
  meets h (p_ksg_mi_calc E a (map v_2d l))
    (let* data := with_noise (n_noise a) (draw E) (map (fun b => rows2d (contents h b)) l) in let* k := int_k a in ksg_mi_form a k data) same.
Proof.
  intros HL OK. apply meets0_end. unfold p_ksg_mi_calc. apply ok_2d_list in OK as OK2.
  destruct (forp_spec _ fcopy_spec (map v_2d l) h h [] [] (st_nil h) OK2) as (h1 & d & E1 & X1 & L1 & S1). cbn [app] in S1.
  rewrite contents_2d_list in S1. rewrite map_length in L1. set (rows := map (fun b => rows2d (contents h b)) l) in *.
  eapply meets0_step; [exact E1|]. destruct (Req_EM_T (n_noise a) 0) as [Z|NZ].
  - rewrite (with_noise_0 _ _ _ Z). eapply meets0_step; [reflexivity|]. eapply meets0_step; [apply forp_load|].
    rewrite (st_contents _ _ _ _ S1), map_rows_F2. cbn [bind]. apply meets0_lift; [apply S1|]. intros k. apply meets0_val. apply S1.
  - rewrite (with_noise_pos _ _ _ HL NZ).
    destruct (loop_vars (n_noise a) (draw E) h HL d [] [] rows 0 h1 eq_refl) as (h2 & p2 & E2 & S2).
    { unfold rows. rewrite map_length. exact L1. } { exact S1. }
    cbn [app] in S2. eapply meets0_step; [exact E2|]. eapply meets0_step; [apply forp_load|].
    rewrite (st_contents _ _ _ _ S2), map_rows_F2. cbn [bind]. apply meets0_lift; [apply S2|]. intros k. apply meets0_val. apply S2.
Qed.
Lemma ksg_mi_calc_preserves E a l h : n_noise a < 0 -> Forall (nd_ok h) l -> preserves (p_ksg_mi_calc E a (map v_2d l)) h.
Proof.
  intros HN OK. unfold p_ksg_mi_calc. apply ok_2d_list in OK as OK2.
  destruct (forp_spec _ fcopy_spec (map v_2d l) h h [] [] (st_nil h) OK2) as (h1 & d & E1 & X1 & L1 & S1).
  eapply preserves_step; [exact E1|exact X1|]. apply quiet_preserves. apply quiet_seq.
  - apply quiet_if; [apply quiet_lift|]. apply quiet_loop. intros p b. apply quiet_loop. intros p' j. apply quiet_row. exact HN.
  - intros _. apply quiet_seq; [apply quiet_forp; apply quiet_load|]. intros vs. apply quiet_seq; [apply quiet_lift|intros k; apply quiet_lift].
Qed.

(** ** KSG conditional mutual information *)
Lemma ksg_cmi_calc_meets E a l c h : 0 <= n_noise a -> Forall (nd_ok h) l -> nd_ok h c ->
  meets h (p_ksg_cmi_calc E a (map v_2d l) (v_2d c))
    (let* dc := cmi_with_noise (n_noise a) (draw E) (map (fun b => rows2d (contents h b)) l) (rows2d (contents h c)) in
     let* k := int_k a in ksg_cmi_form a k (fst dc) (snd dc)) same.
Proof.
  intros HL OK OC. apply meets0_end. unfold p_ksg_cmi_calc. apply ok_2d_list in OK as OK2. apply v_2d_ok in OC as OC2.
  destruct (forp_spec _ fcopy_spec (map v_2d l) h h [] [] (st_nil h) OK2) as (h1 & d & E1 & X1 & L1 & S1). cbn [app] in S1.
  rewrite contents_2d_list in S1. rewrite map_length in L1.
  destruct (fcopy_spec h h1 d _ (v_2d c) S1) as (h2 & w & E2 & X2 & S2).
  rewrite (contents_ext _ _ _ OC2 X1), contents_2d in S2.
  set (rows := map (fun b => rows2d (contents h b)) l) in *. set (cr := rows2d (contents h c)) in *.
  assert (LR : length rows = length l) by (unfold rows; apply map_length).
  assert (HD : nd_len (hd (N1 0 []) d) = length (hd [] rows)).
  { pose proof (st_contents _ _ _ _ S1) as CC. destruct d as [|d0 d], rows as [|r0 rows']; [reflexivity|discriminate CC|discriminate CC|]. cbn in CC. injection CC as CC _. cbn. rewrite (nd_len_contents h1), CC. reflexivity. }
  eapply meets0_step; [exact E1|]. eapply meets0_step; [exact E2|]. unfold cmi_with_noise. destruct (Req_EM_T (n_noise a) 0) as [Z|NZ].
  - eapply meets0_step; [reflexivity|]. pose proof (st_contents _ _ _ _ S2) as CC. rewrite map_app in CC. apply app_inj_tail in CC. destruct CC as [CD CW].
    eapply meets0_step; [apply forp_load|]. eapply meets0_step; [reflexivity|]. rewrite CD, CW, map_rows_F2. cbn [bind fst snd rows2d].
    apply meets0_lift; [apply S2|]. intros k. apply meets0_val. apply S2.
  - destruct (Rlt_dec (n_noise a) 0); [lra|]. rewrite HD.
    destruct (loop_cmi (n_noise a) (draw E) h d w HL (length (hd [] rows)) 0 0 rows cr h2) as (h3 & r & E3 & X3 & K3); [congruence|exact S2|intros; lia|].
    cbn [Nat.add] in K3. destruct (existsb _ rows).
    + subst r. cbn [bind]. eapply meets0_raise; [exact E3|exact X3].
    + destruct K3 as (p' & -> & S3). eapply meets0_step; [exact E3|]. pose proof (st_contents _ _ _ _ S3) as CC. rewrite map_app in CC. apply app_inj_tail in CC. destruct CC as [CD CW].
      eapply meets0_step; [apply forp_load|]. eapply meets0_step; [reflexivity|]. rewrite CD, CW, map_rows_F2. cbn [bind rows2d].
      apply meets0_lift; [apply S3|]. intros k. apply meets0_val. apply S3.
Qed.
Lemma ksg_cmi_calc_preserves E a l c h : n_noise a < 0 -> Forall (nd_ok h) l -> nd_ok h c -> preserves (p_ksg_cmi_calc E a (map v_2d l) (v_2d c)) h.
Proof.
  intros HN OK OC. unfold p_ksg_cmi_calc. apply ok_2d_list in OK as OK2.
  destruct (forp_spec _ fcopy_spec (map v_2d l) h h [] [] (st_nil h) OK2) as (h1 & d & E1 & X1 & L1 & S1).
  destruct (fcopy_spec h h1 d _ (v_2d c) S1) as (h2 & w & E2 & X2 & S2).
  eapply preserves_step; [exact E1|exact X1|]. eapply preserves_step; [exact E2|exact X2|]. apply quiet_preserves. apply quiet_seq.
  - apply quiet_if; [apply quiet_lift|]. apply quiet_loop. intros p j. apply quiet_seq; [|intros p'; apply quiet_all; exact HN].
    apply quiet_loop. intros p' v. apply quiet_row. exact HN.
  - intros _. apply quiet_seq; [apply quiet_forp; apply quiet_load|]. intros vs. apply quiet_seq; [apply quiet_load|]. intros v.
    apply quiet_seq; [apply quiet_lift|intros k; apply quiet_lift].
Qed.

(** ** KSG transfer entropy *)
Lemma ksg_te_calc_meets E k a rnd s d h : 0 <= n_noise k -> nd_ok h s -> nd_ok h d ->
  meets h (p_ksg_te_calc E k a rnd (s, d))
    (let* ds := with_noise (n_noise k) (draw E) [rows2d (contents h d); rows2d (contents h s)] in
     let* sp := fte_spaces (nth 1 ds []) (nth 0 ds []) (a_src a) (a_dest a) (a_step a) rnd in
     let '(j, dp, m1, m2) := sp in let* kk := int_k k in ksg_te_form k kk j dp m1 m2) same.
Proof.
  intros HL OS OD. apply meets0_end. unfold p_ksg_te_calc. cbn [fst snd].
  destruct (fcopy_spec h h [] [] s (st_nil h)) as (h1 & ws & E1 & X1 & S1). cbn [app] in S1.
  destruct (fcopy_spec h h1 _ _ d S1) as (h2 & wd & E2 & X2 & S2). rewrite (contents_ext _ _ _ OD X1) in S2. cbn [app] in S2.
  eapply meets0_step; [exact E1|]. eapply meets0_step; [exact E2|]. destruct (Req_EM_T (n_noise k) 0) as [Z|NZ].
  - rewrite (with_noise_0 _ _ _ Z). eapply meets0_step; [reflexivity|]. pose proof (st_contents _ _ _ _ S2) as CC. cbn [map] in CC. injection CC as CS CD.
    eapply meets0_step; [reflexivity|]. eapply meets0_step; [reflexivity|]. rewrite CS, CD. cbn [bind nth].
    apply meets0_lift; [apply S2|]. intros [[[j dp] m1] m2]. apply meets0_lift; [apply S2|]. intros kk. apply meets0_val. apply S2.
  - rewrite (with_noise_pos _ _ _ HL NZ).
    destruct (st_iadd_all (n_noise k) (draw E) 0 h h2 [ws] wd [] [contents h s] (contents h d) [] HL S2 eq_refl) as (h3 & E3 & S3). cbn [app] in S3.
    destruct (st_iadd_all (n_noise k) (draw E) (0 + fsize (contents h d)) h h3 [] ws [wd] [] (contents h s) [noise_farr (n_noise k) (draw E) 0 (contents h d)] HL S3 eq_refl) as (h4 & E4 & S4).
    cbn [app] in S4. eapply meets0_step; [rewrite (seqp_ok _ _ _ _ _ E3); exact E4|]. pose proof (st_contents _ _ _ _ S4) as CC. cbn [map] in CC. injection CC as CS CD.
    eapply meets0_step; [reflexivity|]. eapply meets0_step; [reflexivity|]. rewrite CS, CD. cbn [bind nth noise_vars]. rewrite !rows2d_noise, size_rows2d.
    apply meets0_lift; [apply S4|]. intros [[[j dp] m1] m2]. apply meets0_lift; [apply S4|]. intros kk. apply meets0_val. apply S4.
Qed.
Lemma ksg_te_calc_preserves E k a rnd s d h : n_noise k < 0 -> nd_ok h s -> nd_ok h d -> preserves (p_ksg_te_calc E k a rnd (s, d)) h.
Proof.
  intros HN OS OD. unfold p_ksg_te_calc. cbn [fst snd].
  destruct (fcopy_spec h h [] [] s (st_nil h)) as (h1 & ws & E1 & X1 & S1).
  destruct (fcopy_spec h h1 _ _ d S1) as (h2 & wd & E2 & X2 & S2).
  eapply preserves_step; [exact E1|exact X1|]. eapply preserves_step; [exact E2|exact X2|]. apply quiet_preserves. apply quiet_seq.
  - apply quiet_if; [apply quiet_lift|]. apply quiet_seq; [|intros p]; apply quiet_all; exact HN.
  - intros _. apply quiet_seq; [apply quiet_load|]. intros vs. apply quiet_seq; [apply quiet_load|]. intros vd.
    apply quiet_seq; [apply quiet_lift|]. intros [[[j dp] m1] m2]. apply quiet_seq; [apply quiet_lift|intros kk; apply quiet_lift].
Qed.
Lemma ksg_cte_calc_meets E k a s d c h : 0 <= n_noise k -> nd_ok h s -> nd_ok h d -> nd_ok h c ->
  meets h (p_ksg_cte_calc E k a (s, d, c))
    (let* ds := with_noise (n_noise k) (draw E) [rows2d (contents h d); rows2d (contents h s); rows2d (contents h c)] in
     let* sp := fcte_spaces (nth 1 ds []) (nth 0 ds []) (nth 2 ds []) (a_src a) (a_dest a) (a_cond a) (a_step a) in
     let '(j, dp, m1, m2) := sp in let* kk := int_k k in ksg_te_form k kk j dp m1 m2) same.
Proof.
  intros HL OS OD OC. apply meets0_end. unfold p_ksg_cte_calc.
  destruct (fcopy_spec h h [] [] s (st_nil h)) as (h1 & ws & E1 & X1 & S1). cbn [app] in S1.
  destruct (fcopy_spec h h1 _ _ d S1) as (h2 & wd & E2 & X2 & S2). rewrite (contents_ext _ _ _ OD X1) in S2. cbn [app] in S2.
  destruct (fcopy_spec h h2 _ _ c S2) as (h3 & wc & E3 & X3 & S3). rewrite (contents_ext _ _ _ OC (ext_trans _ _ _ X1 X2)) in S3. cbn [app] in S3.
  eapply meets0_step; [exact E1|]. eapply meets0_step; [exact E2|]. eapply meets0_step; [exact E3|]. destruct (Req_EM_T (n_noise k) 0) as [Z|NZ].
  - rewrite (with_noise_0 _ _ _ Z). eapply meets0_step; [reflexivity|]. pose proof (st_contents _ _ _ _ S3) as CC. cbn [map] in CC. injection CC as CS CD CW.
    eapply meets0_step; [reflexivity|]. eapply meets0_step; [reflexivity|]. eapply meets0_step; [reflexivity|]. rewrite CS, CD, CW. cbn [bind nth].
    apply meets0_lift; [apply S3|]. intros [[[j dp] m1] m2]. apply meets0_lift; [apply S3|]. intros kk. apply meets0_val. apply S3.
  - rewrite (with_noise_pos _ _ _ HL NZ). set (lv := n_noise k) in *. set (z := draw E).
    destruct (st_iadd_all lv z 0 h h3 [ws] wd [wc] [contents h s] (contents h d) [contents h c] HL S3 eq_refl) as (h4 & E4 & S4). cbn [app] in S4.
    destruct (st_iadd_all lv z (0 + fsize (contents h d)) h h4 [] ws [wd; wc] [] (contents h s) [noise_farr lv z 0 (contents h d); contents h c] HL S4 eq_refl) as (h5 & E5 & S5).
    cbn [app] in S5.
    destruct (st_iadd_all lv z (0 + fsize (contents h d) + fsize (contents h s)) h h5 [ws; wd] wc [] [noise_farr lv z (0 + fsize (contents h d)) (contents h s); noise_farr lv z 0 (contents h d)] (contents h c) [] HL S5 eq_refl) as (h6 & E6 & S6).
    cbn [app] in S6. eapply meets0_step; [rewrite (seqp_ok _ _ _ _ _ E4), (seqp_ok _ _ _ _ _ E5); exact E6|].
    pose proof (st_contents _ _ _ _ S6) as CC. cbn [map] in CC. injection CC as CS CD CW.
    eapply meets0_step; [reflexivity|]. eapply meets0_step; [reflexivity|]. eapply meets0_step; [reflexivity|]. rewrite CS, CD, CW. cbn [bind nth noise_vars].
    rewrite !rows2d_noise, !size_rows2d.
    apply meets0_lift; [apply S6|]. intros [[[j dp] m1] m2]. apply meets0_lift; [apply S6|]. intros kk. apply meets0_val. apply S6.
Qed.
Lemma ksg_cte_calc_preserves E k a s d c h : n_noise k < 0 -> nd_ok h s -> nd_ok h d -> nd_ok h c -> preserves (p_ksg_cte_calc E k a (s, d, c)) h.
Proof.
  intros HN OS OD OC. unfold p_ksg_cte_calc.
  destruct (fcopy_spec h h [] [] s (st_nil h)) as (h1 & ws & E1 & X1 & S1).
  destruct (fcopy_spec h h1 _ _ d S1) as (h2 & wd & E2 & X2 & S2). destruct (fcopy_spec h h2 _ _ c S2) as (h3 & wc & E3 & X3 & S3).
  eapply preserves_step; [exact E1|exact X1|]. eapply preserves_step; [exact E2|exact X2|]. eapply preserves_step; [exact E3|exact X3|]. apply quiet_preserves. apply quiet_seq.
  - apply quiet_if; [apply quiet_lift|]. apply quiet_seq; [|intros p; apply quiet_seq; [|intros p']]; apply quiet_all; exact HN.
  - intros _. do 3 (apply quiet_seq; [apply quiet_load|intros ?]).
    apply quiet_seq; [apply quiet_lift|]. intros [[[j dp] m1] m2]. apply quiet_seq; [apply quiet_lift|intros kk; apply quiet_lift].
Qed.
