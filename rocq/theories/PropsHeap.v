(** C111: a call writes to no array of the caller, whatever its outcome, and its result depends only on the numbers in the
    arguments: not on how they lie in memory, not on arguments sharing memory. *)
From Coq Require Import Reals List ZArith Arith Bool Lia Lra.
From Verif Require Import Res RSum Spec SpecBase MBase MTE MPct MNorm MEst MCont MKnn MFam MHeap SpecHeap PHeap PHeap2 PHeap3 PHeap4 PHeap5.
Import ListNotations.
Local Open Scope R_scope.

Lemma meets_done {A} h (m : prog A) r : meets h m r same -> preserves m h /\ snd (m h) = r.
Proof. intros M. destruct (meets_same h m r M) as [n E]. split; [exists n|]; rewrite E; reflexivity. Qed.
Lemma bind_unit {A B} (u : res unit) (v : res A) (g : A -> res B) : (let* _ := u in let* x := v in g x) = (let* x := (let* _ := u in v) in g x).
Proof. destruct u; reflexivity. Qed.
Lemma meets_pure {A B} h (r : res A) (f : A -> prog B) (g : A -> res B) :
  (forall x, meets h (f x) (g x) same) -> meets h (seqp (lift r) f) (let* x := r in g x) same.
Proof. intros F. destruct r as [x|e|]; [apply (F x)| |]; apply meets_quiet; reflexivity. Qed.
Lemma meets_pure' {A B} h (r : res A) (f : A -> prog B) (g : A -> res B) :
  (forall x, r = Ok x -> meets h (f x) (g x) same) -> meets h (seqp (lift r) f) (let* x := r in g x) same.
Proof. intros F. destruct r as [x|e|]; [apply (F x eq_refl)| |]; apply meets_quiet; reflexivity. Qed.

Theorem C111_ksg_mi (E : nenv) (a : nargs) (offset : option Z) (normalize : bool) (args : list pyarg) (h : heap) :
  Forall (valid h) args ->
  preserves (p_ksg_mi E a offset normalize args) h /\
  (0 <= n_noise a -> snd (p_ksg_mi E a offset normalize args h) = ksg_mi_local E a offset normalize (map (value_of h) args)).
Proof.
  intros V. pose proof (p_mi_init_spec offset normalize args h V) as M. destruct (Rlt_dec (n_noise a) 0) as [N|N].
  - split; [|intros; lra]. destruct M as (h1 & x & E1 & X1 & K1). unfold p_ksg_mi. apply preserves_bind; [eapply ext_preserves; eassumption|].
    intros h' l EL XL. rewrite E1 in EL. injection EL as <- ->. destruct (fmi_init offset normalize _) as [rows|e|]; try contradiction. destruct K1 as [OK _].
    destruct (negb (id_ok a)); [apply quiet_preserves, quiet_lift|]. apply ksg_mi_calc_preserves; assumption.
  - assert (G : meets h (p_ksg_mi E a offset normalize args) (ksg_mi_local E a offset normalize (map (value_of h) args)) same).
    { unfold p_ksg_mi, ksg_mi_local. eapply meets_bind; [exact M|]. cbn beta. intros h1 l rows X1 [OK RW].
      destruct (negb (id_ok a)); [apply meets_lift_raise|]. rewrite <- RW. apply ksg_mi_calc_meets; [lra|exact OK]. }
    apply meets_done in G. destruct G as [G1 G2]. auto.
Qed.

Theorem C111_ksg_cmi (E : nenv) (a : nargs) (offset : option Z) (normalize : bool) (args : list pyarg) (cond : pyarg) (h : heap) :
  Forall (valid h) args -> valid h cond ->
  preserves (p_ksg_cmi E a offset normalize args cond) h /\
  (0 <= n_noise a -> snd (p_ksg_cmi E a offset normalize args cond h) = ksg_cmi_local E a offset normalize (map (value_of h) args) (value_of h cond)).
Proof.
  intros V VC. pose proof (p_cmi_init_spec offset normalize args cond h V VC) as M. destruct (Rlt_dec (n_noise a) 0) as [N|N].
  - split; [|intros; lra]. destruct M as (h1 & x & E1 & X1 & K1). unfold p_ksg_cmi. apply preserves_bind; [eapply ext_preserves; eassumption|].
    intros h' l EL XL. rewrite E1 in EL. injection EL as <- ->. destruct (bind _ _) as [rows|e|] in K1; try contradiction. destruct K1 as [[OK _] [OC _]].
    destruct (negb (id_ok a)); [apply quiet_preserves, quiet_lift|]. apply ksg_cmi_calc_preserves; assumption.
  - assert (G : meets h (p_ksg_cmi E a offset normalize args cond) (ksg_cmi_local E a offset normalize (map (value_of h) args) (value_of h cond)) same).
    { unfold p_ksg_cmi, ksg_cmi_local. rewrite bind_unit. eapply meets_bind; [exact M|]. cbn beta. intros h2 l rows X2 [[OK RW] [OC RC]].
      destruct (negb (id_ok a)); [apply meets_lift_raise|]. rewrite <- RW, <- RC. apply ksg_cmi_calc_meets; [lra|exact OK|exact OC]. }
    apply meets_done in G. destruct G as [G1 G2]. auto.
Qed.

Theorem C111_ksg_te (E : nenv) (k : nargs) (source dest : pyarg) (a : te_args) (rnd : rand) (h : heap) :
  valid h source -> valid h dest ->
  preserves (p_ksg_te E k source dest a rnd) h /\
  (0 <= n_noise k -> snd (p_ksg_te E k source dest a rnd h) = ksg_te_local E k (value_of h source) (value_of h dest) a rnd).
Proof.
  intros VS VD. pose proof (p_te_init_spec source dest (a_prop a) (a_offset a) (a_step a) h VS VD) as M. destruct (Rlt_dec (n_noise k) 0) as [N|N].
  - split; [|intros; lra]. destruct M as (h1 & x & E1 & X1 & K1). unfold p_ksg_te. apply preserves_bind; [eapply ext_preserves; eassumption|].
    intros h' [s d] EL XL. rewrite E1 in EL. injection EL as <- ->. destruct (fte_init _ _ _ _ _) as [rows|e|] in K1; try contradiction. destruct K1 as (OS & OD & _).
    destruct (negb (id_ok k)); [apply quiet_preserves, quiet_lift|]. apply ksg_te_calc_preserves; assumption.
  - assert (G : meets h (p_ksg_te E k source dest a rnd) (ksg_te_local E k (value_of h source) (value_of h dest) a rnd) same).
    { unfold p_ksg_te, ksg_te_local. eapply meets_bind; [exact M|]. cbn beta. intros h2 [s d] rows X2 (OS & OD & RS & RD). cbn [fst snd] in *.
      destruct (negb (id_ok k)); [apply meets_lift_raise|]. rewrite <- RS, <- RD. apply ksg_te_calc_meets; [lra|exact OS|exact OD]. }
    apply meets_done in G. destruct G as [G1 G2]. auto.
Qed.

Theorem C111_ksg_cte (E : nenv) (k : nargs) (source dest cond : pyarg) (a : te_args) (h : heap) :
  valid h source -> valid h dest -> valid h cond ->
  preserves (p_ksg_cte E k source dest cond a) h /\
  (0 <= n_noise k -> snd (p_ksg_cte E k source dest cond a h) = ksg_cte_local E k (value_of h source) (value_of h dest) (value_of h cond) a).
Proof.
  intros VS VD VC. pose proof (p_cte_init_spec source dest cond (a_prop a) (a_offset a) h VS VD VC) as M. destruct (Rlt_dec (n_noise k) 0) as [N|N].
  - split; [|intros; lra]. destruct M as (h1 & x & E1 & X1 & K1). unfold p_ksg_cte. apply preserves_bind; [eapply ext_preserves; eassumption|].
    intros h' [[s d] c] EL XL. rewrite E1 in EL. injection EL as <- ->. destruct (fcte_init _ _ _ _ _) as [rows|e|] in K1; try contradiction. destruct K1 as (OS & OD & OC & _).
    destruct (negb (id_ok k)); [apply quiet_preserves, quiet_lift|]. apply ksg_cte_calc_preserves; assumption.
  - assert (G : meets h (p_ksg_cte E k source dest cond a) (ksg_cte_local E k (value_of h source) (value_of h dest) (value_of h cond) a) same).
    { unfold p_ksg_cte, ksg_cte_local. eapply meets_bind; [exact M|]. cbn beta. intros h2 [[s d] c] u X2 (OS & OD & OC & RS & RD & RC).
      destruct (negb (id_ok k)); [apply meets_lift_raise|]. rewrite <- RS, <- RD, <- RC. apply ksg_cte_calc_meets; [lra|exact OS|exact OD|exact OC]. }
    apply meets_done in G. destruct G as [G1 G2]. auto.
Qed.

(** Renyi and Tsallis *)
Theorem C111_fam_mi (f : family) (E : nenv) (a : eargs) (noise : R) (offset : option Z) (normalize : bool) (args : list pyarg) (h : heap) :
  Forall (valid h) args ->
  preserves (p_fam_mi f E a noise offset normalize args) h /\
  (0 <= noise -> snd (p_fam_mi f E a noise offset normalize args h) = fam_mi f E a noise offset normalize (map (value_of h) args)).
Proof.
  intros V. pose proof (p_mi_init_spec offset normalize args h V) as M. destruct (Rlt_dec noise 0) as [N|N].
  - split; [|intros; lra]. destruct M as (h1 & x & E1 & X1 & K1). unfold p_fam_mi. apply preserves_bind; [eapply ext_preserves; eassumption|].
    intros h' l EL XL. rewrite E1 in EL. injection EL as <- ->. destruct (fmi_init offset normalize _) as [rows|e|]; try contradiction. destruct K1 as [OK _].
    apply preserves_bind; [apply quiet_preserves, quiet_lift|]. intros h2 u EU _. injection EU as <- _. apply fam_mi_calc_preserves; assumption.
  - assert (G : meets h (p_fam_mi f E a noise offset normalize args) (fam_mi f E a noise offset normalize (map (value_of h) args)) same).
    { unfold p_fam_mi, fam_mi. eapply meets_bind; [exact M|]. cbn beta. intros h1 l rows X1 [OK RW].
      apply meets_pure. intros u. rewrite <- RW. apply fam_mi_calc_meets; [lra|exact OK]. }
    apply meets_done in G. destruct G as [G1 G2]. auto.
Qed.

Theorem C111_fam_cmi (f : family) (E : nenv) (a : eargs) (noise : R) (isf : nd -> bool) (offset : option Z) (normalize : bool)
  (args : list pyarg) (cond : pyarg) (h : heap) :
  Forall (valid h) args -> valid h cond ->
  preserves (p_fam_cmi f E a noise isf offset normalize args cond) h /\
  (0 <= noise -> snd (p_fam_cmi f E a noise isf offset normalize args cond h) =
                 fam_cmi f E a noise offset normalize (map (value_of h) args) (value_of h cond)).
Proof.
  intros V VC. pose proof (p_cmi_init_spec offset normalize args cond h V VC) as M. destruct (Rlt_dec noise 0) as [N|N].
  - split; [|intros; lra]. destruct M as (h1 & x & E1 & X1 & K1). unfold p_fam_cmi. apply preserves_bind; [eapply ext_preserves; eassumption|].
    intros h' l EL XL. rewrite E1 in EL. injection EL as <- ->. destruct (bind _ _) as [rows|e|] in K1; try contradiction. destruct K1 as [[OK _] [OC _]].
    apply preserves_bind; [apply quiet_preserves, quiet_lift|]. intros h2 u EU _. injection EU as <- _. apply fam_cmi_calc_preserves; assumption.
  - assert (G : meets h (p_fam_cmi f E a noise isf offset normalize args cond) (fam_cmi f E a noise offset normalize (map (value_of h) args) (value_of h cond)) same).
    { unfold p_fam_cmi, fam_cmi. rewrite bind_unit. eapply meets_bind; [exact M|]. cbn beta. intros h2 l rows X2 [[OK RW] [OC RC]].
      apply meets_pure. intros u. rewrite <- RW, <- RC. apply fam_cmi_calc_meets; [lra|exact OK|exact OC]. }
    apply meets_done in G. destruct G as [G1 G2]. auto.
Qed.

Theorem C111_fam_te (f : family) (E : nenv) (e : eargs) (noise : R) (source dest : pyarg) (a : te_args) (rnd : rand) (h : heap) :
  valid h source -> valid h dest ->
  preserves (p_fam_te f E e noise source dest a rnd) h /\
  (0 <= noise -> snd (p_fam_te f E e noise source dest a rnd h) = fam_te f E e noise (value_of h source) (value_of h dest) a rnd).
Proof.
  intros VS VD. pose proof (p_te_init_spec source dest (a_prop a) (a_offset a) (a_step a) h VS VD) as M. destruct (Rlt_dec noise 0) as [N|N].
  - split; [|intros; lra]. destruct M as (h1 & x & E1 & X1 & K1). unfold p_fam_te. apply preserves_bind; [eapply ext_preserves; eassumption|].
    intros h' [s d] EL XL. apply preserves_bind; [apply quiet_preserves, quiet_lift|]. intros h2 u EU _. apply fam_te_calc_preserves; assumption.
  - assert (G : meets h (p_fam_te f E e noise source dest a rnd) (fam_te f E e noise (value_of h source) (value_of h dest) a rnd) same).
    { unfold p_fam_te, fam_te. eapply meets_bind; [exact M|]. cbn beta. intros h2 [s d] rows X2 (OS & OD & RS & RD). cbn [fst snd] in *.
      apply meets_pure. intros u. rewrite <- RS, <- RD. apply fam_te_calc_meets; [lra|exact OS|exact OD]. }
    apply meets_done in G. destruct G as [G1 G2]. auto.
Qed.

Theorem C111_fam_cte (f : family) (E : nenv) (e : eargs) (noise : R) (source dest cond : pyarg) (a : te_args) (h : heap) :
  valid h source -> valid h dest -> valid h cond ->
  preserves (p_fam_cte f E e noise source dest cond a) h /\
  (0 <= noise -> snd (p_fam_cte f E e noise source dest cond a h) =
                 fam_cte f E e noise (value_of h source) (value_of h dest) (value_of h cond) a).
Proof.
  intros VS VD VC. pose proof (p_cte_init_spec source dest cond (a_prop a) (a_offset a) h VS VD VC) as M. destruct (Rlt_dec noise 0) as [N|N].
  - split; [|intros; lra]. destruct M as (h1 & x & E1 & X1 & K1). unfold p_fam_cte. apply preserves_bind; [eapply ext_preserves; eassumption|].
    intros h' [[s d] c] EL XL. apply preserves_bind; [apply quiet_preserves, quiet_lift|]. intros h2 u EU _. apply fam_cte_calc_preserves; assumption.
  - assert (G : meets h (p_fam_cte f E e noise source dest cond a) (fam_cte f E e noise (value_of h source) (value_of h dest) (value_of h cond) a) same).
    { unfold p_fam_cte, fam_cte. eapply meets_bind; [exact M|]. cbn beta. intros h2 [[s d] c] u X2 (OS & OD & OC & RS & RD & RC).
      apply meets_pure. intros v. rewrite <- RS, <- RD, <- RC. apply fam_cte_calc_meets; [lra|exact OS|exact OD|exact OC]. }
    apply meets_done in G. destruct G as [G1 G2]. auto.
Qed.

(** Kozachenko-Leonenko (a negative noise level is refused by the constructor) *)
Theorem C111_kl_entropy (E : nenv) (a : nargs) (i : pyinput) (h : heap) : valid_in h i ->
  preserves (p_kl_entropy_local E a i) h /\ snd (p_kl_entropy_local E a i h) = kl_entropy_local E a (value_in h i).
Proof.
  intros V. apply meets_done. rewrite kl_value_eq. unfold p_kl_entropy_local. apply meets_pure'. intros k K. apply kl_check_noise in K as N.
  destruct i as [x|xs]; cbn [value_in make_rows].
  - cbn [bind]. destruct (asarray_spec h x V) as (h1 & v & E1 & X1 & O1 & C1). eapply meets_step; [exact E1|exact X1|].
    pose proof (kl_simple_meets E a k (v_2d v) h1 N (v_2d_ok _ _ O1)) as G. rewrite contents_2d, C1 in G. exact G.
  - destruct (forp_asarray xs h V) as (h1 & l & E1 & X1 & O1 & C1). eapply meets_step; [exact E1|exact X1|]. rewrite <- C1.
    assert (EB : existsb (fun c => negb (Nat.eqb (nd_len c) (nd_len (hd (N1 0 []) l)))) l =
      existsb (fun c => negb (Nat.eqb (flen c) (match map (contents h1) l with [] => 0%nat | b :: _ => flen b end))) (map (contents h1) l)).
    { assert (EH : nd_len (hd (N1 0 []) l) = match map (contents h1) l with [] => 0%nat | b :: _ => flen b end) by (destruct l; [reflexivity|cbn; apply nd_len_contents]).
      rewrite EH. clear EH. generalize (match map (contents h1) l with [] => 0%nat | b :: _ => flen b end). intros n. clear -l.
      induction l as [|b l IH]; [reflexivity|]. cbn [existsb map]. rewrite IH, (nd_len_contents h1). reflexivity. }
    rewrite EB. destruct (existsb _ (map (contents h1) l)); [apply meets_lift_raise|].
    eapply meets_step; [apply forp_load|apply ext_refl|]. rewrite contents_2d_list, map_rows_F2, map_map.
    apply meets_pure. intros joint. destruct (alloc_spec (F2 joint) h1) as (buf & j & E2 & NB & O). eapply meets_step; [exact E2|apply ext_app|].
    destruct O as (_ & O2 & _ & _ & O5). pose proof (kl_simple_meets E a k j (h1 ++ [buf]) N O2) as G. rewrite O5 in G. exact G.
Qed.

Theorem C111_kl_cross (E : nenv) (a : nargs) (p q : pyarg) (h : heap) : valid h p -> valid h q ->
  preserves (p_kl_cross E a p q) h /\ snd (p_kl_cross E a p q h) = kl_cross_entropy E a (value_of h p) (value_of h q).
Proof.
  intros VP VQ. apply meets_done. unfold p_kl_cross, kl_cross_entropy. apply meets_pure'. intros k K. apply kl_check_noise in K as N.
  destruct (asarray_spec h p VP) as (h1 & vp & E1 & X1 & O1 & C1). eapply meets_step; [exact E1|exact X1|].
  destruct (asarray_spec h1 q (valid_ext _ _ _ VQ X1)) as (h2 & vq & E2 & X2 & O2 & C2). rewrite (value_ext h h1 q VQ X1) in C2. eapply meets_step; [exact E2|exact X2|].
  pose proof (eq_trans (contents_ext _ _ _ O1 X2) C1) as C1'. apply meets0_end.
  destruct (fcopy_spec h2 h2 [] [] (v_2d vp) (st_nil h2)) as (h3 & wp & E3 & X3 & S3). cbn [app] in S3. rewrite contents_2d, C1' in S3.
  destruct (fcopy_spec h2 h3 _ _ (v_2d vq) S3) as (h4 & wq & E4 & X4 & S4). cbn [app] in S4.
  rewrite (contents_ext h2 h3 (v_2d vq) (v_2d_ok _ _ O2) X3), contents_2d, C2 in S4.
  eapply meets0_step; [exact E3|]. eapply meets0_step; [exact E4|]. destruct (Req_EM_T (n_noise a) 0) as [Z|NZ].
  - rewrite (with_noise_0 _ _ _ Z). eapply meets0_step; [reflexivity|]. pose proof (st_contents _ _ _ _ S4) as CC. cbn [map] in CC. injection CC as CP CQ.
    do 2 (eapply meets0_step; [reflexivity|]). rewrite CP, CQ. cbn [bind nth rows2d]. apply meets0_val. apply S4.
  - rewrite (with_noise_pos _ _ _ N NZ). set (lv := n_noise a) in *. set (z := draw E) in *.
    destruct (st_iadd_all lv z 0 h2 h4 [] wp [wq] [] (F2 (rows2d (value_of h p))) [F2 (rows2d (value_of h q))] N S4 eq_refl) as (h5 & E5 & S5). cbn [app] in S5.
    match type of S5 with st _ _ _ (?n :: _) =>
      destruct (st_iadd_all lv z (0 + fsize (F2 (rows2d (value_of h p)))) h2 h5 [wp] wq [] [n] (F2 (rows2d (value_of h q))) [] N S5 eq_refl) as (h6 & E6 & S6) end. cbn [app] in S6.
    eapply meets0_step; [rewrite (seqp_ok _ _ _ _ _ E5); exact E6|]. pose proof (st_contents _ _ _ _ S6) as CC. cbn [map] in CC. injection CC as CP CQ.
    do 2 (eapply meets0_step; [reflexivity|]). rewrite CP, CQ. cbn [bind nth noise_vars noise_farr rows2d fsize]. apply meets0_val. apply S6.
Qed.
