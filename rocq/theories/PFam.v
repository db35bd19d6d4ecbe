(** Proofs: combinations of Renyi and Tsallis entropies. *)
From Coq Require Import Reals Lra Lia List ZArith Arith Bool Permutation.
From Verif Require Import Res RSum Spec SpecBase SpecGamma MBase PBase MTE MPct MNorm PropsPct MEst PEst PEst2 MCont SpecKern PKern PKern2 PKern3 MKnn SpecKnn SpecKnn2 PKnn PKnn2 PropsKnn PKnn3 PropsKnn4 PropsKnn5 PKnn4 PropsKnn6 MFam PropsKnn7 SpecFam.
Import ListNotations.
Local Open Scope R_scope.

Lemma tables_tabs n vars : tables n vars -> exists ds, tabs n ds vars.
Proof.
  induction 1 as [|v vars (d & Hd) T (ds & IH)]; [exists []; apply Forall2_nil|]. exists (d :: ds). apply Forall2_cons; assumption.
Qed.
Lemma tabs_perm n ds vars vars' : Permutation vars vars' -> tabs n ds vars -> exists ds', tabs n ds' vars' /\ Permutation ds ds'.
Proof.
  intros P. revert ds. induction P; intros ds T.
  - inversion T; subst. exists []. split; [apply Forall2_nil|constructor].
  - inversion T as [|d v ds0 vs Hd T']; subst. destruct (IHP _ T') as (ds' & T'' & P'). exists (d :: ds'). split; [apply Forall2_cons; assumption|constructor; exact P'].
  - inversion T as [|d v ds0 vs Hd T']; subst. inversion T' as [|d' v' ds1 vs1 Hd' T'']; subst.
    exists (d' :: d :: ds1). split; [repeat (apply Forall2_cons; [assumption|]); assumption|apply perm_swap].
  - destruct (IHP1 _ T) as (d1 & T1 & Q1). destruct (IHP2 _ T1) as (d2 & T2 & Q2). exists d2. split; [exact T2|eapply Permutation_trans; eassumption].
Qed.
Lemma total_dim_perm ds ds' : Permutation ds ds' -> total_dim ds = total_dim ds'.
Proof. unfold total_dim. induction 1; cbn; lia. Qed.
Lemma total_dim_app ds ds' : total_dim (ds ++ ds') = (total_dim ds + total_dim ds')%nat.
Proof. unfold total_dim. induction ds; cbn; lia. Qed.
Lemma tabs_app n ds ds' vs vs' : tabs n ds vs -> tabs n ds' vs' -> tabs n (ds ++ ds') (vs ++ vs').
Proof. unfold tabs. intros. apply Forall2_app; assumption. Qed.

Section H.
  Context (f : family) (E : nenv) (a : eargs).
  Notation H := (fam_entropy f E a).
  (** the entropy of a joint variable *)
  Definition Hj (n : nat) (vars : list (list pt)) : res R := H (FArr (F2 (jrows n vars))).

  Lemma H_rows i i' : make_rows i = make_rows i' -> H i = H i'.
  Proof. intros X. rewrite fam_entropy_eq. unfold expfam. rewrite X. reflexivity. Qed.
  Lemma H_one n v : length v = n -> H (FArr (F2 v)) = Hj n [v].
  Proof. intros L. apply H_rows. cbn [make_rows rows2d]. rewrite single_jrows by exact L. reflexivity. Qed.
  Lemma H_joint n vars : vars <> [] -> tables n vars -> H (FTuple (map F2 vars)) = Hj n vars.
  Proof.
    intros Hv T. apply H_rows. rewrite (make_rows_tuple n).
    - rewrite map_map. cbn [rows2d make_rows]. rewrite map_id. reflexivity.
    - destruct vars; [congruence|discriminate].
    - rewrite map_map. cbn [rows2d]. rewrite map_id. exact T.
  Qed.

  Lemma map_query_dist K (r r' : list pt) : length r = length r' ->
    (forall t u, (t < length r)%nat -> (u < length r)%nat -> dist (MP 2) (nth t r []) (nth u r []) = dist (MP 2) (nth t r' []) (nth u r' [])) ->
    map (query (MP 2) r K) r = map (query (MP 2) r' K) r'.
  Proof.
    intros L D. rewrite <- (map_nth_seq _ r []), <- (map_nth_seq (query (MP 2) r' K) r' []), <- L. apply map_ext_in. intros t Ht. apply in_seq in Ht.
    unfold query. do 2 f_equal. rewrite <- (map_nth_seq (dist (MP 2) (nth t r [])) r []), <- (map_nth_seq (dist (MP 2) (nth t r' [])) r' []), <- L.
    apply map_ext_in. intros u Hu. apply in_seq in Hu. apply D; lia.
  Qed.
  Lemma H_dist r r' : length r = length r' -> width r = width r' ->
    (forall t u, (t < length r)%nat -> (u < length r)%nat -> dist (MP 2) (nth t r []) (nth u r []) = dist (MP 2) (nth t r' []) (nth u r' [])) ->
    H (FArr (F2 r)) = H (FArr (F2 r')).
  Proof.
    intros L W D. rewrite fam_entropy_eq. unfold expfam. cbn [make_rows rows2d bind]. destruct (e_check a) as [kq| |]; cbn [bind]; try reflexivity.
    replace (components (gam E) r' (fst kq) None) with (components (gam E) r (fst kq) None); [reflexivity|].
    unfold components. cbn [bind]. rewrite <- L, <- W. destruct (Z.ltb _ _); [reflexivity|]. destruct (np_div _ _); cbn [bind]; try reflexivity.
    unfold kth_query. destruct (negb (mink_ok (MP 2))); [reflexivity|]. destruct (Z.ltb _ _); [reflexivity|]. destruct (Z.eqb _ _); [reflexivity|].
    cbn [bind]. rewrite (map_query_dist _ r r' L D). reflexivity.
  Qed.
  (** distances decide *)
  Lemma Hj_dist n vars vars' ds ds' : tabs n ds vars -> tabs n ds' vars' -> total_dim ds = total_dim ds' ->
    (forall t u, (t < n)%nat -> (u < n)%nat -> jdist (Some 2) vars t u = jdist (Some 2) vars' t u) -> Hj n vars = Hj n vars'.
  Proof.
    intros T T' D J. destruct n as [|n]; [reflexivity|]. apply H_dist; rewrite ?jrows_length; [reflexivity| |].
    - rewrite (jrows_width (S n) ds), (jrows_width (S n) ds') by (try assumption; lia). exact D.
    - intros t u Ht Hu. rewrite !jrows_nth by assumption. rewrite !dist_dst. apply J; assumption.
  Qed.
  Lemma Hj_perm n vars vars' : tables n vars -> Permutation vars vars' -> Hj n vars = Hj n vars'.
  Proof.
    intros T P. destruct (tables_tabs _ _ T) as (ds & Td). destruct (tabs_perm _ _ _ _ P Td) as (ds' & Td' & PD).
    apply (Hj_dist n vars vars' ds ds'); try assumption; [apply total_dim_perm; exact PD|].
    intros t u Ht Hu. apply (jdist_perm (Some 2) n); try assumption; [cbn; lra].
  Qed.
  Lemma Hj_joined n vs ws : Hj n (vs ++ [joined n ws]) = Hj n (vs ++ ws).
  Proof.
    unfold Hj. do 3 f_equal. unfold jrows. apply map_ext_in. intros t Ht. apply in_seq in Ht. apply (joined_sample n vs ws t). lia.
  Qed.

  (** the combinations *)
  Lemma construct_ok n data : data <> [] -> tables n data -> construct (FTuple (map F2 data)) = Ok tt.
  Proof.
    intros Hd T. unfold construct. rewrite (make_rows_tuple n); [reflexivity|destruct data; [congruence|discriminate]|].
    rewrite map_map. cbn [rows2d]. rewrite map_id. exact T.
  Qed.
  Lemma gen_mi_ok n data : data <> [] -> tables n data ->
    gen_mi H data = let* hs := mapM (fun v => Hj n [v]) data in let* hj := Hj n data in Ok (sumR hs - hj).
  Proof.
    intros Hd T. unfold gen_mi. rewrite mapM_app, mapM_map.
    rewrite (mapM_ok _ (fun _ => tt)) by reflexivity. cbn [bind mapM]. rewrite (construct_ok n) by assumption. cbn [bind].
    rewrite (H_joint n) by assumption. f_equal.
    assert (X : forall v, In v data -> H (FArr (F2 v)) = Hj n [v]).
    { intros v Hv. apply H_one. unfold tables in T. rewrite Forall_forall in T. destruct (T v Hv) as (d & L & _). exact L. }
    clear - X. induction data as [|v data IH]; [reflexivity|]. cbn [mapM]. rewrite X by (left; reflexivity).
    destruct (Hj n [v]); cbn [bind]; try reflexivity. rewrite IH; [reflexivity|]. intros; apply X; right; assumption.
  Qed.
  Lemma mapM_ext {A B} (g h : A -> res B) l : (forall x, In x l -> g x = h x) -> mapM g l = mapM h l.
  Proof.
    induction l as [|x l IH]; intros X; [reflexivity|]. cbn [mapM]. rewrite X by (left; reflexivity).
    destruct (h x); cbn [bind]; try reflexivity. rewrite IH; [reflexivity|]. intros; apply X; right; assumption.
  Qed.
  Lemma tables_in n data v : tables n data -> In v data -> exists d, table n d v.
  Proof. unfold tables. rewrite Forall_forall. auto. Qed.
  Lemma gen_cmi_ok n data z : data <> [] -> tables n data -> tables n [z] ->
    gen_cmi H data z = let* hs := mapM (fun v => Hj n [v; z]) data in let* hj := Hj n (data ++ [z]) in let* hz := Hj n [z] in Ok (sumR hs - hj - hz).
  Proof.
    intros Hd T Tz. assert (TA : tables n (data ++ [z])) by (unfold tables in *; apply Forall_app; auto).
    assert (T2 : forall v, In v data -> tables n [v; z]).
    { intros v Hv. unfold tables. apply Forall_cons; [apply (tables_in n data); assumption|exact Tz]. }
    unfold gen_cmi. rewrite mapM_app, mapM_map.
    rewrite (mapM_ok _ (fun _ => tt)) by (intros v Hv; apply (construct_ok n [v; z]); [discriminate|apply T2; exact Hv]).
    cbn [bind mapM]. rewrite (construct_ok n) by (try assumption; destruct data; discriminate). cbn [bind construct make_rows].
    rewrite (H_joint n) by (try assumption; destruct data; discriminate).
    rewrite (H_one n z) by (destruct (tables_in n [z] z Tz (or_introl eq_refl)) as (d & L & _); exact L).
    rewrite (mapM_ext (fun v => H (FTuple [F2 v; F2 z])) (fun v => Hj n [v; z])); [reflexivity|].
    intros v Hv. apply (H_joint n [v; z]); [discriminate|apply T2; exact Hv].
  Qed.
End H.

(** results that are not exceptions do not depend on the order in which they are summed *)
Definition noraise {A} (r : res A) : Prop := match r with Raise _ => False | _ => True end.
Lemma mapM_sum_perm {A} (g : A -> res R) l l' (k : R -> res R) : Permutation l l' -> (forall x, In x l -> noraise (g x)) ->
  (let* hs := mapM g l in k (sumR hs)) = (let* hs := mapM g l' in k (sumR hs)).
Proof.
  intros P. revert k. induction P as [|x l l' P IH|x y l|l l' l'' P1 IH1 P2 IH2]; intros k N; [reflexivity| | |].
  - cbn [mapM]. pose proof (N x (or_introl eq_refl)) as Nx. destruct (g x) as [v| |]; cbn [bind]; try reflexivity.
    assert (N' : forall y, In y l -> noraise (g y)) by (intros; apply N; right; assumption).
    specialize (IH (fun s => k (v + s)) N').
    destruct (mapM g l) as [hs| |], (mapM g l') as [hs'| |]; cbn [bind] in *; unfold sumR in *; cbn [sumf]; exact IH.
  - cbn [mapM]. pose proof (N x (or_intror (or_introl eq_refl))) as Nx. pose proof (N y (or_introl eq_refl)) as Ny.
    destruct (g x) as [v| |], (g y) as [w| |]; cbn [bind noraise] in *; try contradiction; try reflexivity.
    + destruct (mapM g l); cbn [bind]; try reflexivity. unfold sumR. cbn [sumf]. f_equal. ring.
  - rewrite IH1 by exact N. apply IH2. intros x Hx. apply N. apply (Permutation_in x (Permutation_sym P1)). exact Hx.
Qed.

Lemma noraise_bind {A B} (r : res A) (g : A -> res B) : noraise r -> (forall x, noraise (g x)) -> noraise (bind r g).
Proof. destruct r; cbn; intros; [auto|contradiction|exact I]. Qed.
Lemma noraise_mapM {A B} (g : A -> res B) l : (forall x, noraise (g x)) -> noraise (mapM g l).
Proof.
  intros N. induction l as [|x l IH]; [exact I|]. cbn [mapM]. apply noraise_bind; [apply N|]. intros y. apply noraise_bind; [exact IH|]. intros; exact I.
Qed.
Lemma noraise_div x y : noraise (np_div x y). Proof. unfold np_div. destruct (Req_EM_T y 0); exact I. Qed.
Lemma noraise_pow x y : noraise (np_pow x y).
Proof. unfold np_pow. destruct (Rlt_dec 0 x); [exact I|]. destruct (Req_EM_T x 0); [|exact I]. destruct (Rlt_dec 0 y); [exact I|]. destruct (Req_EM_T y 0); exact I. Qed.
Lemma noraise_log x b : valid_base b -> noraise (log_base b x).
Proof.
  intros V. unfold log_base, np_log. destruct b as [|r]; [destruct (Rlt_dec 0 x); exact I|].
  destruct V as [V1 V2]. repeat (match goal with |- context[if ?c then _ else _] => destruct c end; try exact I; try (exfalso; lra)); cbn [bind]; try exact I; apply noraise_div.
Qed.
Lemma noraise_of f b q G k vm rho n m : valid_base b -> noraise (fam_of f b q G k vm rho n m).
Proof.
  intros V. assert (I1 : noraise (exp_i1 k vm rho n m b)).
  { unfold exp_i1, digamma. destruct (Z.leb k 0); [exact I|]. cbn [bind]. apply noraise_bind; [apply noraise_mapM; intros; apply noraise_log; exact V|]. intros; apply noraise_div. }
  assert (IQ : noraise (exp_iq G k q vm rho n m)).
  { unfold exp_iq. destruct (Req_EM_T q _); [exact I|]. apply noraise_bind; [apply noraise_div|]. intros. apply noraise_bind; [apply noraise_pow|]. intros.
    apply noraise_bind; [apply noraise_pow|]. intros. apply noraise_bind; [apply noraise_mapM; intros; apply noraise_pow|]. intros. apply noraise_div. }
  destruct f; cbn [fam_of]; unfold renyi_of, tsallis_of; destruct (Req_EM_T q 1); try exact I1; apply noraise_bind; try exact IQ; intros iq; destruct (Req_EM_T iq 0); try exact I.
  - apply noraise_bind; [apply noraise_log; exact V|]. intros; apply noraise_div.
  - apply noraise_div.
Qed.
Lemma noraise_H f E b k q n r : valid_base b -> (1 <= k < n)%nat -> 0 < q -> length r = n ->
  noraise (fam_entropy f E (ex_args k q b) (FArr (F2 r))).
Proof.
  intros V Hk Hq L. rewrite fam_entropy_eq. unfold expfam. cbn [make_rows rows2d bind]. rewrite e_check_ok by (try lia; lra). cbn [bind fst snd].
  unfold components. cbn [bind]. rewrite L. destruct (Z.ltb_spec (Z.of_nat n) (Z.of_nat k + 1)); [lia|].
  pose proof (noraise_div (Rpower PI (INR (width r) / 2)) (gam E (INR (width r) / 2 + 1))) as Nd.
  destruct (np_div _ _); cbn [bind]; try exact I; [|contradiction].
  rewrite kth_query_ok by (cbn; try lia; lra). cbn [bind]. apply noraise_bind; [|intros; apply noraise_of; exact V].
  apply noraise_mapM. intros [x|]; exact I.
Qed.
