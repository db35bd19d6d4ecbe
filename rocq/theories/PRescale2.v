(** C08 for numeric data, supporting lemmas: kernel, nearest-neighbour, Renyi and Tsallis estimators with two bases. *)
From Coq Require Import Reals Lra Lia List ZArith Arith Bool.
From Verif Require Import Res RSum Spec SpecBase SpecRescale MBase MTE MPct MNorm MGeneric MEst MCont MKern MKnn MFam PBase PRescale.
Import ListNotations.
Local Open Scope R_scope.

(** the same arguments with base "e" *)
Definition k_nats (k : kargs) : kargs := mkKargs (k_bw k) (k_kern k) (k_workers k) BE.
Definition n_nats (a : nargs) : nargs := mkNargs (n_k a) (n_id a) (n_noise a) (n_p a) BE.
Definition e_nats (e : eargs) : eargs := mkEargs (e_k e) (e_q e) BE.

Ltac same := apply U_same; intros.
Ltac via L := eapply U_bind; [apply L|]; cbv beta; intros.

Lemma U_mean_res b l m : scl_ b l m -> U (sc_ b) (mean_res l) (mean_res m).
Proof. intros H. pose proof (sc_mean b _ _ H) as S. destruct H; [exact Logic.I|]. exact S. Qed.
Lemma U_mean b r r' : U (scl_ b) r r' -> U (sc_ b) (let* ls := r in mean_res ls) (let* ls := r' in mean_res ls).
Proof. intros H. eapply U_bind; [exact H|]. apply U_mean_res. Qed.

Section Kernel.
Context (E : kenv) (k : kargs) (V : valid_base (k_base k)).
Notation b := (k_base k).
Lemma guard_ok : base_guard b = Ok tt.
Proof. revert V. destruct b as [|r]; cbn; [reflexivity|]. intros [P N]. destruct (Rlt_dec r 0); [lra|reflexivity]. Qed.
Lemma is0 : base_is b 0 = false.
Proof. revert V. destruct b as [|r]; cbn; [reflexivity|]. intros [P N]. destruct (Req_EM_T r 0); [lra|reflexivity]. Qed.
Lemma is1 : base_is b 1 = false.
Proof. revert V. destruct b as [|r]; cbn; [reflexivity|]. intros [P N]. destruct (Req_EM_T r 1); [lra|reflexivity]. Qed.
Lemma U_kent p : U (sc_ b) (kent_local b p) (kent_local BE p).
Proof.
  unfold kent_local. rewrite is1. cbn [base_is andb]. destruct (Req_EM_T p 0); [apply sc0|].
  eapply U_rmap; [apply U_log, V|]. intros. apply sc_opp. assumption.
Qed.
Lemma U_kernel_entropy_local i : U (scl_ b) (kernel_entropy_local E k i) (kernel_entropy_local E (k_nats k) i).
Proof.
  unfold kernel_entropy_local. same. change (kdens E (k_nats k) a) with (kdens E k a). same. rewrite guard_ok, is0. cbn [bind k_base k_nats base_guard base_is].
  destruct a0; [reflexivity|]. apply U_mapM. intros. apply U_kent.
Qed.
Lemma U_kernel_entropy i : U (sc_ b) (kernel_entropy E k i) (kernel_entropy E (k_nats k) i).
Proof. apply U_mean, U_kernel_entropy_local. Qed.
Lemma U_kernel_cross p q : U (sc_ b) (kernel_cross_entropy E k p q) (kernel_cross_entropy E (k_nats k) p q).
Proof.
  unfold kernel_cross_entropy. cbn [k_bw k_kern k_base k_nats]. change (n_workers E (k_nats k)) with (n_workers E k). same. rewrite guard_ok. cbn [bind base_guard].
  destruct a; [reflexivity|]. eapply U_bind; [apply U_logs, V|]. intros. apply U_div. apply sc_opp, sc_sum. assumption.
Qed.
Lemma U_kernel_kld p q : U (sc_ b) (kernel_kld E k p q) (kernel_kld E (k_nats k) p q).
Proof. unfold kernel_kld. via U_kernel_cross. via U_kernel_entropy. cbn. apply sc_minus; assumption. Qed.
Lemma U_kernel_jsd ds : U (sc_ b) (kernel_jsd E k ds) (kernel_jsd E (k_nats k) ds).
Proof.
  unfold kernel_jsd. same. via U_kernel_entropy. eapply U_bind; [apply (U_mapM (sc_ b)); intros; apply U_kernel_entropy|]. intros. cbn.
  apply sc_minus; [assumption|apply sc_div, sc_sum; assumption].
Qed.
Lemma U_kernel_mi_form vs : U (scl_ b) (kernel_mi_form E k vs) (kernel_mi_form E (k_nats k) vs).
Proof.
  unfold kernel_mi_form. same. change (kdens E (k_nats k)) with (kdens E k). same. same. rewrite guard_ok. cbn [bind k_base k_nats base_guard].
  apply U_mapM. intros. same. apply U_log, V.
Qed.
Lemma U_kernel_mi_local o nm vars : U (scl_ b) (kernel_mi_local E k o nm vars) (kernel_mi_local E (k_nats k) o nm vars).
Proof. unfold kernel_mi_local. same. apply U_kernel_mi_form. Qed.
Lemma U_kernel_cmi_local o nm vars c : U (scl_ b) (kernel_cmi_local E k o nm vars c) (kernel_cmi_local E (k_nats k) o nm vars c).
Proof.
  unfold kernel_cmi_local, kernel_cmi_form. same. same. same. change (kdens E (k_nats k)) with (kdens E k). same. same. same. rewrite guard_ok. cbn [bind k_base k_nats base_guard].
  apply U_mapM. intros. same. apply U_log, V.
Qed.
Lemma U_kte n1 n2 d1 d2 : U (sc_ b) (kte_local b n1 n2 d1 d2) (kte_local BE n1 n2 d1 d2).
Proof.
  unfold kte_local. destruct (np_div _ _); [|apply sc0..]. pose proof (U_log b a V) as L. destruct (log_base b a), (log_base BE a); cbn in L; try contradiction; [exact L|exact L|apply sc0].
Qed.
Lemma U_kernel_te_form j p m1 m2 : U (scl_ b) (kernel_te_form E k j p m1 m2) (kernel_te_form E (k_nats k) j p m1 m2).
Proof.
  unfold kernel_te_form. change (kdens E (k_nats k)) with (kdens E k). same. same. same. same. rewrite guard_ok, is0. cbn [bind k_base k_nats base_guard base_is].
  destruct a, a0, a1, a2; try reflexivity. apply U_mapM. intros. apply U_kte.
Qed.
Lemma U_kernel_te_local s d a r : U (scl_ b) (kernel_te_local E k s d a r) (kernel_te_local E (k_nats k) s d a r).
Proof. unfold kernel_te_local. same. same. destruct a1 as [[[? ?] ?] ?]. apply U_kernel_te_form. Qed.
Lemma U_kernel_cte_local s d c a : U (scl_ b) (kernel_cte_local E k s d c a) (kernel_cte_local E (k_nats k) s d c a).
Proof. unfold kernel_cte_local. same. same. destruct a1 as [[[? ?] ?] ?]. apply U_kernel_te_form. Qed.
End Kernel.

Section Knn.
Context (E : nenv) (a : nargs) (V : valid_base (n_base a)).
Notation b := (n_base a).
Lemma U_kl_local i : U (scl_ b) (kl_entropy_local E a i) (kl_entropy_local E (n_nats a) i).
Proof.
  unfold kl_entropy_local. change (kl_check (n_nats a)) with (kl_check a). cbn [n_noise n_p n_id n_base n_nats]. same. same. same. same. same. same. same. same.
  apply U_mapM. intros x _. destruct (a3 x) as [r|]; [|exact Logic.I]. destruct (Req_EM_T r 0); [apply U_to, V|]. same. apply U_to, V.
Qed.
Lemma U_kl_cross p q : U (sc_ b) (kl_cross_entropy E a p q) (kl_cross_entropy E (n_nats a) p q).
Proof.
  unfold kl_cross_entropy. change (kl_check (n_nats a)) with (kl_check a). cbn [n_noise n_p n_id n_base n_nats]. cbv zeta. same. same. destruct (negb _); [reflexivity|].
  same. same. same. same. same. same. same. apply U_to, V.
Qed.
Lemma U_kl_kld p q : U (sc_ b) (kl_kld E a p q) (kl_kld E (n_nats a) p q).
Proof. unfold kl_kld. via U_kl_cross. eapply U_bind; [apply U_mean, U_kl_local|]. intros. cbn. apply sc_minus; assumption. Qed.
Lemma U_ksg_mi_form k vs : U (scl_ b) (ksg_mi_form a k vs) (ksg_mi_form (n_nats a) k vs).
Proof. unfold ksg_mi_form. cbn [n_noise n_p n_id n_base n_nats]. cbv zeta. same. same. same. apply U_mapM. intros. same. same. apply U_to, V. Qed.
Lemma U_ksg_mi_local o nm vars : U (scl_ b) (ksg_mi_local E a o nm vars) (ksg_mi_local E (n_nats a) o nm vars).
Proof.
  unfold ksg_mi_local. change (id_ok (n_nats a)) with (id_ok a). change (int_k (n_nats a)) with (int_k a). cbn [n_noise n_nats]. same. destruct (negb _); [reflexivity|]. same. same. apply U_ksg_mi_form.
Qed.
Lemma U_ksg_cmi_local o nm vars c : U (scl_ b) (ksg_cmi_local E a o nm vars c) (ksg_cmi_local E (n_nats a) o nm vars c).
Proof.
  unfold ksg_cmi_local. change (id_ok (n_nats a)) with (id_ok a). change (int_k (n_nats a)) with (int_k a). cbn [n_noise n_nats]. same. same. destruct (negb _); [reflexivity|]. same. same.
  unfold ksg_cmi_form. cbn [n_p n_id n_base n_nats]. cbv zeta. same. same. same. same. apply U_mapM. intros. same. same. apply U_to, V.
Qed.
Lemma U_ksg_te_form k j p m1 m2 : U (scl_ b) (ksg_te_form a k j p m1 m2) (ksg_te_form (n_nats a) k j p m1 m2).
Proof. unfold ksg_te_form. cbn [n_p n_id n_base n_nats]. cbv zeta. same. same. apply U_mapM. intros. same. same. same. apply U_to, V. Qed.
Lemma U_ksg_te_local s d t r : U (scl_ b) (ksg_te_local E a s d t r) (ksg_te_local E (n_nats a) s d t r).
Proof.
  unfold ksg_te_local. change (id_ok (n_nats a)) with (id_ok a). change (int_k (n_nats a)) with (int_k a). cbn [n_noise n_nats]. same. destruct (negb _); [reflexivity|]. same. same.
  destruct a2 as [[[? ?] ?] ?]. same. apply U_ksg_te_form.
Qed.
Lemma U_ksg_cte_local s d c t : U (scl_ b) (ksg_cte_local E a s d c t) (ksg_cte_local E (n_nats a) s d c t).
Proof.
  unfold ksg_cte_local. change (id_ok (n_nats a)) with (id_ok a). change (int_k (n_nats a)) with (int_k a). cbn [n_noise n_nats]. same. destruct (negb _); [reflexivity|]. same. same.
  destruct a2 as [[[? ?] ?] ?]. same. apply U_ksg_te_form.
Qed.
End Knn.

(** Renyi and Tsallis: [P] is "times ln b" for Renyi and for order 1, equality for Tsallis of another order *)
Section Fam.
Context (E : nenv) (e : eargs) (V : valid_base (e_base e)).
Notation b := (e_base e).
Lemma U_i1 k vm rho n m : U (sc_ b) (exp_i1 k vm rho n m b) (exp_i1 k vm rho n m BE).
Proof. unfold exp_i1. cbv zeta. same. eapply U_bind; [apply U_logs, V|]. intros. apply U_div, sc_sum. assumption. Qed.
Lemma U_renyi_of q G k vm rho n m : U (sc_ b) (renyi_of b q G k vm rho n m) (renyi_of BE q G k vm rho n m).
Proof.
  unfold renyi_of. destruct (Req_EM_T q 1); [apply U_i1|]. same. destruct (Req_EM_T a 0); [apply sc0|]. eapply U_bind; [apply U_log, V|]. intros. apply U_div. assumption.
Qed.
Lemma U_expfam (P : R -> R -> Prop) of i :
  (forall q G k vm rho n m, e_q e = ONum q -> U P (of b q G k vm rho n m) (of BE q G k vm rho n m)) -> U P (expfam of E e i) (expfam of E (e_nats e) i).
Proof.
  intros F. unfold expfam. change (e_check (e_nats e)) with (e_check e). same. same. same. destruct a1 as [[[? ?] ?] ?]. same. cbn [e_base e_nats]. apply F.
  revert H0. unfold e_check. destruct (e_q e) as [q|]; [|discriminate]. destruct (Rle_dec q 0); [discriminate|]. destruct (e_k e); [|discriminate]. destruct (Z.leb _ _); [discriminate|]. intros Q. injection Q as <-. reflexivity.
Qed.
Lemma U_expfam_cross (P : R -> R -> Prop) of p q0 :
  (forall q G k vm rho n m, e_q e = ONum q -> U P (of b q G k vm rho n m) (of BE q G k vm rho n m)) -> U P (expfam_cross of E e p q0) (expfam_cross of E (e_nats e) p q0).
Proof.
  intros F. unfold expfam_cross. change (e_check (e_nats e)) with (e_check e). same. same. destruct a0 as [[[? ?] ?] ?]. same. cbn [e_base e_nats]. apply F.
  revert H. unfold e_check. destruct (e_q e) as [q|]; [|discriminate]. destruct (Rle_dec q 0); [discriminate|]. destruct (e_k e); [|discriminate]. destruct (Z.leb _ _); [discriminate|]. intros Q. injection Q as <-. reflexivity.
Qed.
(** combinations of entropies that are related *)
Section Comb.
Context (H H' : finput -> res R) (HH : forall i, U (sc_ b) (H i) (H' i)).
Lemma U_fmi data : U (sc_ b) (MFam.gen_mi H data) (MFam.gen_mi H' data).
Proof. unfold MFam.gen_mi. same. eapply U_bind; [apply (U_mapM (sc_ b)); intros; apply HH|]. intros. via HH. cbn. apply sc_minus; [apply sc_sum|]; assumption. Qed.
Lemma U_fcmi data c : U (sc_ b) (MFam.gen_cmi H data c) (MFam.gen_cmi H' data c).
Proof. unfold MFam.gen_cmi. same. eapply U_bind; [apply (U_mapM (sc_ b)); intros; apply HH|]. intros. via HH. via HH. cbn. apply sc_minus; [apply sc_minus; [apply sc_sum|]|]; assumption. Qed.
Lemma U_fte j p m1 m2 : U (sc_ b) (MFam.gen_te H j p m1 m2) (MFam.gen_te H' j p m1 m2).
Proof. unfold MFam.gen_te. via HH. via HH. via HH. via HH. cbn. apply sc_minus; [apply sc_minus; [apply sc_plus|]|]; assumption. Qed.
End Comb.
Definition scaling (f : family) : Prop := f = Renyi \/ e_q e = ONum 1.
Lemma U_fam_entropy f i : scaling f -> U (sc_ b) (fam_entropy f E e i) (fam_entropy f E (e_nats e) i).
Proof.
  intros S. destruct f; cbn [fam_entropy]; apply U_expfam; intros; [apply U_renyi_of|]. destruct S as [S|S]; [discriminate|]. rewrite S in H. injection H as <-.
  unfold tsallis_of. destruct (Req_EM_T 1 1) as [_|C]; [apply U_i1|congruence].
Qed.
Lemma tsallis_same q i : e_q e = ONum q -> q <> 1 -> fam_entropy Tsallis E e i = fam_entropy Tsallis E (e_nats e) i.
Proof.
  intros Q N. assert (X : U eq (fam_entropy Tsallis E e i) (fam_entropy Tsallis E (e_nats e) i)).
  { apply U_expfam. intros q' G k vm rho n m Q'. rewrite Q in Q'. injection Q' as <-. unfold tsallis_of. destruct (Req_EM_T q 1); [contradiction|]. same. apply U_refl. reflexivity. }
  destruct (fam_entropy Tsallis E e i), (fam_entropy Tsallis E (e_nats e) i); cbn in X; congruence || contradiction.
Qed.
Lemma U_fam_mi f noise o nm vars : scaling f -> U (sc_ b) (fam_mi f E e noise o nm vars) (fam_mi f E (e_nats e) noise o nm vars).
Proof. intros S. unfold fam_mi. change (e_check (e_nats e)) with (e_check e). same. same. same. apply U_fmi. intros. apply U_fam_entropy, S. Qed.
Lemma U_fam_cmi f noise o nm vars c : scaling f -> U (sc_ b) (fam_cmi f E e noise o nm vars c) (fam_cmi f E (e_nats e) noise o nm vars c).
Proof. intros S. unfold fam_cmi. change (e_check (e_nats e)) with (e_check e). same. same. same. same. apply U_fcmi. intros. apply U_fam_entropy, S. Qed.
Lemma U_fam_te f noise s d t r : scaling f -> U (sc_ b) (fam_te f E e noise s d t r) (fam_te f E (e_nats e) noise s d t r).
Proof. intros S. unfold fam_te. change (e_check (e_nats e)) with (e_check e). same. same. same. same. destruct a2 as [[[? ?] ?] ?]. apply U_fte. intros. apply U_fam_entropy, S. Qed.
Lemma U_fam_cte f noise s d c t : scaling f -> U (sc_ b) (fam_cte f E e noise s d c t) (fam_cte f E (e_nats e) noise s d c t).
Proof. intros S. unfold fam_cte. change (e_check (e_nats e)) with (e_check e). same. same. same. same. destruct a2 as [[[? ?] ?] ?]. apply U_fte. intros. apply U_fam_entropy, S. Qed.
End Fam.
