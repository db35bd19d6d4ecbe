(** C09 for numeric data, supporting lemmas: kernel, nearest-neighbour, Renyi and Tsallis estimators with an unusable base. *)
From Coq Require Import Reals Lra Lia List ZArith Arith Bool.
From Verif Require Import Res RSum Spec SpecBase SpecBad MBase MTE MPct MNorm MGeneric MEst MCont MKern MKnn MFam PBase PBad.
Import ListNotations.
Local Open Scope R_scope.
Ltac same := apply W_same; intros.
Ltac via L := eapply W_bind; [apply L|]; cbv beta; intros.

Lemma W_mean_res l : scl l -> W sc (mean_res l).
Proof. intros H. pose proof (sc_mean _ H) as S. destruct H; [exact Logic.I|]. exact S. Qed.
Lemma W_mean r : W scl r -> W sc (let* ls := r in mean_res ls).
Proof. intros H. eapply W_bind; [exact H|]. apply W_mean_res. Qed.

Section Kernel.
Context (E : kenv) (k : kargs) (V : unusable (k_base k)).
Notation b := (k_base k).
Lemma W_kent p : W sc (kent_local b p).
Proof.
  unfold kent_local. destruct (_ && _); destruct (Req_EM_T p 0); try apply sc0.
  eapply W_rmap; [apply W_log, V|]. intros. apply sc_opp. assumption.
Qed.
Lemma W_kernel_entropy_local i : W scl (kernel_entropy_local E k i).
Proof.
  unfold kernel_entropy_local. same. same. same. destruct (base_is _ _); [exact Logic.I|].
  destruct a0; [exact Logic.I|]. apply W_mapM. intros. apply W_kent.
Qed.
Lemma W_kernel_entropy i : W sc (kernel_entropy E k i).
Proof. apply W_mean, W_kernel_entropy_local. Qed.
Lemma W_kernel_cross p q : W sc (kernel_cross_entropy E k p q).
Proof.
  unfold kernel_cross_entropy. same. same.
  destruct a; [exact Logic.I|]. eapply W_bind; [apply W_logs, V|]. intros. apply W_div. apply sc_opp, sc_sum. assumption.
Qed.
Lemma W_kernel_kld p q : W sc (kernel_kld E k p q).
Proof. unfold kernel_kld. via W_kernel_cross. via W_kernel_entropy. cbn. apply sc_minus; assumption. Qed.
Lemma W_kernel_jsd ds : W sc (kernel_jsd E k ds).
Proof.
  unfold kernel_jsd. same. via W_kernel_entropy. eapply W_bind; [apply (W_mapM sc); intros; apply W_kernel_entropy|]. intros. cbn.
  apply sc_minus; [assumption|apply sc_div, sc_sum; assumption].
Qed.
Lemma W_kernel_mi_form vs : W scl (kernel_mi_form E k vs).
Proof.
  unfold kernel_mi_form. same. same. same. same.
  apply W_mapM. intros. same. apply W_log, V.
Qed.
Lemma W_kernel_mi_local o nm vars : W scl (kernel_mi_local E k o nm vars).
Proof. unfold kernel_mi_local. same. apply W_kernel_mi_form. Qed.
Lemma W_kernel_cmi_local o nm vars c : W scl (kernel_cmi_local E k o nm vars c).
Proof.
  unfold kernel_cmi_local, kernel_cmi_form. same. same. same. same. same. same. same.
  apply W_mapM. intros. same. apply W_log, V.
Qed.
Lemma W_kte n1 n2 d1 d2 : W sc (kte_local b n1 n2 d1 d2).
Proof.
  unfold kte_local. destruct (np_div _ _); [|apply sc0..]. pose proof (W_log b a V) as L. destruct (log_base b a); [exact L|exact Logic.I|apply sc0].
Qed.
Lemma W_kernel_te_form j p m1 m2 : W scl (kernel_te_form E k j p m1 m2).
Proof.
  unfold kernel_te_form. same. same. same. same. same. destruct (base_is _ _); [exact Logic.I|].
  destruct a, a0, a1, a2; try exact Logic.I. apply W_mapM. intros. apply W_kte.
Qed.
Lemma W_kernel_te_local s d a r : W scl (kernel_te_local E k s d a r).
Proof. unfold kernel_te_local. same. same. destruct a1 as [[[? ?] ?] ?]. apply W_kernel_te_form. Qed.
Lemma W_kernel_cte_local s d c a : W scl (kernel_cte_local E k s d c a).
Proof. unfold kernel_cte_local. same. same. destruct a1 as [[[? ?] ?] ?]. apply W_kernel_te_form. Qed.
End Kernel.

Section Knn.
Context (E : nenv) (a : nargs) (V : unusable (n_base a)).
Notation b := (n_base a).
Lemma W_kl_local i : W scl (kl_entropy_local E a i).
Proof.
  unfold kl_entropy_local. same. same. same. same. same. same. same. same.
  apply W_mapM. intros x _. destruct (a3 x) as [r|]; [|exact Logic.I]. destruct (Req_EM_T r 0); [apply W_to, V|]. same. apply W_to, V.
Qed.
Lemma W_kl_cross p q : W sc (kl_cross_entropy E a p q).
Proof.
  unfold kl_cross_entropy. cbv zeta. same. same. destruct (negb _); [exact Logic.I|].
  same. same. same. same. same. same. same. apply W_to, V.
Qed.
Lemma W_kl_kld p q : W sc (kl_kld E a p q).
Proof. unfold kl_kld. via W_kl_cross. eapply W_bind; [apply W_mean, W_kl_local|]. intros. cbn. apply sc_minus; assumption. Qed.
Lemma W_ksg_mi_form k vs : W scl (ksg_mi_form a k vs).
Proof. unfold ksg_mi_form. cbv zeta. same. same. same. apply W_mapM. intros. same. same. apply W_to, V. Qed.
Lemma W_ksg_mi_local o nm vars : W scl (ksg_mi_local E a o nm vars).
Proof.
  unfold ksg_mi_local. same. destruct (negb _); [exact Logic.I|]. same. same. apply W_ksg_mi_form.
Qed.
Lemma W_ksg_cmi_local o nm vars c : W scl (ksg_cmi_local E a o nm vars c).
Proof.
  unfold ksg_cmi_local. same. same. destruct (negb _); [exact Logic.I|]. same. same.
  unfold ksg_cmi_form. cbv zeta. same. same. same. same. apply W_mapM. intros. same. same. apply W_to, V.
Qed.
Lemma W_ksg_te_form k j p m1 m2 : W scl (ksg_te_form a k j p m1 m2).
Proof. unfold ksg_te_form. cbv zeta. same. same. apply W_mapM. intros. same. same. same. apply W_to, V. Qed.
Lemma W_ksg_te_local s d t r : W scl (ksg_te_local E a s d t r).
Proof.
  unfold ksg_te_local. same. destruct (negb _); [exact Logic.I|]. same. same.
  destruct a2 as [[[? ?] ?] ?]. same. apply W_ksg_te_form.
Qed.
Lemma W_ksg_cte_local s d c t : W scl (ksg_cte_local E a s d c t).
Proof.
  unfold ksg_cte_local. same. destruct (negb _); [exact Logic.I|]. same. same.
  destruct a2 as [[[? ?] ?] ?]. same. apply W_ksg_te_form.
Qed.
End Knn.

(** Renyi and Tsallis: [P] is "times ln b" for Renyi and for order 1, equality for Tsallis of another order *)
Section Fam.
Context (E : nenv) (e : eargs) (V : unusable (e_base e)).
Notation b := (e_base e).
Lemma W_i1 k vm rho n m : W sc (exp_i1 k vm rho n m b).
Proof. unfold exp_i1. cbv zeta. same. eapply W_bind; [apply W_logs, V|]. intros. apply W_div, sc_sum. assumption. Qed.
Lemma W_renyi_of q G k vm rho n m : W sc (renyi_of b q G k vm rho n m).
Proof.
  unfold renyi_of. destruct (Req_EM_T q 1); [apply W_i1|]. same. destruct (Req_EM_T a 0); [apply sc0|]. eapply W_bind; [apply W_log, V|]. intros. apply W_div. assumption.
Qed.
Lemma W_expfam of i : (forall q G k vm rho n m, e_q e = ONum q -> W sc (of b q G k vm rho n m)) -> W sc (expfam of E e i).
Proof.
  intros F. unfold expfam. same. same. same. destruct a1 as [[[? ?] ?] ?]. same. apply F.
  revert H0. unfold e_check. destruct (e_q e) as [q|]; [|discriminate]. destruct (Rle_dec q 0); [discriminate|]. destruct (e_k e); [|discriminate]. destruct (Z.leb _ _); [discriminate|]. intros Q. injection Q as <-. reflexivity.
Qed.
Lemma W_expfam_cross of p q0 : (forall q G k vm rho n m, e_q e = ONum q -> W sc (of b q G k vm rho n m)) -> W sc (expfam_cross of E e p q0).
Proof.
  intros F. unfold expfam_cross. same. same. destruct a0 as [[[? ?] ?] ?]. same. apply F.
  revert H. unfold e_check. destruct (e_q e) as [q|]; [|discriminate]. destruct (Rle_dec q 0); [discriminate|]. destruct (e_k e); [|discriminate]. destruct (Z.leb _ _); [discriminate|]. intros Q. injection Q as <-. reflexivity.
Qed.
(** combinations of entropies that are related *)
Section Comb.
Context (H : finput -> res R) (HH : forall i, W sc (H i)).
Lemma W_fmi data : W sc (MFam.gen_mi H data).
Proof. unfold MFam.gen_mi. same. eapply W_bind; [apply (W_mapM sc); intros; apply HH|]. intros. via HH. cbn. apply sc_minus; [apply sc_sum|]; assumption. Qed.
Lemma W_fcmi data c : W sc (MFam.gen_cmi H data c).
Proof. unfold MFam.gen_cmi. same. eapply W_bind; [apply (W_mapM sc); intros; apply HH|]. intros. via HH. via HH. cbn. apply sc_minus; [apply sc_minus; [apply sc_sum|]|]; assumption. Qed.
Lemma W_fte j p m1 m2 : W sc (MFam.gen_te H j p m1 m2).
Proof. unfold MFam.gen_te. via HH. via HH. via HH. via HH. cbn. apply sc_minus; [apply sc_minus; [apply sc_plus|]|]; assumption. Qed.
End Comb.
Definition scaling (f : family) : Prop := f = Renyi \/ e_q e = ONum 1.
Lemma W_fam_entropy f i : scaling f -> W sc (fam_entropy f E e i).
Proof.
  intros S. destruct f; cbn [fam_entropy]; apply W_expfam; intros; [apply W_renyi_of|]. destruct S as [S|S]; [discriminate|]. rewrite S in H. injection H as <-.
  unfold tsallis_of. destruct (Req_EM_T 1 1) as [_|C]; [apply W_i1|congruence].
Qed.
Lemma W_fam_mi f noise o nm vars : scaling f -> W sc (fam_mi f E e noise o nm vars).
Proof. intros S. unfold fam_mi. same. same. same. apply W_fmi. intros. apply W_fam_entropy, S. Qed.
Lemma W_fam_cmi f noise o nm vars c : scaling f -> W sc (fam_cmi f E e noise o nm vars c).
Proof. intros S. unfold fam_cmi. same. same. same. same. apply W_fcmi. intros. apply W_fam_entropy, S. Qed.
Lemma W_fam_te f noise s d t r : scaling f -> W sc (fam_te f E e noise s d t r).
Proof. intros S. unfold fam_te. same. same. same. same. destruct a2 as [[[? ?] ?] ?]. apply W_fte. intros. apply W_fam_entropy, S. Qed.
Lemma W_fam_cte f noise s d c t : scaling f -> W sc (fam_cte f E e noise s d c t).
Proof. intros S. unfold fam_cte. same. same. same. same. destruct a2 as [[[? ?] ?] ?]. apply W_fte. intros. apply W_fam_entropy, S. Qed.
End Fam.
