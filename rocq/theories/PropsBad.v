(** C09 for every measure: with a base that is negative, zero or one no call returns a number other than 0.  (Whether it raises
    ValueError, returns 0 or is not finite differs between the measures; see the _refuted theorems in PropsMI.v.)
    For base 0 the shape of the local values is not modelled (see [log_base]), so the statements about local values and about
    the estimators that combine them leave base 0 out. *)
From Coq Require Import Reals Lra Lia List ZArith Arith Bool.
From Verif Require Import Res RSum Spec SpecBase SpecBad Ord MBase MData MEntropy MMI MTE MPct MNorm MGeneric MEst MNsb MComb MOrd MDiv MCont MKern MKnn MFam PBase PBad PBad2 PRescale2 PropsRescale.
Import ListNotations.
Local Open Scope R_scope.

Lemma unusable_of b : negative_or_one b -> unusable b.
Proof. intros (r & E & D). exists r. split; [exact E|]. lra. Qed.
Lemma all_bad b a K KA KN E e : unusable b -> In e (estimators a K KA KN E) -> bad_est b e.
Proof.
  intros V Hin. cbn [estimators In] in Hin.
  repeat (destruct Hin as [<-|Hin]; [first [apply bad_est_discrete|apply bad_est_mm|apply bad_est_shrink|apply bad_est_bayes|apply bad_est_zhang|apply bad_est_cs|apply bad_est_cwj|apply bad_est_ansb|apply bad_est_bonachela|apply bad_est_grassberger|apply bad_est_nsb]; exact V|]).
  contradiction.
Qed.

Theorem C09_every_entropy : forall b a K KA KN E e i, In e (estimators a K KA KN E) ->
  (unusable b -> no_wrong_number (entropy_of e b i)) /\ (negative_or_one b -> no_wrong_local (local_of e b i)).
Proof.
  intros b a K KA KN E e i Hin. split; intros V; [|apply unusable_of in V]; pose proof (all_bad b _ _ _ _ _ _ V Hin) as F.
  - apply to_no_wrong, W_entropy, F.
  - apply to_no_wrong_local, W_local_of, F.
Qed.
Theorem C09_every_combination : forall b a K KA KN E e, negative_or_one b -> In e (estimators a K KA KN E) ->
  (forall o vars, no_wrong_value (MGeneric.gen_mi e b o vars)) /\ (forall vars c, no_wrong_value (MGeneric.gen_cmi e b vars c)) /\
  (forall s d t rnd, no_wrong_value (MGeneric.gen_te e b s d t rnd)) /\ (forall s d c t, no_wrong_value (MGeneric.gen_cte e b s d c t)).
Proof.
  intros b a K KA KN E e V Hin. apply unusable_of in V. pose proof (all_bad b _ _ _ _ _ _ V Hin) as F.
  split; [|split; [|split]]; intros; apply to_no_wrong_value; [apply W_gen_mi|apply W_gen_cmi|apply W_gen_te|apply W_gen_cte]; exact F.
Qed.
Theorem C09_every_mi : forall b o vars,
  (unusable b -> no_wrong_number (mi_discrete b o vars) /\ no_wrong_number (mi_mm b o vars)) /\
  (negative_or_one b -> no_wrong_local (mi_discrete_local b o vars) /\ no_wrong_local (mi_mm_local b o vars)).
Proof.
  intros b o vars. unfold mi_discrete, mi_mm, mi_discrete_local, mi_mm_local.
  split; intros V; [|apply unusable_of in V]; split; (apply to_no_wrong || apply to_no_wrong_local); apply W_same; intros vs Hi; (apply W_mi_local || apply W_mi); auto; constructor.
Qed.
Theorem C09_every_cmi : forall b vars,
  (unusable b -> (forall c, no_wrong_number (cmi_discrete b vars c)) /\ forall c, no_wrong_number (cmi_mm b vars c)) /\
  (negative_or_one b -> (forall c, no_wrong_local (cmi_discrete_local b vars c)) /\ forall c, no_wrong_local (cmi_mm_local b vars c)).
Proof.
  intros b vars. unfold cmi_discrete, cmi_discrete_local, cmi_mm, cmi_mm_local.
  split; intros V; [|apply unusable_of in V]; split; intros c; (apply to_no_wrong || apply to_no_wrong_local);
    repeat (match goal with |- W _ (bind _ _) => apply W_same; intros end); (apply W_cmi_local || apply W_cmi); auto; constructor.
Qed.
Theorem C09_every_te : forall b s d t rnd mm, mm = None \/ mm = Some b ->
  (unusable b -> no_wrong_number (te_gen b mm s d t rnd)) /\ (negative_or_one b -> no_wrong_local (te_gen_local b mm s d t rnd)).
Proof.
  intros b s d t rnd mm M. assert (R0 : mmr b mm) by (destruct M as [-> | ->]; constructor).
  split; intros V; [|apply unusable_of in V]; destruct (W_te b V mm s d t rnd R0); [apply to_no_wrong|apply to_no_wrong_local]; assumption.
Qed.
Theorem C09_every_cte : forall b s d t,
  (unusable b -> (forall c, no_wrong_number (cte_discrete b s d c t)) /\ forall c, no_wrong_number (cte_mm b s d c t)) /\
  (negative_or_one b -> (forall c, no_wrong_local (cte_discrete_local b s d c t)) /\ forall c, no_wrong_local (cte_mm_local b s d c t)).
Proof.
  intros b s d t. split; intros V; [|apply unusable_of in V]; split; intros c; (apply to_no_wrong || apply to_no_wrong_local).
  - apply W_same; intros z _; destruct (W_cte b V None s d (A1 z) t (mmr_none b)); assumption.
  - destruct (W_cte b V (Some b) s d c t (mmr_some b)); assumption.
  - apply W_same; intros z _; destruct (W_cte b V None s d (A1 z) t (mmr_none b)); assumption.
  - destruct (W_cte b V (Some b) s d c t (mmr_some b)); assumption.
Qed.
Theorem C09_every_divergence : forall b al K p q, unusable b ->
  no_wrong_number (cross_of discrete_cross b p q) /\ no_wrong_number (cross_of mm_cross b p q) /\ no_wrong_number (cross_of (bayes_cross al K) b p q) /\
  no_wrong_number (kld_disc b p q) /\ no_wrong_number (kld_mm b p q) /\ no_wrong_number (kld_bayes al K b p q) /\
  (forall vars, no_wrong_number (jsd_discrete b vars)) /\ (forall probs vars, no_wrong_number (jsd_probs probs b vars)).
Proof.
  intros b al K p q V.
  assert (C : forall cross : base -> ddata -> ddata -> res R, (forall p q, W sc (cross b p q)) -> no_wrong_number (cross_of cross b p q)).
  { intros cross F. apply to_no_wrong. unfold cross_of. apply W_same. intros. apply W_same. intros. apply F. }
  split; [|split; [|split; [|split; [|split; [|split; [|split; intros]]]]]]; try (apply C; intros); try apply to_no_wrong; try (unfold kld_disc, kld_mm, kld_bayes; apply W_kld; intros).
  all: first [apply W_discrete_cross | apply W_mm_cross | apply W_bayes_cross | apply W_discrete | apply W_mm | apply W_bayes | apply W_jsd_discrete | apply W_jsd_probs]; exact V.
Qed.
Theorem C09_every_ordinal : forall {T} `{Cmp T} (k : kind T) b d s, unusable b ->
  (forall xs, no_wrong_number (entropy_ordinal k b xs d s)) /\ (forall xs, negative_or_one b -> no_wrong_local (local_ordinal k b xs d s)) /\
  (forall cols, no_wrong_number (joint_entropy_ordinal k b cols d s)) /\
  (forall p q, no_wrong_number (cross_entropy_ordinal k b p q d s)) /\ (forall p q, no_wrong_number (kld_ordinal k b p q d s)) /\
  (forall vars, no_wrong_number (jsd_ordinal k b vars d s)) /\
  (forall o vars, no_wrong_number (mi_ordinal k b o vars d s)) /\
  (forall vars c, no_wrong_number (cmi_ordinal k b vars c d s)).
Proof.
  intros T C k b d s V.
  split; [|split; [|split; [|split; [|split; [|split; [|split]]]]]]; intros; (apply to_no_wrong || apply to_no_wrong_local).
  - apply W_ordinal, V. - apply W_ordinal_local, V. - apply W_ordinal_joint, V. - apply W_ordinal_cross, V. - apply W_ordinal_kld, V.
  - apply W_ordinal_jsd, V. - apply W_ordinal_mi, V. - apply W_ordinal_cmi, V.
Qed.
Theorem C09_every_ordinal_te : forall {T} `{Cmp T} (kd : kind T) b x y d l k s, unusable b ->
  (forall rnd, no_wrong_number (te_ordinal kd b x y d l k s rnd)) /\ (forall c m, no_wrong_number (cte_ordinal kd b x y c d l k m s)).
Proof. intros T C kd b x y d l k s V. split; intros; apply to_no_wrong; [apply W_ordinal_te|apply W_ordinal_cte]; exact V. Qed.
Theorem C09_kernel : forall E k, unusable (k_base k) ->
  (forall i, no_wrong_number (kernel_entropy E k i)) /\ (forall p q, no_wrong_number (kernel_cross_entropy E k p q)) /\
  (forall p q, no_wrong_number (kernel_kld E k p q)) /\ (forall ds, no_wrong_number (kernel_jsd E k ds)) /\
  (forall o nm vars, no_wrong_number (kernel_mi E k o nm vars)) /\ (forall o nm vars c, no_wrong_number (kernel_cmi E k o nm vars c)) /\
  (forall s d t rnd, no_wrong_number (kernel_te E k s d t rnd)) /\ (forall s d c t, no_wrong_number (kernel_cte E k s d c t)).
Proof.
  intros E k V. split; [|split; [|split; [|split; [|split; [|split; [|split]]]]]]; intros; apply to_no_wrong;
    try (unfold kernel_mi, kernel_cmi, kernel_te, kernel_cte; apply W_mean);
    first [apply W_kernel_entropy|apply W_kernel_entropy_local|apply W_kernel_cross|apply W_kernel_kld|apply W_kernel_jsd|apply W_kernel_mi_local|apply W_kernel_cmi_local|apply W_kernel_te_local|apply W_kernel_cte_local]; exact V.
Qed.
Theorem C09_metric : forall E a, unusable (n_base a) ->
  (forall i, no_wrong_number (kl_entropy E a i)) /\ (forall p q, no_wrong_number (kl_cross_entropy E a p q)) /\
  (forall p q, no_wrong_number (kl_kld E a p q)) /\
  (forall o nm vars, no_wrong_number (ksg_mi E a o nm vars)) /\ (forall o nm vars c, no_wrong_number (ksg_cmi E a o nm vars c)) /\
  (forall s d t rnd, no_wrong_number (ksg_te E a s d t rnd)) /\ (forall s d c t, no_wrong_number (ksg_cte E a s d c t)).
Proof.
  intros E a V. split; [|split; [|split; [|split; [|split; [|split]]]]]; intros; apply to_no_wrong;
    try (unfold kl_entropy, ksg_mi, ksg_cmi, ksg_te, ksg_cte; apply W_mean);
    first [apply W_kl_local|apply W_kl_cross|apply W_kl_kld|apply W_ksg_mi_local|apply W_ksg_cmi_local|apply W_ksg_te_local|apply W_ksg_cte_local]; exact V.
Qed.
Theorem C09_renyi_tsallis : forall E e f, unusable (e_base e) -> f = Renyi \/ e_q e = ONum 1 ->
  (forall i, no_wrong_number (fam_entropy f E e i)) /\ (forall z o nm vars, no_wrong_number (fam_mi f E e z o nm vars)) /\
  (forall z o nm vars c, no_wrong_number (fam_cmi f E e z o nm vars c)) /\
  (forall z s d t rnd, no_wrong_number (fam_te f E e z s d t rnd)) /\ (forall z s d c t, no_wrong_number (fam_cte f E e z s d c t)).
Proof.
  intros E e f V F. split; [|split; [|split; [|split]]]; intros; apply to_no_wrong; [apply W_fam_entropy|apply W_fam_mi|apply W_fam_cmi|apply W_fam_te|apply W_fam_cte]; assumption.
Qed.
(** a Tsallis entropy of another order never looks at the base: it returns the usual number for any base, valid or not *)
Theorem C09_tsallis_ignores_base_refuted : forall E e q i, e_q e = ONum q -> q <> 1 ->
  fam_entropy Tsallis E e i = fam_entropy Tsallis E (e_nats e) i.
Proof. intros E e q i. apply tsallis_same. Qed.

(** a case: base -2 is unusable, and the discrete entropy of data raises *)
Example C09_every_example : unusable (BNum (-2)) /\ negative_or_one (BNum 1) /\ unusable (BNum 0).
Proof. repeat split; eexists; (split; [reflexivity|lra]). Qed.
