(** Property theorems: a negative logarithm base is refused with ValueError (C09). *)
From Coq Require Import Reals Lra Lia List ZArith Arith Bool.
From Verif Require Import Res RSum Spec SpecBase SpecNeg Ord MBase MData MEntropy MMI MTE MGeneric MEst SpecOrd MOrd MDiv MCont MKern PBase PMI PMI2 PMI3 PMI4 PMI5 PropsStab PropsCons PNeg.
Import ListNotations.
Local Open Scope R_scope.

Theorem C09_negative_base_symbols r i o vars c s d t : r < 0 ->
  refused_or_zero (entropy_discrete (BNum r) i) (entropy_discrete BE i) /\
  refused_or_zeros (local_discrete (BNum r) i) (local_discrete BE i) /\
  refused_or_zero (entropy_of est_shrink (BNum r) i) (entropy_of est_shrink BE i) /\
  (forall a K, refused_or_zero (entropy_of (est_bayes a K) (BNum r) i) (entropy_of (est_bayes a K) BE i)) /\
  refused_or_zero (mi_discrete (BNum r) o vars) (mi_discrete BE o vars) /\
  refused_or_zeros (mi_discrete_local (BNum r) o vars) (mi_discrete_local BE o vars) /\
  refused_or_zero (cmi_discrete (BNum r) vars c) (cmi_discrete BE vars c) /\
  refused_or_zeros (cmi_discrete_local (BNum r) vars c) (cmi_discrete_local BE vars c) /\
  refused_or_zero (te_discrete (BNum r) s d t) (te_discrete BE s d t) /\
  refused_or_zeros (te_discrete_local (BNum r) s d t) (te_discrete_local BE s d t) /\
  refused_or_zero (cte_discrete (BNum r) s d c t) (cte_discrete BE s d c t) /\
  refused_or_zeros (cte_discrete_local (BNum r) s d c t) (cte_discrete_local BE s d c t).
Proof.
  intros V. repeat match goal with |- _ /\ _ => split end; intros; (apply to_zero || apply to_zeros).
  - apply Neg_entropy_discrete, V.
  - apply Neg_local_discrete, V.
  - apply Neg_entropy_shrink, V.
  - apply Neg_entropy_bayes, V.
  - apply Neg_same. intros. apply Neg_mi, V.
  - apply Neg_same. intros. apply Neg_mi_local, V.
  - apply Neg_same. intros. apply Neg_same. intros. apply Neg_cmi, V.
  - apply Neg_same. intros. apply Neg_same. intros. apply Neg_cmi_local, V.
  - apply Neg_same. intros. apply Neg_same. intros [[? ?] ?] _. apply Neg_te_form, V.
  - apply Neg_same. intros. apply Neg_same. intros [[? ?] ?] _. apply Neg_te_form_local, V.
  - apply Neg_same. intros. apply Neg_same. intros. apply Neg_same. intros [[[? ?] ?] ?] _. apply Neg_cte_form, V.
  - apply Neg_same. intros. apply Neg_same. intros. apply Neg_same. intros [[[? ?] ?] ?] _. apply Neg_cte_form_local, V.
Qed.
Print Assumptions C09_negative_base_symbols.

Theorem C09_negative_base_divergences r p q vars : r < 0 ->
  refused_or_zero (cross_of discrete_cross (BNum r) p q) (cross_of discrete_cross BE p q) /\
  refused_or_zero (kld_disc (BNum r) p q) (kld_disc BE p q) /\
  refused_or_zero (jsd_discrete (BNum r) vars) (jsd_discrete BE vars) /\
  refused_or_zero (jsd_shrink (BNum r) vars) (jsd_shrink BE vars) /\
  (forall a K, refused_or_zero (cross_of (bayes_cross a K) (BNum r) p q) (cross_of (bayes_cross a K) BE p q) /\
     refused_or_zero (kld_bayes a K (BNum r) p q) (kld_bayes a K BE p q) /\
     refused_or_zero (jsd_bayes a K (BNum r) vars) (jsd_bayes a K BE vars)).
Proof.
  intros V. repeat match goal with |- _ /\ _ => split end; intros; repeat match goal with |- _ /\ _ => split end; apply to_zero.
  - apply Neg_cross_of. intros. apply Neg_discrete_cross, V.
  - apply Neg_kld_of; intros; [apply Neg_discrete_cross, V|apply Neg_plogp, V].
  - apply Neg_jsd_discrete, V.
  - apply Neg_jsd_probs, V.
  - apply Neg_cross_of. intros. apply Neg_bayes_cross, V.
  - apply Neg_kld_of; intros; [apply Neg_bayes_cross, V|apply Neg_same; intros; apply Neg_plogp, V].
  - apply Neg_jsd_probs, V.
Qed.
Print Assumptions C09_negative_base_divergences.

Theorem C09_negative_base_ordinal {T} `{Cmp T} (k : kind T) r d s : r < 0 ->
  (forall xs, refused_or_zero (entropy_ordinal k (BNum r) xs d s) (entropy_ordinal k BE xs d s)) /\
  (forall cols, refused_or_zero (joint_entropy_ordinal k (BNum r) cols d s) (joint_entropy_ordinal k BE cols d s)) /\
  (forall p q, refused_or_zero (cross_entropy_ordinal k (BNum r) p q d s) (cross_entropy_ordinal k BE p q d s)) /\
  (forall p q, refused_or_zero (kld_ordinal k (BNum r) p q d s) (kld_ordinal k BE p q d s)) /\
  (forall vars, refused_or_zero (jsd_ordinal k (BNum r) vars d s) (jsd_ordinal k BE vars d s)) /\
  (forall o vars, refused_or_zero (mi_ordinal k (BNum r) o vars d s) (mi_ordinal k BE o vars d s)) /\
  (forall vars c, refused_or_zero (cmi_ordinal k (BNum r) vars c d s) (cmi_ordinal k BE vars c d s)) /\
  (forall x y l kk st rnd, refused_or_zero (te_ordinal k (BNum r) x y d l kk st rnd) (te_ordinal k BE x y d l kk st rnd)) /\
  (forall x y c l kk m st, refused_or_zero (cte_ordinal k (BNum r) x y c d l kk m st) (cte_ordinal k BE x y c d l kk m st)).
Proof.
  intros V. repeat match goal with |- _ /\ _ => split end; intros; apply to_zero.
  - apply Neg_entropy_ordinal, V.
  - apply Neg_joint_ordinal, V.
  - apply Neg_cross_ordinal, V.
  - apply Neg_kld_ordinal, V.
  - apply Neg_jsd_ordinal, V.
  - apply Neg_mi_ordinal, V.
  - apply Neg_cmi_ordinal, V.
  - apply Neg_te_ordinal, V.
  - apply Neg_cte_ordinal, V.
Qed.
Print Assumptions C09_negative_base_ordinal.

(** ** kernel estimators: checked before anything is computed, so there is no exception *)
Section Kernel.
Variables (E : kenv) (bw : barg) (kn : kern) (w : Z) (r : R).
Hypothesis V : r < 0.
Let neg := mkKargs bw kn w (BNum r).
Let nats := mkKargs bw kn w BE.
Lemma guard_neg : base_guard (BNum r) = Raise ValueError.
Proof using V. unfold base_guard. destruct (Rlt_dec r 0); [reflexivity|contradiction]. Qed.
Lemma k_mean m n : Neg Never m n -> Neg Never (let* ls := m in mean_res ls) (let* ls := n in mean_res ls).
Proof using. apply Neg_never. Qed.
Ltac grd := cbn [k_base neg nats]; rewrite guard_neg; cbn [bind]; let u := fresh in intros u _; left; reflexivity.
Lemma k_entropy_local i : Neg Never (kernel_entropy_local E neg i) (kernel_entropy_local E nats i).
Proof using V. unfold kernel_entropy_local. apply Neg_same. intros. change (kdens E nats a) with (kdens E neg a). apply Neg_same. intros. grd. Qed.
Lemma k_entropy i : Neg Never (kernel_entropy E neg i) (kernel_entropy E nats i).
Proof using V. apply k_mean, k_entropy_local. Qed.
Lemma k_cross p q : Neg Never (kernel_cross_entropy E neg p q) (kernel_cross_entropy E nats p q).
Proof using V.
  unfold kernel_cross_entropy. cbn [k_bw k_kern neg nats]. change (n_workers E nats) with (n_workers E neg). apply Neg_same. intros. grd.
Qed.
Lemma k_mi_local o nm vars : Neg Never (kernel_mi_local E neg o nm vars) (kernel_mi_local E nats o nm vars).
Proof using V.
  unfold kernel_mi_local. apply Neg_same. intros. unfold kernel_mi_form. apply Neg_same. intros. change (kdens E nats) with (kdens E neg).
  apply Neg_same. intros. apply Neg_same. intros. grd.
Qed.
Lemma k_cmi_local o nm vars c : Neg Never (kernel_cmi_local E neg o nm vars c) (kernel_cmi_local E nats o nm vars c).
Proof using V.
  unfold kernel_cmi_local. apply Neg_same. intros. apply Neg_same. intros. unfold kernel_cmi_form. apply Neg_same. intros. change (kdens E nats) with (kdens E neg).
  apply Neg_same. intros. apply Neg_same. intros. apply Neg_same. intros. grd.
Qed.
Lemma k_te_form j p m1 m2 : Neg Never (kernel_te_form E neg j p m1 m2) (kernel_te_form E nats j p m1 m2).
Proof using V.
  unfold kernel_te_form. change (kdens E nats) with (kdens E neg). apply Neg_same. intros. apply Neg_same. intros. apply Neg_same. intros. apply Neg_same. intros. grd.
Qed.
Lemma k_te_local s d t rnd : Neg Never (kernel_te_local E neg s d t rnd) (kernel_te_local E nats s d t rnd).
Proof using V. unfold kernel_te_local. apply Neg_same. intros. apply Neg_same. intros [[[? ?] ?] ?] _. apply k_te_form. Qed.
Lemma k_cte_local s d c t : Neg Never (kernel_cte_local E neg s d c t) (kernel_cte_local E nats s d c t).
Proof using V. unfold kernel_cte_local. apply Neg_same. intros. apply Neg_same. intros [[[? ?] ?] ?] _. apply k_te_form. Qed.

Theorem C09_negative_base_kernel :
  (forall i, refused (kernel_entropy E neg i) (kernel_entropy E nats i) /\ refused (kernel_entropy_local E neg i) (kernel_entropy_local E nats i)) /\
  (forall p q, refused (kernel_cross_entropy E neg p q) (kernel_cross_entropy E nats p q)) /\
  (forall p q, refused (kernel_kld E neg p q) (kernel_kld E nats p q)) /\
  (forall ds, refused (kernel_jsd E neg ds) (kernel_jsd E nats ds)) /\
  (forall o nm vars, refused (kernel_mi E neg o nm vars) (kernel_mi E nats o nm vars) /\
     refused (kernel_mi_local E neg o nm vars) (kernel_mi_local E nats o nm vars)) /\
  (forall o nm vars c, refused (kernel_cmi E neg o nm vars c) (kernel_cmi E nats o nm vars c) /\
     refused (kernel_cmi_local E neg o nm vars c) (kernel_cmi_local E nats o nm vars c)) /\
  (forall s d t rnd, refused (kernel_te E neg s d t rnd) (kernel_te E nats s d t rnd) /\
     refused (kernel_te_local E neg s d t rnd) (kernel_te_local E nats s d t rnd)) /\
  (forall s d c t, refused (kernel_cte E neg s d c t) (kernel_cte E nats s d c t) /\
     refused (kernel_cte_local E neg s d c t) (kernel_cte_local E nats s d c t)).
Proof using V.
  repeat match goal with |- _ /\ _ => split end; intros; repeat match goal with |- _ /\ _ => split end; apply to_refused.
  - apply k_entropy.
  - apply k_entropy_local.
  - apply k_cross.
  - unfold kernel_kld. apply Neg_never, k_cross.
  - unfold kernel_jsd. apply Neg_same. intros. apply Neg_never, k_entropy.
  - apply k_mean, k_mi_local.
  - apply k_mi_local.
  - apply k_mean, k_cmi_local.
  - apply k_cmi_local.
  - apply k_mean, k_te_local.
  - apply k_te_local.
  - apply k_mean, k_cte_local.
  - apply k_cte_local.
Qed.
End Kernel.
Print Assumptions C09_negative_base_kernel.

(** cases: two bits that agree have ln 2 nats of mutual information, so base -2 is refused; with a constant variable the
    result is 0 whatever the base *)
Example C09_negative_base_example :
  mi_discrete (BNum (-2)) (Some 0%Z) [A1 [0; 1]%Z; A1 [0; 1]%Z] = Raise ValueError /\
  mi_discrete (BNum (-2)) (Some 0%Z) [A1 [0; 1]%Z; A1 [5; 5]%Z] = Ok 0.
Proof.
  split; [|reflexivity].
  destruct (C09_negative_base_symbols (-2) (EArr (A1 [])) (Some 0%Z) [A1 [0; 1]%Z; A1 [0; 1]%Z] (RArr (A1 [])) (A1 []) (A1 [])
    (mkTE (NInt 1) (NInt 1) (NInt 1) (NInt 1) None None) ltac:(lra)) as (_ & _ & _ & _ & M & _).
  destruct (M (MI [0; 1]%Z [0; 1]%Z / unit_of BE)) as [X|[_ X]].
  - apply mi2_api; [exact Logic.I|reflexivity|discriminate|vm_compute; reflexivity].
  - exact X.
  - exfalso. unfold MI, Ent, prob, count in X. simpl in X. replace (1 / (1 + 1)) with (/ 2) in X by field. rewrite ln_Rinv in X by lra.
    pose proof ln_lt_2. lra.
Qed.
