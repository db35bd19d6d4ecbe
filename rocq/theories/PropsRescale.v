(** C08 for every measure: with another base only the unit of a result changes.  Each statement is about whole calls,
    for every input: the same exception, or both not finite, or the same number in another unit. *)
From Coq Require Import Reals Lra Lia List ZArith Arith Bool.
From Verif Require Import Res RSum Spec SpecBase SpecRescale Ord MBase MData MEntropy MMI MTE MPct MNorm MGeneric MEst MNsb MComb MOrd MDiv MCont MKern MKnn MFam PBase PRescale PRescale2 PropsMI.
Import ListNotations.
Local Open Scope R_scope.

(** the eleven estimators of discrete entropy, for every value of their own arguments *)
Definition estimators (a : alpha_arg) (K KA KN : option Z) (E : nsb_env) : list est :=
  [est_discrete; est_mm; est_shrink; est_bayes a K; est_zhang; est_chao_shen; est_cwj; est_ansb KA; est_bonachela; est_grassberger; est_nsb E KN].
Lemma all_fair b a K KA KN E e : valid_base b -> In e (estimators a K KA KN E) -> fair b e.
Proof.
  intros V Hin. cbn [estimators In] in Hin.
  repeat (destruct Hin as [<-|Hin]; [first [apply fair_discrete|apply fair_mm|apply fair_shrink|apply fair_bayes|apply fair_zhang|apply fair_cs|apply fair_cwj|apply fair_ansb|apply fair_bonachela|apply fair_grassberger|apply fair_nsb]; exact V|]).
  contradiction.
Qed.

Theorem C08_every_entropy : forall b a K KA KN E e i, valid_base b -> In e (estimators a K KA KN E) ->
  only_unit b (entropy_of e b i) (entropy_of e BE i) /\ only_unit_local b (local_of e b i) (local_of e BE i).
Proof.
  intros b a K KA KN E e i V Hin. pose proof (all_fair b _ _ _ _ _ _ V Hin) as F. split.
  - apply to_only_unit, U_entropy, F.
  - apply to_only_unit_local, U_local_of, F.
Qed.
(** the measures that combine entropies, for each of these estimators *)
Theorem C08_every_combination : forall b a K KA KN E e, valid_base b -> In e (estimators a K KA KN E) ->
  (forall o vars, only_unit_value b (MGeneric.gen_mi e b o vars) (MGeneric.gen_mi e BE o vars)) /\
  (forall vars c, only_unit_value b (MGeneric.gen_cmi e b vars c) (MGeneric.gen_cmi e BE vars c)) /\
  (forall s d t rnd, only_unit_value b (MGeneric.gen_te e b s d t rnd) (MGeneric.gen_te e BE s d t rnd)) /\
  (forall s d c t, only_unit_value b (MGeneric.gen_cte e b s d c t) (MGeneric.gen_cte e BE s d c t)).
Proof.
  intros b a K KA KN E e V Hin. pose proof (all_fair b _ _ _ _ _ _ V Hin) as F.
  repeat split; intros; apply to_only_unit_value; [apply U_gen_mi|apply U_gen_cmi|apply U_gen_te|apply U_gen_cte]; exact F.
Qed.
Theorem C08_ansb_nsb : forall b und E KN, valid_base b ->
  (forall o vars, only_unit_value b (ansb_mi und b o vars) (ansb_mi und BE o vars) /\ only_unit_value b (nsb_mi E KN b o vars) (nsb_mi E KN BE o vars)) /\
  (forall vars c, only_unit_value b (ansb_cmi und b vars c) (ansb_cmi und BE vars c) /\ only_unit_value b (nsb_cmi E KN b vars c) (nsb_cmi E KN BE vars c)) /\
  (forall s d t rnd, only_unit_value b (ansb_te und b s d t rnd) (ansb_te und BE s d t rnd) /\ only_unit_value b (nsb_te E KN b s d t rnd) (nsb_te E KN BE s d t rnd)) /\
  (forall s d c t, only_unit_value b (ansb_cte und b s d c t) (ansb_cte und BE s d c t) /\ only_unit_value b (nsb_cte E KN b s d c t) (nsb_cte E KN BE s d c t)).
Proof.
  intros b und E KN V.
  repeat split; intros; apply to_only_unit_value; unfold ansb_mi, ansb_cmi, ansb_te, ansb_cte, nsb_mi, nsb_cmi, nsb_te, nsb_cte; apply U_same; intros;
    try destruct (Rlt_dec und 0); try destruct (nsb_K_ok KN); try reflexivity;
    (apply U_gen_mi || apply U_gen_cmi || apply U_gen_te || apply U_gen_cte); (apply fair_ansb || apply fair_nsb); exact V.
Qed.
(** discrete and Miller-Madow mutual information.  Two one-dimensional variables are clipped at 0, which needs base > 1 (see
    C08_mi_rescales_refuted); for more variables or two-dimensional ones, and for local values, every base will do. *)
Lemma two_1d vars o vs : mi_init o vars = Ok vs -> (2 < length vars)%nat \/ forallb is_1d vars = false -> clipped vs = false.
Proof.
  intros Hi B. revert Hi. unfold mi_init.
  destruct (Nat.ltb (length vars) 2) eqn:L1; [discriminate|]. apply Nat.ltb_ge in L1.
  destruct (_ && _) eqn:L2; [discriminate|]. destruct (negb (forallb _ _)); [discriminate|].
  destruct o as [o|]; [|discriminate]. unfold clipped.
  assert (Y : (2 < length vars)%nat -> o = 0%Z).
  { intros L. apply Nat.ltb_lt in L. rewrite L in L2. cbn [andb] in L2. apply negb_false_iff, Z.eqb_eq in L2. exact L2. }
  assert (D : forall f g : arr -> arr, (forall a, is_1d (f a) = is_1d a) -> (forall a, is_1d (g a) = is_1d a) -> length vars = 2%nat -> forallb is_1d vars = false ->
     forallb is_1d [f (nth 0 vars (A1 [])); g (nth 1 vars (A1 []))] = false).
  { intros f g Hf Hg Ln Fl. destruct vars as [|x [|y [|z r]]]; try discriminate. cbn [nth forallb] in *. rewrite Hf, Hg. exact Fl. }
  assert (X : (2 < length vars)%nat \/ (length vars = 2%nat /\ forallb is_1d vars = false)).
  { destruct B as [B|B]; [left; exact B|]. destruct (Nat.lt_ge_cases 2 (length vars)); [left; assumption|right; split; [lia|exact B]]. }
  assert (A : forall n a, is_1d (arr_drop_last n a) = is_1d a /\ is_1d (arr_skip n a) = is_1d a) by (intros n [l|l]; split; reflexivity).
  destruct (0 <? o)%Z eqn:O1; [|destruct (o <? 0)%Z eqn:O2]; intros E; injection E as <-.
  - apply Z.ltb_lt in O1. destruct X as [X|[X1 X2]]; [apply Y in X; lia|]. rewrite D; try assumption; [reflexivity|..]; intros; apply A.
  - apply Z.ltb_lt in O2. destruct X as [X|[X1 X2]]; [apply Y in X; lia|]. rewrite D; try assumption; [reflexivity|..]; intros; apply A.
  - destruct X as [X|[X1 X2]].
    + destruct (Nat.eqb_spec (length vars) 2); [lia|]. apply andb_false_r.
    + rewrite X2. reflexivity.
Qed.
Theorem C08_every_mi_partial : forall b o vars, valid_base b -> big_base b \/ (2 < length vars)%nat \/ forallb is_1d vars = false ->
  only_unit b (mi_discrete b o vars) (mi_discrete BE o vars) /\ only_unit b (mi_mm b o vars) (mi_mm BE o vars).
Proof.
  intros b o vars V B.
  assert (C : forall vs, mi_init o vars = Ok vs -> big_base b \/ clipped vs = false).
  { intros vs Hi. destruct B as [B|B]; [left; exact B|]. right. exact (two_1d _ _ _ Hi B). }
  unfold mi_discrete, mi_mm. split; apply to_only_unit; apply U_same; intros vs Hi; apply U_mi; auto; constructor.
Qed.
Theorem C08_every_mi_local : forall b o vars, valid_base b ->
  only_unit_local b (mi_discrete_local b o vars) (mi_discrete_local BE o vars) /\ only_unit_local b (mi_mm_local b o vars) (mi_mm_local BE o vars).
Proof.
  intros b o vars V. unfold mi_discrete_local, mi_mm_local. split; apply to_only_unit_local; apply U_same; intros vs Hi; apply U_mi_local; auto; constructor.
Qed.
(** conditional mutual information, transfer entropy, conditional transfer entropy: every base, every number of variables *)
Theorem C08_every_cmi : forall b vars, valid_base b ->
  (forall c, only_unit b (cmi_discrete b vars c) (cmi_discrete BE vars c) /\ only_unit_local b (cmi_discrete_local b vars c) (cmi_discrete_local BE vars c)) /\
  (forall c, only_unit b (cmi_mm b vars c) (cmi_mm BE vars c) /\ only_unit_local b (cmi_mm_local b vars c) (cmi_mm_local BE vars c)).
Proof.
  intros b vars V. unfold cmi_discrete, cmi_discrete_local, cmi_mm, cmi_mm_local.
  repeat split; (apply to_only_unit || apply to_only_unit_local); repeat (match goal with |- U _ (bind _ _) _ => apply U_same; intros end); (apply U_cmi || apply U_cmi_local); auto; constructor.
Qed.
Theorem C08_every_te : forall b s d t rnd, valid_base b ->
  only_unit b (te_gen b None s d t rnd) (te_gen BE None s d t rnd) /\
  only_unit_local b (te_gen_local b None s d t rnd) (te_gen_local BE None s d t rnd) /\
  only_unit b (te_gen b (Some b) s d t rnd) (te_gen BE (Some BE) s d t rnd) /\
  only_unit_local b (te_gen_local b (Some b) s d t rnd) (te_gen_local BE (Some BE) s d t rnd).
Proof.
  intros b s d t rnd V. destruct (U_te b V None None s d t rnd (mmr_none b)) as [A1 A2]. destruct (U_te b V (Some b) (Some BE) s d t rnd (mmr_some b)) as [B1 B2].
  repeat split; (apply to_only_unit || apply to_only_unit_local); assumption.
Qed.
Theorem C08_every_cte : forall b s d t, valid_base b ->
  (forall c, only_unit b (cte_discrete b s d c t) (cte_discrete BE s d c t) /\ only_unit_local b (cte_discrete_local b s d c t) (cte_discrete_local BE s d c t)) /\
  (forall c, only_unit b (cte_mm b s d c t) (cte_mm BE s d c t) /\ only_unit_local b (cte_mm_local b s d c t) (cte_mm_local BE s d c t)).
Proof.
  intros b s d t V.
  split; intros c.
  - split; [apply to_only_unit|apply to_only_unit_local]; apply U_same; intros z _; destruct (U_cte b V None None s d (A1 z) t (mmr_none b)); assumption.
  - destruct (U_cte b V (Some b) (Some BE) s d c t (mmr_some b)). split; [apply to_only_unit|apply to_only_unit_local]; assumption.
Qed.
(** divergences and cross-entropies *)
Theorem C08_every_divergence : forall b al K p q, valid_base b ->
  only_unit b (cross_of discrete_cross b p q) (cross_of discrete_cross BE p q) /\
  only_unit b (cross_of mm_cross b p q) (cross_of mm_cross BE p q) /\
  only_unit b (cross_of (bayes_cross al K) b p q) (cross_of (bayes_cross al K) BE p q) /\
  only_unit b (kld_disc b p q) (kld_disc BE p q) /\ only_unit b (kld_mm b p q) (kld_mm BE p q) /\ only_unit b (kld_bayes al K b p q) (kld_bayes al K BE p q) /\
  (forall vars, only_unit b (jsd_discrete b vars) (jsd_discrete BE vars)) /\
  (forall probs vars, only_unit b (jsd_probs probs b vars) (jsd_probs probs BE vars)).
Proof.
  intros b al K p q V.
  assert (C : forall cross : base -> ddata -> ddata -> res R, (forall p q, U (sc_ b) (cross b p q) (cross BE p q)) -> only_unit b (cross_of cross b p q) (cross_of cross BE p q)).
  { intros cross F. apply to_only_unit. unfold cross_of. apply U_same. intros. apply U_same. intros. apply F. }
  repeat split; try (apply C; intros); try apply to_only_unit; try (unfold kld_disc, kld_mm, kld_bayes; apply U_kld; intros).
  all: (apply U_discrete_cross || apply U_mm_cross || apply U_bayes_cross || apply U_discrete || apply U_mm || apply U_bayes || apply U_jsd_discrete || apply U_jsd_probs); exact V.
Qed.
(** ordinal measures *)
Theorem C08_every_ordinal : forall {T} `{Cmp T} (k : kind T) b d s, valid_base b ->
  (forall xs, only_unit b (entropy_ordinal k b xs d s) (entropy_ordinal k BE xs d s) /\ only_unit_local b (local_ordinal k b xs d s) (local_ordinal k BE xs d s)) /\
  (forall cols, only_unit b (joint_entropy_ordinal k b cols d s) (joint_entropy_ordinal k BE cols d s)) /\
  (forall p q, only_unit b (cross_entropy_ordinal k b p q d s) (cross_entropy_ordinal k BE p q d s) /\ only_unit b (kld_ordinal k b p q d s) (kld_ordinal k BE p q d s)) /\
  (forall vars, only_unit b (jsd_ordinal k b vars d s) (jsd_ordinal k BE vars d s)) /\
  (forall o vars, big_base b \/ length vars <> 2%nat -> only_unit b (mi_ordinal k b o vars d s) (mi_ordinal k BE o vars d s)) /\
  (forall vars c, only_unit b (cmi_ordinal k b vars c d s) (cmi_ordinal k BE vars c d s)).
Proof.
  intros T C k b d s V. repeat split; intros; (apply to_only_unit || apply to_only_unit_local).
  - apply U_ordinal, V. - apply U_ordinal_local, V. - apply U_ordinal_joint, V. - apply U_ordinal_cross, V. - apply U_ordinal_kld, V.
  - apply U_ordinal_jsd, V. - apply U_ordinal_mi; assumption. - apply U_ordinal_cmi, V.
Qed.
Theorem C08_every_ordinal_te : forall {T} `{Cmp T} (kd : kind T) b x y d l k s, valid_base b ->
  (forall rnd, only_unit b (te_ordinal kd b x y d l k s rnd) (te_ordinal kd BE x y d l k s rnd)) /\
  (forall c m, only_unit b (cte_ordinal kd b x y c d l k m s) (cte_ordinal kd BE x y c d l k m s)).
Proof.
  intros T C kd b x y d l k s V. split; intros; apply to_only_unit; [apply U_ordinal_te|apply U_ordinal_cte]; exact V.
Qed.
(** kernel, metric (nearest neighbour) and Renyi measures *)
Theorem C08_kernel : forall E k, valid_base (k_base k) ->
  (forall i, only_unit (k_base k) (kernel_entropy E k i) (kernel_entropy E (k_nats k) i) /\
             only_unit_local (k_base k) (kernel_entropy_local E k i) (kernel_entropy_local E (k_nats k) i)) /\
  (forall p q, only_unit (k_base k) (kernel_cross_entropy E k p q) (kernel_cross_entropy E (k_nats k) p q) /\
               only_unit (k_base k) (kernel_kld E k p q) (kernel_kld E (k_nats k) p q)) /\
  (forall ds, only_unit (k_base k) (kernel_jsd E k ds) (kernel_jsd E (k_nats k) ds)) /\
  (forall o nm vars, only_unit (k_base k) (kernel_mi E k o nm vars) (kernel_mi E (k_nats k) o nm vars) /\
                     only_unit_local (k_base k) (kernel_mi_local E k o nm vars) (kernel_mi_local E (k_nats k) o nm vars)) /\
  (forall o nm vars c, only_unit (k_base k) (kernel_cmi E k o nm vars c) (kernel_cmi E (k_nats k) o nm vars c) /\
                     only_unit_local (k_base k) (kernel_cmi_local E k o nm vars c) (kernel_cmi_local E (k_nats k) o nm vars c)) /\
  (forall s d t rnd, only_unit (k_base k) (kernel_te E k s d t rnd) (kernel_te E (k_nats k) s d t rnd) /\
                     only_unit_local (k_base k) (kernel_te_local E k s d t rnd) (kernel_te_local E (k_nats k) s d t rnd)) /\
  (forall s d c t, only_unit (k_base k) (kernel_cte E k s d c t) (kernel_cte E (k_nats k) s d c t) /\
                   only_unit_local (k_base k) (kernel_cte_local E k s d c t) (kernel_cte_local E (k_nats k) s d c t)).
Proof.
  intros E k V. repeat split; intros; (apply to_only_unit_local || apply to_only_unit);
    try (unfold kernel_mi, kernel_cmi, kernel_te, kernel_cte; apply U_mean);
    first [apply U_kernel_entropy|apply U_kernel_entropy_local|apply U_kernel_cross|apply U_kernel_kld|apply U_kernel_jsd|apply U_kernel_mi_local|apply U_kernel_cmi_local|apply U_kernel_te_local|apply U_kernel_cte_local]; exact V.
Qed.
Theorem C08_metric : forall E a, valid_base (n_base a) ->
  (forall i, only_unit (n_base a) (kl_entropy E a i) (kl_entropy E (n_nats a) i) /\
             only_unit_local (n_base a) (kl_entropy_local E a i) (kl_entropy_local E (n_nats a) i)) /\
  (forall p q, only_unit (n_base a) (kl_cross_entropy E a p q) (kl_cross_entropy E (n_nats a) p q) /\
               only_unit (n_base a) (kl_kld E a p q) (kl_kld E (n_nats a) p q)) /\
  (forall o nm vars, only_unit (n_base a) (ksg_mi E a o nm vars) (ksg_mi E (n_nats a) o nm vars) /\
                     only_unit_local (n_base a) (ksg_mi_local E a o nm vars) (ksg_mi_local E (n_nats a) o nm vars)) /\
  (forall o nm vars c, only_unit (n_base a) (ksg_cmi E a o nm vars c) (ksg_cmi E (n_nats a) o nm vars c) /\
                     only_unit_local (n_base a) (ksg_cmi_local E a o nm vars c) (ksg_cmi_local E (n_nats a) o nm vars c)) /\
  (forall s d t rnd, only_unit (n_base a) (ksg_te E a s d t rnd) (ksg_te E (n_nats a) s d t rnd) /\
                     only_unit_local (n_base a) (ksg_te_local E a s d t rnd) (ksg_te_local E (n_nats a) s d t rnd)) /\
  (forall s d c t, only_unit (n_base a) (ksg_cte E a s d c t) (ksg_cte E (n_nats a) s d c t) /\
                   only_unit_local (n_base a) (ksg_cte_local E a s d c t) (ksg_cte_local E (n_nats a) s d c t)).
Proof.
  intros E a V. repeat split; intros; (apply to_only_unit_local || apply to_only_unit);
    try (unfold kl_entropy, ksg_mi, ksg_cmi, ksg_te, ksg_cte; apply U_mean);
    first [apply U_kl_local|apply U_kl_cross|apply U_kl_kld|apply U_ksg_mi_local|apply U_ksg_cmi_local|apply U_ksg_te_local|apply U_ksg_cte_local]; exact V.
Qed.
(** Renyi measures, and Tsallis ones of order 1, carry the unit; a Tsallis entropy of another order has no logarithm and is
    the same number for every base *)
Theorem C08_renyi_tsallis : forall E e f, valid_base (e_base e) -> f = Renyi \/ e_q e = ONum 1 ->
  (forall i, only_unit (e_base e) (fam_entropy f E e i) (fam_entropy f E (e_nats e) i)) /\
  (forall z o nm vars, only_unit (e_base e) (fam_mi f E e z o nm vars) (fam_mi f E (e_nats e) z o nm vars)) /\
  (forall z o nm vars c, only_unit (e_base e) (fam_cmi f E e z o nm vars c) (fam_cmi f E (e_nats e) z o nm vars c)) /\
  (forall z s d t rnd, only_unit (e_base e) (fam_te f E e z s d t rnd) (fam_te f E (e_nats e) z s d t rnd)) /\
  (forall z s d c t, only_unit (e_base e) (fam_cte f E e z s d c t) (fam_cte f E (e_nats e) z s d c t)).
Proof.
  intros E e f V F. repeat split; intros; apply to_only_unit; [apply U_fam_entropy|apply U_fam_mi|apply U_fam_cmi|apply U_fam_te|apply U_fam_cte]; assumption.
Qed.
Theorem C08_tsallis_has_no_unit : forall E e q i, valid_base (e_base e) -> e_q e = ONum q -> q <> 1 ->
  fam_entropy Tsallis E e i = fam_entropy Tsallis E (e_nats e) i.
Proof. intros E e q i V. apply tsallis_same. Qed.

(** a case: both calls give a number *)
Example C08_every_example : valid_base (BNum 10) /\ (forall a K KA KN E, In est_discrete (estimators a K KA KN E)) /\
  exists v w, entropy_of est_discrete (BNum 10) (EArr (A1 [0; 0; 1]%Z)) = Ok v /\ entropy_of est_discrete BE (EArr (A1 [0; 0; 1]%Z)) = Ok w /\ v * ln 10 = w.
Proof.
  assert (V : valid_base (BNum 10)) by (cbn; lra). split; [exact V|]. split; [intros; left; reflexivity|].
  destruct (C08_entropy_rescales (BNum 10) [0; 0; 1]%Z V) as [(v & w & Hv & Hw & E) _]; [discriminate|]. exists v, w.
  assert (X : forall b i, entropy_of est_discrete b i = entropy_discrete b i).
  { intros b i. unfold entropy_of, entropy_discrete, est_discrete, e_global. cbn [e_calc]. destruct (make_data i); cbn [bind]; [|reflexivity..]. destruct (discrete_simple b a); reflexivity. }
  rewrite !X. auto.
Qed.
