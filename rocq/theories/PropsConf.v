(** C37 (configuration store) and C38 (which base a calculation uses). *)
From Coq Require Import List ZArith QArith Arith Bool String Ascii Lia Reals Lra.
From Verif Require Import Res MEst MDisp SpecDisp MConf SpecConf SpecConf2 PropsDisp.
Import ListNotations.
Local Open Scope string_scope.

(** ** helpers *)
Lemma sget_supd s k v k' : sget (supd s k v) k' = if String.eqb k k' then Some v else sget s k'.
Proof.
  induction s as [|[a w] r IH]; cbn [supd sget]; [reflexivity|].
  destruct (String.eqb_spec a k) as [->|N]; cbn [sget].
  - destruct (String.eqb k k'); reflexivity.
  - rewrite IH. destruct (String.eqb_spec a k') as [->|]; [|reflexivity]. destruct (String.eqb_spec k k'); [congruence|reflexivity].
Qed.

Definition has_keys (s : settings) : Prop := forall k, (exists v, sget s k = Some v) <-> In k setting_names.
Lemma initial_keys : has_keys initial.
Proof.
  intros k. cbn [initial map default_settings sget fst snd s_value In setting_names].
  destruct (String.eqb_spec "base" k); [subst; split; [auto|eauto]|].
  destruct (String.eqb_spec "statistical_test_method" k); [subst; split; [auto|eauto]|].
  destruct (String.eqb_spec "statistical_test_n_tests" k); [subst; split; [auto|eauto]|].
  split; [intros [v E]; discriminate|intros D; decompose [or] D; contradiction].
Qed.

Lemma look1 : lookup_setting default_settings "base" = Some (mkSetting (PStr "e") (Some is_int_float) (Some [PStr "e"])).
Proof. reflexivity. Qed.
Lemma look2 : lookup_setting default_settings "statistical_test_method" = Some (mkSetting (PStr "permutation_test") None (Some [PStr "permutation_test"; PStr "bootstrap"])).
Proof. reflexivity. Qed.
Lemma look3 : lookup_setting default_settings "statistical_test_n_tests" = Some (mkSetting (PInt 200) (Some is_int) None).
Proof. reflexivity. Qed.
Lemma conf_set_cases s k v : has_keys s ->
  (accepts k v /\ conf_set s k v = Ok (supd s k v)) \/
  (~ accepts k v /\ conf_set s k v = Raise (if in_dec string_dec k setting_names then TypeError else KeyError)).
Proof.
  intros K. unfold conf_set. destruct (in_dec string_dec k setting_names) as [I|N].
  - destruct (proj2 (K k) I) as [w ->].
    destruct I as [<-|[<-|[<-|[]]]]; rewrite ?look1, ?look2, ?look3; destruct v as [z|b|q| |s0| |]; cbn [s_types s_allowed is_int is_int_float negb existsb py_eq num orb];
      try (left; split; [constructor|reflexivity]); try (right; split; [intros A; inversion A|reflexivity]).
    + destruct (String.eqb_spec "e" s0) as [<-|]; cbn [orb].
      * left; split; [constructor|reflexivity].
      * right; split; [intros A; inversion A; congruence|reflexivity].
    + destruct (String.eqb_spec "permutation_test" s0) as [<-|]; cbn [orb]; [left; split; [constructor|reflexivity]|].
      destruct (String.eqb_spec "bootstrap" s0) as [<-|]; cbn [orb]; [left; split; [constructor|reflexivity]|].
      right; split; [intros A; inversion A; congruence|reflexivity].
  - right. destruct (sget s k) as [w|] eqn:E; [destruct N; apply K; eauto|]. split; [|reflexivity].
    intros A. apply N. inversion A; subst; cbn; auto.
Qed.

Lemma accepts_name k v : accepts k v -> In k setting_names.
Proof. intros A; inversion A; cbn; auto. Qed.

Lemma supd_keys s k v : has_keys s -> In k setting_names -> has_keys (supd s k v).
Proof.
  intros K I k'. rewrite sget_supd. destruct (String.eqb_spec k k') as [<-|]; [|apply K]. split; [auto|eauto].
Qed.

(** the unit table *)
Lemma find_unit u : match find (fun e => one_of (fst (snd e)) u) base_unit_map with
                    | Some e => unit_base u (fst e) (fst (snd (snd e)))
                    | None => forall b n, ~ unit_base u b n end.
Proof.
  unfold base_unit_map. cbn [find fst snd].
  destruct (one_of ["bits"; "bit"; "shannons"; "shannon"] u) eqn:E1.
  { constructor. apply one_of_In in E1. cbn [In] in *. tauto. }
  destruct (one_of ["nats"; "nat"; "nit"; "nepit"] u) eqn:E2.
  { constructor. apply one_of_In in E2. cbn [In] in *. tauto. }
  destruct (one_of ["hartleys"; "hartley"; "bans"; "ban"; "dits"; "dit"] u) eqn:E3.
  { constructor. apply one_of_In in E3. cbn [In] in *. tauto. }
  intros b n U. inversion U as [u' I|u' I|u' I]; subst.
  - assert (one_of ["bits"; "bit"; "shannons"; "shannon"] u = true) by (apply one_of_In; cbn [In] in *; tauto). congruence.
  - assert (one_of ["nats"; "nat"; "nit"; "nepit"] u = true) by (apply one_of_In; cbn [In] in *; tauto). congruence.
  - assert (one_of ["hartleys"; "hartley"; "bans"; "ban"; "dits"; "dit"] u = true) by (apply one_of_In; cbn [In] in *; tauto). congruence.
Qed.

Lemma unit_base_fun u b n b' n' : unit_base u b n -> unit_base u b' n' -> b = b' /\ n = n'.
Proof.
  intros U V. inversion U as [? I|? I|? I]; subst; inversion V as [? J|? J|? J]; subst; auto;
    exfalso; cbn [In] in I, J; decompose [or] I; decompose [or] J; subst; first [contradiction|discriminate].
Qed.
Lemma unit_base_accepts u b n : unit_base u b n -> accepts "base" b.
Proof. intros U; inversion U; constructor. Qed.

(** one call: the settings are as the specification says *)
Lemma conf_after_keys s o : has_keys s -> has_keys (conf_after s o).
Proof.
  intros K. unfold conf_after, conf_step. destruct o as [k v|u|].
  - destruct (conf_set_cases s k v K) as [[A ->]|[A ->]]; [|exact K]. apply supd_keys; [exact K|eapply accepts_name; exact A].
  - unfold conf_set_unit. pose proof (find_unit (lower u)) as F. destruct (find _ base_unit_map) as [e|]; [|exact K].
    destruct (conf_set_cases s "base" (fst e) K) as [[A ->]|[A ->]]; [|exact K]. apply supd_keys; [exact K|cbn; auto].
  - exact initial_keys.
Qed.
Lemma initial_default k v : sget initial k = Some v <-> default_of k v.
Proof.
  unfold default_of. cbn [initial map default_settings sget fst snd s_value].
  destruct (String.eqb_spec "base" k) as [<-|N1]; [split; [intros [= <-]; auto|intros [[_ ->]|[[D _]|[D _]]]; [reflexivity|discriminate..]]|].
  destruct (String.eqb_spec "statistical_test_method" k) as [<-|N2]; [split; [intros [= <-]; auto|intros [[D _]|[[_ ->]|[D _]]]; [discriminate|reflexivity|discriminate]]|].
  destruct (String.eqb_spec "statistical_test_n_tests" k) as [<-|N3]; [split; [intros [= <-]; auto|intros [[D _]|[[D _]|[_ ->]]]; [discriminate..|reflexivity]]|].
  split; [discriminate|]. intros [[-> _]|[[-> _]|[-> _]]]; congruence.
Qed.
Lemma conf_after_spec s o k : has_keys s -> In k setting_names ->
  (forall v, assigns o k v -> sget (conf_after s o) k = Some v) /\
  ((forall v, ~ assigns o k v) -> sget (conf_after s o) k = sget s k).
Proof.
  intros K I. unfold conf_after, conf_step. destruct o as [k0 v0|u|].
  - destruct (conf_set_cases s k0 v0 K) as [[A ->]|[A ->]].
    + split.
      * intros v AS. inversion AS; subst. rewrite sget_supd, String.eqb_refl. reflexivity.
      * intros N. rewrite sget_supd. destruct (String.eqb_spec k0 k) as [->|]; [|reflexivity]. destruct (N v0). constructor. exact A.
    + split; [|reflexivity]. intros v AS. inversion AS; subst. contradiction.
  - unfold conf_set_unit. pose proof (find_unit (lower u)) as F. destruct (find _ base_unit_map) as [e|].
    + destruct (conf_set_cases s "base" (fst e) K) as [[A ->]|[A _]]; [|destruct A; eapply unit_base_accepts; exact F]. split.
      * intros v AS. inversion AS as [|u' b n U|]; subst. destruct (unit_base_fun _ _ _ _ _ U F) as [-> _]. rewrite sget_supd, String.eqb_refl. reflexivity.
      * intros N. rewrite sget_supd. destruct (String.eqb_spec "base" k) as [<-|]; [|reflexivity]. destruct (N (fst e)). econstructor. exact F.
    + split; [|reflexivity]. intros v AS. inversion AS as [|u' b n U|]; subst. destruct (F _ _ U).
  - split.
    + intros v AS. inversion AS; subst. apply initial_default. assumption.
    + intros N. exfalso. destruct (proj2 (initial_keys k) I) as [v E]. apply (N v). constructor. apply initial_default. exact E.
Qed.
Lemma assigns_fun o k v w : assigns o k v -> assigns o k w -> v = w.
Proof.
  intros A B. inversion A; subst; inversion B; subst; [reflexivity| |].
  - match goal with U : unit_base (lower u) v _, V : unit_base (lower u) w _ |- _ => destruct (unit_base_fun _ _ _ _ _ U V); assumption end.
  - unfold default_of in *. intuition congruence.
Qed.
Lemma assigns_dec o k : (exists v, assigns o k v) \/ (forall v, ~ assigns o k v).
Proof.
  destruct o as [k0 v0|u|].
  - destruct (string_dec k0 k) as [->|N]; [|right; intros v A; inversion A; congruence].
    destruct (conf_set_cases initial k v0 initial_keys) as [[A _]|[A _]]; [left; exists v0; constructor; exact A|].
    right. intros v B. inversion B; subst. contradiction.
  - destruct (string_dec "base" k) as [<-|N]; [|right; intros v A; inversion A; congruence].
    pose proof (find_unit (lower u)) as F. destruct (find _ base_unit_map) as [e|]; [left; eexists; econstructor; exact F|].
    right. intros v A. inversion A; subst. eapply F. eassumption.
  - destruct (sget initial k) as [v|] eqn:E; [left; exists v; constructor; apply initial_default; exact E|].
    right. intros v A. inversion A; subst. match goal with D : default_of k v |- _ => apply initial_default in D; congruence end.
Qed.
Lemma conf_run_keys h : has_keys (conf_run h).
Proof.
  unfold conf_run. generalize initial_keys. generalize initial. induction h as [|o h IH]; intros s K; [exact K|]. cbn [fold_left]. apply IH, conf_after_keys, K.
Qed.
Lemma conf_run_snoc h o : conf_run (h ++ [o]) = conf_after (conf_run h) o.
Proof. unfold conf_run. rewrite fold_left_app. reflexivity. Qed.

Lemma value_after_iff h k v : In k setting_names -> (sget (conf_run h) k = Some v <-> value_after h k v).
Proof.
  intros I. revert v. induction h as [|o h IH] using rev_ind; intros v.
  - split; [intros E; constructor; apply initial_default; exact E|].
    intros V. inversion V as [? ? D|h0 ? ? ? ? E|h0 ? ? ? ? ? E]; subst; [apply initial_default; exact D|destruct h0; discriminate..].
  - rewrite conf_run_snoc. destruct (conf_after_spec (conf_run h) o k (conf_run_keys h) I) as [S1 S2]. split.
    + intros E. destruct (assigns_dec o k) as [[w A]|N].
      * rewrite (S1 w A) in E. injection E as <-. constructor. exact A.
      * rewrite (S2 N) in E. apply va_before; [exact N|]. apply IH. exact E.
    + intros V. inversion V as [? ? D E|h0 o0 ? ? A E|h0 o0 ? ? N VB E]; subst.
      * destruct h; discriminate.
      * apply app_inj_tail in E. destruct E as [-> ->]. apply S1. exact A.
      * apply app_inj_tail in E. destruct E as [-> ->]. rewrite (S2 N). apply IH. exact VB.
Qed.

(** ** C37 *)
(** after any history of calls [Config.get] returns the last value that was set, or the default *)
Theorem C37_get : forall h k v, In k setting_names -> (conf_get (conf_run h) k = Ok v <-> value_after h k v).
Proof.
  intros h k v I. rewrite <- (value_after_iff h k v I). unfold conf_get. destruct (sget (conf_run h) k) as [w|]; split; congruence.
Qed.
Print Assumptions C37_get.
Theorem C37_get_total : forall h k, (In k setting_names -> exists v, conf_get (conf_run h) k = Ok v /\ accepts k v) /\
  (~ In k setting_names -> conf_get (conf_run h) k = Raise KeyError).
Proof.
  intros h k. split.
  - intros I. destruct (proj2 (conf_run_keys h k) I) as [v E]. exists v. unfold conf_get. rewrite E. split; [reflexivity|].
    apply (proj1 (value_after_iff h k v I)) in E. clear I. induction E as [k v D|h o k v A|h o k v N V IH]; [| |exact IH].
    + destruct D as [[-> ->]|[[-> ->]|[-> ->]]]; constructor.
    + destruct A as [k v A|u b n U|k v D]; [exact A|eapply unit_base_accepts; exact U|].
      destruct D as [[-> ->]|[[-> ->]|[-> ->]]]; constructor.
  - intros N. unfold conf_get. destruct (sget (conf_run h) k) as [v|] eqn:E; [|reflexivity]. destruct N. apply (conf_run_keys h). eauto.
Qed.

(** a call of [Config.set]: accepted exactly for the documented values; a refused one raises KeyError for an
    unknown setting and TypeError otherwise, and changes nothing (see [C37_get]: it assigns nothing) *)
Theorem C37_set : forall h k v,
  (accepts k v -> exists s, conf_set (conf_run h) k v = Ok s /\ conf_get s k = Ok v /\
                            forall k', k' <> k -> conf_get s k' = conf_get (conf_run h) k') /\
  (~ accepts k v -> conf_set (conf_run h) k v = Raise (if in_dec string_dec k setting_names then TypeError else KeyError) /\
                    conf_run (h ++ [CSet k v]) = conf_run h).
Proof.
  intros h k v. rewrite conf_run_snoc. unfold conf_after, conf_step. destruct (conf_set_cases (conf_run h) k v (conf_run_keys h)) as [[A E]|[A E]]; rewrite E.
  - split; [|contradiction]. intros _. eexists. split; [reflexivity|]. unfold conf_get. rewrite sget_supd, String.eqb_refl. split; [reflexivity|].
    intros k' N. rewrite sget_supd. destruct (String.eqb_spec k k'); [congruence|reflexivity].
  - split; [contradiction|]. auto.
Qed.
Theorem C37_reset : forall h k v, In k setting_names -> (conf_get (conf_run (h ++ [CReset])) k = Ok v <-> default_of k v).
Proof.
  intros h k v I. rewrite C37_get by exact I. split.
  - intros V. inversion V as [? ? D E|h0 o0 ? ? A E|h0 o0 ? ? N VB E]; subst; [destruct h; discriminate| |]; apply app_inj_tail in E; destruct E as [-> ->].
    + inversion A; assumption.
    + exfalso. destruct (proj2 (initial_keys k) I) as [w Ew]. apply (N w). constructor. apply initial_default. exact Ew.
  - intros D. constructor. constructor. exact D.
Qed.

(** units, in any letter case *)
Theorem C37_unit_round_trip : forall h u b n, unit_base (lower u) b n ->
  conf_get (conf_run (h ++ [CUnit u])) "base" = Ok b /\ conf_get_unit (conf_run (h ++ [CUnit u])) = Ok (Named n) /\
  (exists d, conf_get_description (conf_run (h ++ [CUnit u])) = Ok d) /\
  forall k, k <> "base" -> conf_get (conf_run (h ++ [CUnit u])) k = conf_get (conf_run h) k.
Proof.
  intros h u b n U.
  assert (E : conf_get (conf_run (h ++ [CUnit u])) "base" = Ok b).
  { apply C37_get; [cbn; auto|]. constructor. econstructor. exact U. }
  split; [exact E|]. unfold conf_get_unit, conf_get_description. rewrite E. cbn [bind].
  split; [inversion U; reflexivity|]. split; [inversion U; eexists; reflexivity|].
  intros k N. destruct (in_dec string_dec k setting_names) as [I|NI].
  - unfold conf_get. rewrite conf_run_snoc. destruct (conf_after_spec (conf_run h) (CUnit u) k (conf_run_keys h) I) as [_ S]. rewrite S; [reflexivity|].
    intros v A. inversion A; congruence.
  - destruct (C37_get_total (h ++ [CUnit u]) k) as [_ T1], (C37_get_total h k) as [_ T2]. rewrite T1, T2 by exact NI. reflexivity.
Qed.
Theorem C37_unit_unknown : forall h u, (forall b n, ~ unit_base (lower u) b n) ->
  conf_set_unit (conf_run h) u = Raise ValueError /\ conf_run (h ++ [CUnit u]) = conf_run h.
Proof.
  intros h u N. rewrite conf_run_snoc. unfold conf_after, conf_step, conf_set_unit. pose proof (find_unit (lower u)) as F.
  destruct (find _ base_unit_map); [destruct (N _ _ F)|auto].
Qed.

(** asking for the unit never fails; it has a name - and a description - exactly for the bases 2, e and 10 *)
Theorem C37_unit_names : forall h, exists v r, conf_get (conf_run h) "base" = Ok v /\ conf_get_unit (conf_run h) = Ok r /\
  (r = Named "bit/shannon" <-> exists q, num v = Some q /\ q == 2)%Q /\
  (r = Named "hartley/ban/dit" <-> exists q, num v = Some q /\ q == 10)%Q /\
  (r = Named "nat/nit/nepit" <-> v = PStr "e") /\
  ((exists n, r = Named n) \/ (r = UnknownBase v /\ conf_get_description (conf_run h) = Raise ValueError)) /\
  ((exists n, r = Named n) -> exists d, conf_get_description (conf_run h) = Ok d).
Proof.
  intros h. destruct (C37_get_total h "base") as [T _]. destruct (T ltac:(cbn; auto)) as (v & E & A). exists v.
  unfold conf_get_unit, conf_get_description. rewrite E. cbn [bind]. unfold base_unit_map. cbn [find fst snd].
  assert (EE : py_eq v (PStr "e") = true <-> v = PStr "e").
  { unfold py_eq. cbn [num]. destruct (num v) eqn:Nv; (destruct v; try discriminate; split; intros Q; try discriminate; try congruence).
    - apply String.eqb_eq in Q. congruence.
    - injection Q as ->. reflexivity. }
  assert (EN : forall z, py_eq v (PInt z) = true <-> exists q, num v = Some q /\ (q == inject_Z z)%Q).
  { intros z. unfold py_eq. cbn [num]. destruct (num v) as [q|] eqn:Nv.
    - split; [intros Q; exists q; split; [reflexivity|apply Qeq_bool_eq; exact Q]|intros (q' & [= <-] & Q); apply Qeq_eq_bool; exact Q].
    - split; [destruct v; discriminate|intros (q & Q & _); discriminate]. }
  destruct (py_eq v (PInt 2)) eqn:E2.
  - eexists. split; [reflexivity|]. split; [reflexivity|]. cbn [fst snd]. apply EN in E2. destruct E2 as (q & Nq & Q2).
    repeat split; try discriminate; eauto.
    + intros (q' & Nq' & Q'). exfalso. assert (q' = q) as -> by congruence. rewrite Q2 in Q'. discriminate Q'.
    + intros ->. discriminate Nq.
  - assert (N2 : ~ exists q, num v = Some q /\ (q == 2)%Q) by (intros X; assert (py_eq v (PInt 2) = true) by (apply (proj2 (EN 2%Z)); exact X); congruence).
    destruct (py_eq v (PStr "e")) eqn:E3.
    + eexists. split; [reflexivity|]. split; [reflexivity|]. cbn [fst snd]. pose proof (proj1 EE eq_refl) as E3'. subst v.
      repeat split; try discriminate; eauto; try (intros X; exfalso; destruct X as (q & X & _); discriminate).
    + destruct (py_eq v (PInt 10)) eqn:E4.
      * eexists. split; [reflexivity|]. split; [reflexivity|]. cbn [fst snd]. apply EN in E4.
        repeat split; try discriminate; eauto; try (intros X; exfalso; tauto).
        intros ->. discriminate E3.
      * eexists. split; [reflexivity|]. split; [reflexivity|].
        assert (N10 : ~ exists q, num v = Some q /\ (q == 10)%Q) by (intros X; assert (py_eq v (PInt 10) = true) by (apply (proj2 (EN 10%Z)); exact X); congruence).
        repeat split; try discriminate; auto; try tauto.
        -- intros ->. discriminate E3.
        -- intros (n & X). discriminate.
Qed.

(** only types are checked: settings that make no sense are accepted *)
Theorem C37_only_types_checked : forall z b, accepts "base" (PInt z) /\ accepts "base" (PBool b) /\ accepts "base" PNonFinite /\
  accepts "statistical_test_n_tests" (PInt z) /\ accepts "statistical_test_n_tests" (PBool b).
Proof. intros. repeat split; constructor. Qed.

Example C37_example :
  value_after [CSet "base" (PInt 2); CSet "statistical_test_n_tests" (PFloat 5); CUnit "parsec"; CUnit "NATS"] "base" (PStr "e") /\
  conf_get (conf_run [CSet "base" (PInt 2); CUnit "Shannons"; CSet "base" PNone]) "base" = Ok (PInt 2).
Proof. split; [apply C37_get; [cbn; auto|]; vm_compute; reflexivity|vm_compute; reflexivity]. Qed.

(** ** C38 *)
Lemma class_pkg M f : In f families -> pkg_of_path (class_of M f) = Some (package_of M).
Proof. intros I. unfold families in I. repeat (destruct I as [<-|I]; [destruct M; vm_compute; reflexivity|]). destruct I. Qed.
Lemma names_class m ap M f : names m ap M f -> get_estimator_class (D := unit) (AStr m) (AStr ap) = Ok (class_of M f).
Proof. intros (I1 & I2 & I3). apply C40_classes. exists M, f. auto. Qed.

Lemma base_now s h : s = conf_run h -> exists b, sget s "base" = Some b.
Proof. intros ->. apply (proj2 (conf_run_keys h "base")). cbn; auto. Qed.

Lemma act_step_conf w a : w_conf (act_step w a) = match a with AConf o => conf_after (w_conf w) o | _ => w_conf w end.
Proof.
  destruct a as [o|m ap]; [reflexivity|]. cbn [act_step]. destruct (get_estimator_class _ _) as [p| |]; try reflexivity.
  destruct (pkg_of_path p) as [k|]; [|reflexivity]. unfold import_pkg. destruct (captured w k), (sget (w_conf w) "base"); try reflexivity. destruct k; reflexivity.
Qed.
Lemma confs_app l1 l2 : confs (l1 ++ l2) = (confs l1 ++ confs l2)%list.
Proof. induction l1 as [|[o|m ap] l IH]; [reflexivity|cbn; rewrite IH; reflexivity|exact IH]. Qed.
Lemma run_snoc l a : run_acts (l ++ [a]) = act_step (run_acts l) a.
Proof. unfold run_acts. rewrite fold_left_app. reflexivity. Qed.
Lemma run_conf l : w_conf (run_acts l) = conf_run (confs l).
Proof.
  induction l as [|a l IH] using rev_ind; [reflexivity|]. rewrite run_snoc, act_step_conf, IH, confs_app.
  destruct a as [o|m ap]; cbn [confs]; [rewrite conf_run_snoc; reflexivity|rewrite app_nil_r; reflexivity].
Qed.

Lemma captured_import w P Q b : captured w Q = Some b -> captured (import_pkg w P) Q = Some b.
Proof.
  intros E. unfold import_pkg. destruct (captured w P) eqn:C; [exact E|]. destruct (sget (w_conf w) "base"); [|exact E].
  destruct P, Q; cbn in *; congruence.
Qed.
Lemma captured_step w a Q b : captured w Q = Some b -> captured (act_step w a) Q = Some b.
Proof.
  intros E. destruct a as [o|m ap]; cbn [act_step]; [destruct Q; exact E|].
  destruct (get_estimator_class _ _) as [p| |]; try exact E. destruct (pkg_of_path p); [apply captured_import, E|exact E].
Qed.
Lemma captured_other w P Q : P <> Q -> captured (import_pkg w P) Q = captured w Q.
Proof.
  intros N. unfold import_pkg. destruct (captured w P); [reflexivity|]. destruct (sget (w_conf w) "base"); [|reflexivity]. destruct P, Q; cbn; congruence.
Qed.
Lemma captured_self w P b : captured w P = None -> sget (w_conf w) "base" = Some b -> captured (import_pkg w P) P = Some b.
Proof. intros C E. unfold import_pkg. rewrite C, E. destruct P; reflexivity. Qed.
Lemma captured_kept w l Q b : captured w Q = Some b -> captured (fold_left act_step l w) Q = Some b.
Proof. revert w. induction l as [|a l IH]; intros w E; [exact E|]. cbn. apply IH, captured_step, E. Qed.

Lemma fresh_h l : captured (run_acts l) PkgH = Some (PStr "e").
Proof. apply captured_kept. reflexivity. Qed.
Lemma step_not_use w a P : ~ uses P a -> captured (act_step w a) P = captured w P.
Proof.
  intros N. destruct a as [o|m ap]; cbn [act_step]; [destruct P; reflexivity|].
  destruct (get_estimator_class _ _) as [p| |] eqn:E; try reflexivity.
  apply C40_classes in E. destruct E as (M & f & I1 & I2 & I3 & ->). rewrite (class_pkg M f I2). apply captured_other.
  intros EQ. apply N. exists m, ap, M, f. repeat split; assumption.
Qed.
Lemma unused_none l P : P <> PkgH -> unused P l -> captured (run_acts l) P = None.
Proof.
  intros NH. induction l as [|a l IH] using rev_ind; intros U; [destruct P; [congruence|reflexivity..]|].
  apply Forall_app in U. destruct U as [U1 U2]. inversion U2; subst. rewrite run_snoc, step_not_use by assumption. apply IH, U1.
Qed.
Lemma conf_get_some s b : sget s "base" = Some b -> conf_get s "base" = Ok b.
Proof. unfold conf_get. intros ->. reflexivity. Qed.

(** an explicit base is always the one used *)
Theorem C38_explicit_base : forall l m ap M f b dd, names m ap M f -> base_used (run_acts l) m ap (Some b) dd = Ok b.
Proof. intros l m ap M f b dd N. unfold base_used. rewrite (names_class _ _ _ _ N). reflexivity. Qed.

(** without one: mutual information and transfer entropy (also conditional) use the configured base as it was
    when a measure of the same package was first requested ... *)
Theorem C38_default_is_base_at_first_use : forall l1 u l2 m ap M f dd, M <> H -> names m ap M f ->
  unused (package_of M) l1 -> uses (package_of M) u ->
  base_used (run_acts (l1 ++ u :: l2)) m ap None dd = conf_get (conf_run (confs l1)) "base".
Proof.
  intros l1 u l2 m ap M f dd NH N U1 U. unfold base_used. rewrite (names_class _ _ _ _ N). cbn [bind].
  rewrite (class_pkg M f) by (apply N).
  destruct (base_now (w_conf (run_acts l1)) (confs l1) (run_conf l1)) as [b Eb].
  assert (NP : package_of M <> PkgH) by (destruct M; cbn; congruence).
  assert (C1 : captured (run_acts (l1 ++ u :: l2)) (package_of M) = Some b).
  { replace (l1 ++ u :: l2)%list with ((l1 ++ [u]) ++ l2)%list by (rewrite <- app_assoc; reflexivity).
    unfold run_acts. rewrite fold_left_app. fold (run_acts (l1 ++ [u])). apply captured_kept. rewrite run_snoc.
    destruct U as (m' & ap' & M' & f' & -> & N' & EP). cbn [act_step]. rewrite (names_class _ _ _ _ N'), (class_pkg M' f') by (apply N'). rewrite EP.
    apply captured_self; [apply unused_none; assumption|exact Eb]. }
  rewrite <- run_conf, (conf_get_some _ _ Eb).
  rewrite (captured_import _ (package_of M) (package_of M) b C1). destruct (package_of M); [congruence|reflexivity..].
Qed.
(** ... that is, the current one if this is the first use *)
Theorem C38_first_use_uses_current : forall l m ap M f dd, M <> H -> names m ap M f -> unused (package_of M) l ->
  base_used (run_acts l) m ap None dd = conf_get (conf_run (confs l)) "base".
Proof.
  intros l m ap M f dd NH N U. unfold base_used. rewrite (names_class _ _ _ _ N). cbn [bind].
  rewrite (class_pkg M f) by (apply N).
  destruct (base_now (w_conf (run_acts l)) (confs l) (run_conf l)) as [b Eb].
  assert (NP : package_of M <> PkgH) by (destruct M; cbn; congruence).
  rewrite <- run_conf, (conf_get_some _ _ Eb).
  rewrite (captured_self _ (package_of M) b (unused_none l _ NP U) Eb). destruct (package_of M); [congruence|reflexivity..].
Qed.
(** entropies of arrays use base e whatever has been configured *)
Theorem C38_entropy_default_is_e : forall l m ap f, names m ap H f -> base_used (run_acts l) m ap None false = Ok (PStr "e").
Proof.
  intros l m ap f N. unfold base_used. rewrite (names_class _ _ _ _ N). cbn [bind]. rewrite (class_pkg H f) by (apply N). cbn [package_of andb].
  rewrite (captured_import _ PkgH PkgH _ (fresh_h l)). reflexivity.
Qed.
(** ... but entropies of DiscreteData objects use the current base for the approaches without options *)
Theorem C38_discrete_data_uses_current : forall l m ap f, names m ap H f ->
  In (f_cls f) ["Discrete"; "MillerMadow"; "Shrink"; "ChaoShen"; "ChaoWangJost"; "Grassberger"; "Bonachela"; "Zhang"] ->
  base_used (run_acts l) m ap None true = conf_get (conf_run (confs l)) "base".
Proof.
  intros l m ap f N I. unfold base_used. rewrite (names_class _ _ _ _ N). cbn [bind]. rewrite (class_pkg H f) by (apply N). cbn [package_of].
  replace (true && negb (own_init (class_of H f))) with true; [rewrite run_conf; reflexivity|].
  destruct N as (_ & IF & _). unfold families in IF.
  repeat (destruct IF as [<-|IF]; [first [vm_compute; reflexivity | exfalso; cbn in I; decompose [or] I; first [contradiction|discriminate]]|]). destruct IF.
Qed.

(** the documented claim for MI and TE when the base was not changed between the first use and now *)
Theorem C38_unchanged_since_first_use_partial : forall l1 u l2 m ap M f dd, M <> H -> names m ap M f ->
  unused (package_of M) l1 -> uses (package_of M) u ->
  conf_get (conf_run (confs (l1 ++ u :: l2))) "base" = conf_get (conf_run (confs l1)) "base" ->
  base_used (run_acts (l1 ++ u :: l2)) m ap None dd = conf_get (conf_run (confs (l1 ++ u :: l2))) "base".
Proof. intros l1 u l2 m ap M f dd NH N U1 U E. rewrite E. eapply C38_default_is_base_at_first_use; eassumption. Qed.

(** "Any calculation after this will use the new base" (docs/guide/settings.md) is false: for every entropy of an
    array, and for the other measures once one of their package has been used *)
Theorem C38_new_base_refuted :
  base_used (run_acts [AConf (CSet "base" (PInt 2))]) "entropy" "discrete" None false = Ok (PStr "e") /\
  base_used (run_acts [AUse "mi" "kernel"; AConf (CUnit "bits")]) "cmi" "discrete" None false = Ok (PStr "e") /\
  base_used (run_acts [AConf (CUnit "bits"); AUse "te" "ksg"; AConf (CUnit "nats")]) "te" "ksg" None false = Ok (PInt 2) /\
  (forall l, conf_get (conf_run (confs (l ++ [AConf (CSet "base" (PInt 2))]))) "base" = Ok (PInt 2) /\
             forall m ap f, names m ap H f -> base_used (run_acts (l ++ [AConf (CSet "base" (PInt 2))])) m ap None false = Ok (PStr "e")).
Proof.
  split; [vm_compute; reflexivity|]. split; [vm_compute; reflexivity|]. split; [vm_compute; reflexivity|].
  intros l. split; [|intros; eapply C38_entropy_default_is_e; eassumption].
  rewrite confs_app. cbn [confs]. apply C37_get; [cbn; auto|]. constructor. constructor. constructor.
Qed.
Print Assumptions C38_new_base_refuted.
Example C38_example : names "Mutual_Information" "KSG" MI (mkFamily ["metric"; "kl"] ["metric"; "ksg"] "kozachenko_leonenko" "KozachenkoLeonenko" "kraskov_stoegbauer_grassberger" "KSG") /\
  uses PkgMI (AUse "cmi" "mm") /\ ~ uses PkgMI (AUse "mi" "nonsense") /\ ~ uses PkgMI (AUse "h" "mm").
Proof.
  split; [repeat split; vm_compute; tauto|]. split; [exists "cmi", "mm", CMI, (plain ["miller_madow"; "mm"] ["miller_madow"; "mm"] "miller_madow" "MillerMadow"); repeat split; vm_compute; tauto|].
  split; intros (m & ap & M & f & E & N & P); injection E as <- <-; pose proof (proj1 (proj2 N)) as IF; apply names_class in N.
  - vm_compute in N. discriminate.
  - assert (X : get_estimator_class (D := unit) (AStr "h") (AStr "mm") = Ok "infomeasure.estimators.entropy.miller_madow.MillerMadowEntropyEstimator") by (vm_compute; reflexivity).
    rewrite X in N. apply (f_equal (fun r => match r with Ok p => pkg_of_path p | _ => None end)) in N.
    rewrite (class_pkg M f IF), P in N. vm_compute in N. discriminate.
Qed.
