(** Property theorems: choice of the estimator (C40) and agreement of [estimator] with the functions
    (C41). *)
From Coq Require Import Reals Lra List ZArith Arith Bool String Ascii Lia.
From Verif Require Import Res RSum Spec SpecBase SpecDisp SpecOrd Ord MBase MData MEntropy MEst MOrd MDisp PBase POrd2 POrd3 PropsOrd.
Import ListNotations.
Local Open Scope string_scope.

Lemma tget_In t k p : tget t k = Some p -> In (k, p) t.
Proof.
  induction t as [|[a q] r IH]; simpl; [discriminate|]. destruct (String.eqb_spec a k) as [->|]; [intros E; injection E as ->; auto|auto].
Qed.
Lemma one_of_In l s : one_of l s = true <-> In s l.
Proof.
  unfold one_of. rewrite existsb_exists. split; [intros (x & I & E); apply String.eqb_eq in E; subst; exact I|intros I; exists s; split; [exact I|apply String.eqb_refl]].
Qed.

Definition table_of (m : measure) : table :=
  match m with H => entropy_estimators | MI => mi_estimators | CMI => cmi_estimators | TE => te_estimators | CTE => cte_estimators end.
Definition measures : list measure := [H; MI; CMI; TE; CTE].
Lemma measures_all m : In m measures. Proof. destruct m; simpl; tauto. Qed.

Lemma tables_sound : forallb (fun m => forallb (fun kp => existsb (fun f =>
    one_of (approach_names m f) (fst kp) && String.eqb (snd kp) (class_of m f)) families) (table_of m)) measures = true.
Proof. vm_compute. reflexivity. Qed.
Lemma tables_complete : forallb (fun m => forallb (fun f => forallb (fun a =>
    match tget (table_of m) a with Some p => String.eqb p (class_of m f) | None => false end) (approach_names m f)) families) measures = true.
Proof. vm_compute. reflexivity. Qed.

Lemma tget_table m a p : tget (table_of m) a = Some p <-> exists f, In f families /\ In a (approach_names m f) /\ p = class_of m f.
Proof.
  split.
  - intros E. apply tget_In in E. pose proof tables_sound as S. rewrite forallb_forall in S. specialize (S m (measures_all m)).
    rewrite forallb_forall in S. specialize (S _ E). apply existsb_exists in S. destruct S as (f & If & C). apply andb_prop in C. destruct C as [C1 C2].
    exists f. split; [exact If|]. split; [apply one_of_In, C1|apply String.eqb_eq, C2].
  - intros (f & If & Ia & ->). pose proof tables_complete as S. rewrite forallb_forall in S. specialize (S m (measures_all m)).
    rewrite forallb_forall in S. specialize (S f If). rewrite forallb_forall in S. specialize (S a Ia).
    destruct (tget (table_of m) a) as [p|]; [|discriminate]. apply String.eqb_eq in S. rewrite S. reflexivity.
Qed.

Lemma class_dispatch {D} m (a : arg D) :
  (exists M, In (lower m) (measure_names M) /\ get_estimator_class (AStr m) a = get_estimator (table_of M) a) \/
  ((forall M, ~ In (lower m) (measure_names M)) /\ get_estimator_class (AStr m) a = Raise ValueError).
Proof.
  unfold get_estimator_class.
  destruct (one_of ["entropy"; "h"] (lower m)) eqn:E1; [left; exists H; split; [apply one_of_In, E1|reflexivity]|].
  destruct (one_of ["mutual_information"; "mi"] (lower m)) eqn:E2; [left; exists MI; split; [apply one_of_In, E2|reflexivity]|].
  destruct (one_of ["conditional_mutual_information"; "cmi"] (lower m)) eqn:E3; [left; exists CMI; split; [apply one_of_In, E3|reflexivity]|].
  destruct (one_of ["transfer_entropy"; "te"] (lower m)) eqn:E4; [left; exists TE; split; [apply one_of_In, E4|reflexivity]|].
  destruct (one_of ["conditional_transfer_entropy"; "cte"] (lower m)) eqn:E5; [left; exists CTE; split; [apply one_of_In, E5|reflexivity]|].
  right. split; [|reflexivity]. intros M I. apply one_of_In in I. destruct M; cbn [measure_names] in I; congruence.
Qed.

(** Names decide the class, whatever their case, and exactly the documented combinations exist; the class
    is that of the estimator family for that measure. *)
Theorem C40_classes {D} m a p :
  get_estimator_class (D := D) (AStr m) (AStr a) = Ok p <->
  exists M f, In (lower m) (measure_names M) /\ In f families /\ In (lower a) (approach_names M f) /\ p = class_of M f.
Proof.
  destruct (class_dispatch (D := D) m (AStr a)) as [(M & I & E)|[N E]]; rewrite E.
  - unfold get_estimator. split.
    + destruct (tget (table_of M) (lower a)) as [q|] eqn:T; [|discriminate]. intros Q. injection Q as ->. apply tget_table in T.
      destruct T as (f & T1 & T2 & T3). exists M, f. auto.
    + intros (M' & f & I' & If & Ia & ->). assert (M' = M) as ->.
      { destruct M', M; try reflexivity; cbn [measure_names In] in *; exfalso; decompose [or] I; decompose [or] I'; congruence. }
      rewrite (proj2 (tget_table M (lower a) (class_of M f))); [reflexivity|exists f; auto].
  - split; [discriminate|]. intros (M & f & I & _). destruct (N M I).
Qed.
Print Assumptions C40_classes.

(** every other name - and a missing one - is refused with a ValueError *)
Theorem C40_total {D} m (a : arg D) :
  (exists p, get_estimator_class (AStr m) a = Ok p) \/ get_estimator_class (AStr m) a = Raise ValueError.
Proof.
  destruct (class_dispatch m a) as [(M & I & E)|[N E]]; rewrite E; [|auto].
  unfold get_estimator. destruct a; auto. destruct (tget (table_of M) (lower s)); eauto.
Qed.
Theorem C40_missing {D} (m a : arg D) :
  get_estimator_class ANone a = Raise ValueError /\
  (forall s, m = AStr s -> get_estimator_class m ANone = Raise ValueError).
Proof.
  split; [reflexivity|]. intros s ->. destruct (class_dispatch s (@ANone D)) as [(M & I & E)|[N E]]; rewrite E; reflexivity.
Qed.
Theorem C40_case_insensitive {D} m m' a a' : lower m = lower m' -> lower a = lower a' ->
  get_estimator_class (D := D) (AStr m) (AStr a) = get_estimator_class (D := D) (AStr m') (AStr a').
Proof. intros Em Ea. unfold get_estimator_class, get_estimator. rewrite Em, Ea. reflexivity. Qed.

(** MI, CMI, TE and CTE know the same approaches *)
Theorem C40_same_approaches {D} m m' M M' a : In (lower m) (measure_names M) -> In (lower m') (measure_names M') -> M <> H -> M' <> H ->
  (exists p, get_estimator_class (D := D) (AStr m) (AStr a) = Ok p) -> exists p, get_estimator_class (D := D) (AStr m') (AStr a) = Ok p.
Proof.
  intros Im Im' NH NH' (p & E). apply C40_classes in E. destruct E as (M0 & f & I0 & If & Ia & _).
  exists (class_of M' f). apply C40_classes. exists M', f. split; [exact Im'|]. split; [exact If|]. split; [|reflexivity].
  assert (M0 = M) as ->. { destruct M0, M; try reflexivity; cbn [measure_names In] in *; exfalso; decompose [or] I0; decompose [or] Im; congruence. }
  destruct M, M'; try congruence; exact Ia.
Qed.

(** but not the entropy: "ksg" is unknown there, and the entropy's short names "cs", "cwj", "js", "kl" are
    unknown to the other measures *)
Theorem C40_entropy_names_refuted {D} :
  (exists p, get_estimator_class (D := D) (AStr "mi") (AStr "ksg") = Ok p) /\
  get_estimator_class (D := D) (AStr "entropy") (AStr "ksg") = Raise ValueError /\
  Forall (fun a => (exists p, get_estimator_class (D := D) (AStr "entropy") (AStr a) = Ok p) /\
                   get_estimator_class (D := D) (AStr "mi") (AStr a) = Raise ValueError) ["cs"; "cwj"; "js"; "kl"].
Proof.
  split; [eexists; vm_compute; reflexivity|]. split; [vm_compute; reflexivity|].
  repeat constructor; try (eexists; vm_compute; reflexivity).
Qed.

(** the functions refuse a missing or unknown approach with a ValueError whatever else is passed *)
Theorem C40_functions_reject {D} (data : list D) kw :
  (kget_none kw "approach" = ANone \/ (exists s, kget_none kw "approach" = AStr s /\ forall M f, In f families -> ~ In (lower s) (approach_names M f))) ->
  call_entropy data kw = Raise ValueError /\ call_mutual_information data kw = Raise ValueError /\ call_transfer_entropy data kw = Raise ValueError.
Proof.
  assert (G : forall s m, (forall M f, In f families -> ~ In (lower s) (approach_names M f)) -> get_estimator_class (D := D) (AStr m) (AStr s) = Raise ValueError).
  { intros s m N. destruct (C40_total m (@AStr D s)) as [(p & E)|E]; [|exact E]. apply C40_classes in E.
    destruct E as (M & f & _ & If & Ia & _). destruct (N M f If Ia). }
  intros [E|(s & E & N)]; unfold call_entropy, call_mutual_information, call_transfer_entropy, dyn_class; rewrite E; cbn [is_none bind]; [auto|].
  rewrite !(G s) by exact N. auto.
Qed.

(** the estimator factory with a single array looks the approach up without lower-casing or a check:
    KeyError for an unknown, a missing or an upper-case name *)
Theorem C40_single_array_refuted {D} (x : D) :
  call_estimator [x] [("measure", AStr "mi"); ("approach", AStr "nonsense")] = Raise KeyError /\
  call_estimator [x] [("measure", AStr "mi")] = Raise KeyError /\
  call_estimator [x] [("measure", AStr "mi"); ("approach", AStr "Discrete")] = Raise KeyError /\
  exists c, call_estimator [x] [("measure", AStr "mi"); ("approach", AStr "discrete")] = Ok c.
Proof. repeat split; try (vm_compute; reflexivity). eexists. vm_compute. reflexivity. Qed.

(** ** C41 *)
Section Agree.
Context {D : Type}.
Implicit Types (kw : kwargs D) (data : list D).

Lemma kget_kdrop names kw k : kget (kdrop names kw) k = if one_of names k then None else kget kw k.
Proof.
  induction kw as [|[a v] r IH]; simpl; [destruct (one_of names k); reflexivity|].
  destruct (one_of names a) eqn:Ea; cbn [negb].
  - rewrite IH. destruct (String.eqb_spec a k) as [->|]; [rewrite Ea; reflexivity|reflexivity].
  - simpl. rewrite IH. destruct (String.eqb_spec a k) as [->|]; [rewrite Ea; reflexivity|reflexivity].
Qed.

Lemma kget_absent kw k : kget kw k = None -> forall p, In p kw -> fst p <> k.
Proof.
  induction kw as [|[a v] r IH]; simpl; intros E p I; [destruct I|]. destruct I as [<-|I]; simpl.
  - destruct (String.eqb_spec a k); [discriminate|assumption].
  - destruct (String.eqb_spec a k); [discriminate|]. apply IH; assumption.
Qed.

Lemma kdrop_agree kw l1 l2 : (forall k, kget kw k <> None -> one_of l1 k = one_of l2 k) -> kdrop l1 kw = kdrop l2 kw.
Proof.
  intros E. unfold kdrop. induction kw as [|[a v] r IH]; [reflexivity|]. simpl.
  assert (Ea : one_of l1 a = one_of l2 a) by (apply E; simpl; rewrite String.eqb_refl; discriminate).
  assert (IHr : filter (fun p => negb (one_of l1 (fst p))) r = filter (fun p => negb (one_of l2 (fst p))) r).
  { clear IH. apply filter_ext_in. intros p Ip. f_equal. apply E. simpl. destruct (String.eqb_spec a (fst p)); [discriminate|].
    intros K. exact (kget_absent r (fst p) K p Ip eq_refl). }
  rewrite Ea, IHr. reflexivity.
Qed.

(** arguments that neither [estimator] names nor the decorator uses *)
Definition plain_kw (except : list string) kw : Prop :=
  forall k, In k ("EstimatorClass" :: estimator_named) -> ~ In k except -> kget kw k = None.

Lemma plain_drop ex kw m : plain_kw ex kw -> (forall k, In k ex -> k = "approach") ->
  kdrop estimator_named (("measure", AStr m) :: kw) = pass_on kw.
Proof.
  intros P EX. unfold pass_on. cbn [kdrop filter fst]. change (kdrop estimator_named kw = kdrop ["approach"; "EstimatorClass"] kw).
  apply kdrop_agree. intros k K.
  destruct (one_of estimator_named k) eqn:E1, (one_of ["approach"; "EstimatorClass"] k) eqn:E2; try reflexivity; exfalso.
  - apply one_of_In in E1. destruct (in_dec string_dec k ex) as [I|N]; [rewrite (EX k I) in E2; discriminate|].
    apply K, P; [right; exact E1|exact N].
  - apply one_of_In in E2. destruct E2 as [<-|[<-|[]]]; [discriminate|]. apply K, P; [left; reflexivity|]. intros I. specialize (EX _ I). discriminate.
Qed.

Ltac km := cbn [kget_none kget kget_or String.eqb]; cbn [kget_none].

Lemma kget_none_measure m kw k : k <> "measure" -> kget_none (("measure", AStr m) :: kw) k = kget_none kw k.
Proof. intros N. unfold kget_none. cbn [kget]. destruct (String.eqb_spec "measure" k); [congruence|reflexivity]. Qed.
Lemma kget_or_measure m kw k v : k <> "measure" -> kget_or (("measure", AStr m) :: kw) k v = kget_or kw k v.
Proof. intros N. unfold kget_or. cbn [kget]. destruct (String.eqb_spec "measure" k); [congruence|reflexivity]. Qed.

Lemma plain_none ex kw k : plain_kw ex kw -> In k estimator_named -> ~ In k ex -> kget_none kw k = ANone.
Proof. intros P I N. unfold kget_none. rewrite P; [reflexivity|right; exact I|exact N]. Qed.

(** entropy and cross-entropy: the very same constructor call *)
Theorem C41_entropy m data kw : plain_kw ["approach"] kw -> (1 <= List.length data <= 2)%nat ->
  (In (underscores (lower m)) ["entropy"; "h"] \/ (In (underscores (lower m)) ["cross_entropy"; "hx"] /\ List.length data = 2%nat)) ->
  call_estimator data (("measure", AStr m) :: kw) = call_entropy data kw.
Proof.
  intros P L M. unfold call_estimator. rewrite (plain_drop ["approach"] kw m P) by (intros k [<-|[]]; reflexivity).
  rewrite (kget_none_measure m kw "cond"), (kget_none_measure m kw "approach") by discriminate. rewrite (plain_none _ kw "cond" P) by (simpl; intuition discriminate).
  change (kget_none (("measure", AStr m) :: kw) "measure") with (AStr (D := D) m). cbv iota.
  assert (E : one_of ["entropy"; "h"; "cross_entropy"; "hx"] (underscores (lower m)) = true).
  { apply one_of_In. destruct M as [M|[M _]]; cbn [In] in *; tauto. }
  rewrite E. destruct (Nat.eqb_spec (List.length data) 0) as [Z|_]; [lia|]. cbn [andb is_none negb].
  assert (E2 : Nat.ltb (List.length data) 2 && one_of ["cross_entropy"; "hx"] (underscores (lower m)) = false).
  { destruct M as [M|[_ M]]; [|rewrite M; reflexivity]. apply andb_false_intro2. destruct (one_of ["cross_entropy"; "hx"] (underscores (lower m))) eqn:C; [|reflexivity].
    apply one_of_In in C. cbn [In] in *. exfalso. decompose [or] M; decompose [or] C; congruence. }
  rewrite E2. destruct (Nat.ltb_spec 2 (List.length data)); [lia|].
  unfold call_entropy, dyn_class. rewrite (plain_none _ kw "cond" P) by (simpl; intuition discriminate). cbn [is_none].
  destruct (kget_none kw "approach"); reflexivity.
Qed.

(** mutual information without a condition *)
Theorem C41_mutual_information m data kw : plain_kw ["approach"] kw -> (2 <= List.length data)%nat ->
  In (underscores (lower m)) ["mutual_information"; "mi"] ->
  call_estimator data (("measure", AStr m) :: kw) = call_mutual_information data kw.
Proof.
  intros P L M. unfold call_estimator. rewrite (plain_drop ["approach"] kw m P) by (intros k [<-|[]]; reflexivity).
  rewrite (kget_none_measure m kw "cond"), (kget_none_measure m kw "approach") by discriminate. rewrite (plain_none _ kw "cond" P) by (simpl; intuition discriminate).
  change (kget_none (("measure", AStr m) :: kw) "measure") with (AStr (D := D) m). cbv iota.
  unfold call_mutual_information, dyn_class. rewrite (plain_none _ kw "cond" P) by (simpl; intuition discriminate). cbn [is_none negb].
  destruct (Nat.ltb_spec (List.length data) 2); [lia|]. destruct (Nat.eqb_spec (List.length data) 0) as [Z|_]; [lia|]. destruct (Nat.eqb_spec (List.length data) 1) as [Z|_]; [lia|].
  destruct M as [M|[M|[]]]; rewrite <- M; (destruct (kget_none kw "approach"); reflexivity).
Qed.

(** two constructor calls with the same effect: same class, same data, same value for every parameter *)
Definition same_call (r1 r2 : res (ctor D)) : Prop :=
  match r1, r2 with
  | Ok c1, Ok c2 => c_class c1 = c_class c2 /\ c_data c1 = c_data c2 /\ forall k, kget (c_kw c1) k = kget (c_kw c2) k
  | Raise e1, Raise e2 => e1 = e2
  | _, _ => False
  end.

Lemma class_cmi (a : arg D) : get_estimator_class (AStr "cmi") a = get_estimator cmi_estimators a.
Proof. reflexivity. Qed.
Lemma class_te (a : arg D) : get_estimator_class (AStr "te") a = get_estimator te_estimators a.
Proof. reflexivity. Qed.
Lemma class_cte (a : arg D) : get_estimator_class (AStr "cte") a = get_estimator cte_estimators a.
Proof. reflexivity. Qed.

Theorem C41_conditional_mutual_information m data kw : plain_kw ["approach"; "cond"] kw -> (2 <= List.length data)%nat ->
  In (underscores (lower m)) ["mutual_information"; "mi"; "conditional_mutual_information"; "cmi"] -> kget_none kw "cond" <> ANone ->
  same_call (call_estimator data (("measure", AStr m) :: kw)) (call_mutual_information data kw).
Proof.
  intros P L M C. unfold call_estimator. rewrite (kget_none_measure m kw "cond"), (kget_none_measure m kw "approach") by discriminate.
  change (kget_none (("measure", AStr m) :: kw) "measure") with (AStr (D := D) m). cbv iota.
  assert (NC : is_none (kget_none kw "cond") = false) by (destruct (kget_none kw "cond"); [congruence|reflexivity..]).
  unfold call_mutual_information, dyn_class. rewrite NC. cbn [negb].
  destruct (Nat.ltb_spec (List.length data) 2); [lia|]. destruct (Nat.eqb_spec (List.length data) 0) as [Z|_]; [lia|]. destruct (Nat.eqb_spec (List.length data) 1) as [Z|_]; [lia|].
  assert (K : forall p, same_call (Ok (mkCtor p data (("cond", kget_none kw "cond") :: kdrop estimator_named (("measure", AStr m) :: kw)))) (Ok (mkCtor p data (pass_on kw)))).
  { intros p. split; [reflexivity|]. split; [reflexivity|]. intros k. cbn [c_kw]. cbn [kget]. unfold pass_on. rewrite !kget_kdrop.
    destruct (String.eqb_spec "cond" k) as [<-|N].
    - change (one_of ["approach"; "EstimatorClass"] "cond") with false. cbv iota. unfold kget_none in *. destruct (kget kw "cond"); [reflexivity|congruence].
    - cbn [kget]. destruct (String.eqb_spec "measure" k) as [<-|N2].
      + change (one_of ["approach"; "EstimatorClass"] "measure") with false. cbv iota.
        rewrite P; [reflexivity|simpl; tauto|simpl; intuition discriminate].
      + destruct (one_of estimator_named k) eqn:E1, (one_of ["approach"; "EstimatorClass"] k) eqn:E2; try reflexivity.
        * symmetry. apply P; [right; apply one_of_In; exact E1|]. intros [<-|[<-|[]]]; [discriminate|congruence].
        * apply one_of_In in E2. destruct E2 as [<-|[<-|[]]]; [discriminate|]. apply P; [left; reflexivity|simpl; intuition discriminate]. }
  rewrite class_cmi.
  assert (S1 : one_of ["entropy"; "h"; "cross_entropy"; "hx"] (underscores (lower m)) = false) by (destruct M as [<-|[<-|[<-|[<-|[]]]]]; reflexivity).
  assert (S2 : one_of ["mutual_information"; "mi"; "conditional_mutual_information"; "cmi"] (underscores (lower m)) = true) by (apply one_of_In; exact M).
  rewrite S1, S2. rewrite ?andb_false_r. cbn [andb].
  destruct (kget_none kw "approach") as [|s| | |]; cbn [is_none]; try reflexivity.
  unfold get_estimator. destruct (tget cmi_estimators (lower s)); cbn [bind]; [apply K|exact eq_refl].
Qed.

(** transfer entropies: the parameters agree once the constructors' defaults are filled in *)
Definition same_te (r1 r2 : res (ctor D)) : Prop :=
  match r1, r2 with
  | Ok c1, Ok c2 => c_class c1 = c_class c2 /\ c_data c1 = c_data c2 /\
      forall k, k <> "cond_hist_len" \/ te_param c1 "cond" <> Some ANone -> te_param c1 k = te_param c2 k
  | Raise e1, Raise e2 => e1 = e2
  | _, _ => False
  end.

Theorem C41_transfer_entropy m data kw :
  kget kw "EstimatorClass" = None -> kget kw "measure" = None -> List.length data = 2%nat ->
  (In (underscores (lower m)) ["transfer_entropy"; "te"] \/
   (In (underscores (lower m)) ["conditional_transfer_entropy"; "cte"] /\ kget_none kw "cond" <> ANone)) ->
  same_te (call_estimator data (("measure", AStr m) :: kw)) (call_transfer_entropy data kw).
Proof.
  intros PE PM L M. unfold call_estimator. rewrite (kget_none_measure m kw "cond"), (kget_none_measure m kw "approach"), !kget_or_measure by discriminate.
  change (kget_none (("measure", AStr m) :: kw) "measure") with (AStr (D := D) m). cbv iota.
  unfold call_transfer_entropy, dyn_class. rewrite L. cbn [Nat.eqb negb].
  assert (MM : In (underscores (lower m)) ["transfer_entropy"; "te"; "conditional_transfer_entropy"; "cte"]) by (destruct M as [M|[M _]]; cbn [In] in *; tauto).
  assert (MC : one_of ["cte"; "conditional_transfer_entropy"] (underscores (lower m)) && is_none (kget_none kw "cond") = false).
  { destruct M as [M|[M C]]; [|destruct (kget_none kw "cond"); [congruence|rewrite andb_false_r; reflexivity..]].
    destruct M as [<-|[<-|[]]]; reflexivity. }
  assert (S1 : one_of ["entropy"; "h"; "cross_entropy"; "hx"] (underscores (lower m)) = false) by (destruct MM as [<-|[<-|[<-|[<-|[]]]]]; reflexivity).
  assert (S2 : one_of ["mutual_information"; "mi"; "conditional_mutual_information"; "cmi"] (underscores (lower m)) = false) by (destruct MM as [<-|[<-|[<-|[<-|[]]]]]; reflexivity).
  assert (S3 : one_of ["transfer_entropy"; "te"; "conditional_transfer_entropy"; "cte"] (underscores (lower m)) = true) by (apply one_of_In; exact MM).
  rewrite S1, S2, S3, MC. clear S1 S2 S3 MC MM M.
  assert (PK : forall k, te_default (D := D) k = te_default k) by reflexivity.
  assert (KD : forall k, kget (pass_on kw) k = if one_of ["approach"] k then None else kget kw k).
  { intros k. unfold pass_on. rewrite kget_kdrop. unfold one_of. cbn [existsb]. destruct (String.eqb_spec k "approach"); [reflexivity|]. cbn [orb].
    destruct (String.eqb_spec k "EstimatorClass") as [->|]; [rewrite PE; reflexivity|reflexivity]. }
  assert (KE : forall k, kget (kdrop estimator_named (("measure", AStr m) :: kw)) k = if one_of estimator_named k then None else kget kw k).
  { intros k. rewrite kget_kdrop. cbn [kget]. destruct (String.eqb_spec "measure" k) as [<-|]; reflexivity. }
  destruct (is_none (kget_none kw "cond")) eqn:NC; cbn [negb].
  - assert (K : forall p, same_te (Ok (mkCtor p data (("prop_time", kget_or kw "prop_time" (AInt 0)) :: [("src_hist_len", kget_or kw "src_hist_len" (AInt 1)); ("dest_hist_len", kget_or kw "dest_hist_len" (AInt 1))] ++ ("step_size", kget_or kw "step_size" (AInt 1)) :: kdrop estimator_named (("measure", AStr m) :: kw)))) (Ok (mkCtor p data (pass_on kw)))).
    { intros p. split; [reflexivity|]. split; [reflexivity|]. intros k HK. unfold te_param. cbn [c_kw app].
      cbn [kget]. rewrite KD, KE. unfold kget_or, te_default.
      destruct (String.eqb_spec "prop_time" k) as [<-|N1]; [cbn; destruct (kget kw "prop_time"); reflexivity|].
      destruct (String.eqb_spec "src_hist_len" k) as [<-|N2]; [cbn; destruct (kget kw "src_hist_len"); reflexivity|].
      destruct (String.eqb_spec "dest_hist_len" k) as [<-|N3]; [cbn; destruct (kget kw "dest_hist_len"); reflexivity|].
      destruct (String.eqb_spec "step_size" k) as [<-|N4]; [cbn; destruct (kget kw "step_size"); reflexivity|].
      destruct (String.eqb_spec "cond" k) as [<-|N5].
      { cbn. unfold kget_none in NC. destruct (kget kw "cond") as [v|]; [|reflexivity]. destruct v; try discriminate. reflexivity. }
      destruct (String.eqb_spec "measure" k) as [<-|N6]; [rewrite PM; reflexivity|].
      destruct (String.eqb_spec "approach" k) as [<-|N7]; [reflexivity|].
      destruct (String.eqb_spec "cond_hist_len" k) as [<-|N8].
      { destruct HK as [HK|HK]; [congruence|]. exfalso. apply HK. unfold te_param. cbn [c_kw kget app]. rewrite KE. reflexivity. }
      replace (one_of estimator_named k) with false; [|symmetry; destruct (one_of estimator_named k) eqn:I; [apply one_of_In in I; cbn [In estimator_named] in I; decompose [or] I; first [contradiction | congruence]|reflexivity]].
      replace (one_of ["approach"] k) with false; [reflexivity|]. symmetry. destruct (one_of ["approach"] k) eqn:I; [apply one_of_In in I; cbn [In] in I; decompose [or] I; first [contradiction | congruence]|reflexivity]. }
    rewrite class_te. destruct (kget_none kw "approach") as [|s| | |]; cbn [is_none]; try reflexivity.
    unfold get_estimator. destruct (tget te_estimators (lower s)); cbn [bind]; [apply K|exact eq_refl].
  - assert (K : forall p, same_te (Ok (mkCtor p data (("cond", kget_none kw "cond") :: ("prop_time", kget_or kw "prop_time" (AInt 0)) :: [("src_hist_len", kget_or kw "src_hist_len" (AInt 1)); ("dest_hist_len", kget_or kw "dest_hist_len" (AInt 1))] ++ ("cond_hist_len", kget_or kw "cond_hist_len" (AInt 1)) :: ("step_size", kget_or kw "step_size" (AInt 1)) :: kdrop estimator_named (("measure", AStr m) :: kw)))) (Ok (mkCtor p data (pass_on kw)))).
    { intros p. split; [reflexivity|]. split; [reflexivity|]. intros k HK. unfold te_param. cbn [c_kw app].
      cbn [kget]. rewrite KD, KE. unfold kget_or, te_default.
      destruct (String.eqb_spec "cond" k) as [<-|N5].
      { cbn. unfold kget_none in *. destruct (kget kw "cond") as [v|]; [reflexivity|discriminate]. }
      destruct (String.eqb_spec "prop_time" k) as [<-|N1]; [cbn; destruct (kget kw "prop_time"); reflexivity|].
      destruct (String.eqb_spec "src_hist_len" k) as [<-|N2]; [cbn; destruct (kget kw "src_hist_len"); reflexivity|].
      destruct (String.eqb_spec "dest_hist_len" k) as [<-|N3]; [cbn; destruct (kget kw "dest_hist_len"); reflexivity|].
      destruct (String.eqb_spec "cond_hist_len" k) as [<-|N8]; [cbn; destruct (kget kw "cond_hist_len"); reflexivity|].
      destruct (String.eqb_spec "step_size" k) as [<-|N4]; [cbn; destruct (kget kw "step_size"); reflexivity|].
      destruct (String.eqb_spec "measure" k) as [<-|N6]; [rewrite PM; reflexivity|].
      destruct (String.eqb_spec "approach" k) as [<-|N7]; [reflexivity|].
      replace (one_of estimator_named k) with false; [|symmetry; destruct (one_of estimator_named k) eqn:I; [apply one_of_In in I; cbn [In estimator_named] in I; decompose [or] I; first [contradiction | congruence]|reflexivity]].
      replace (one_of ["approach"] k) with false; [reflexivity|]. symmetry. destruct (one_of ["approach"] k) eqn:I; [apply one_of_In in I; cbn [In] in I; decompose [or] I; first [contradiction | congruence]|reflexivity]. }
    rewrite class_cte. destruct (kget_none kw "approach") as [|s| | |]; cbn [is_none]; try reflexivity.
    unfold get_estimator. destruct (tget cte_estimators (lower s)); cbn [bind]; [apply K|exact eq_refl].
Qed.
Print Assumptions C41_transfer_entropy.

(** wrong numbers of arrays, a missing or superfluous condition and unknown measures are all ValueErrors of [estimator] *)
Theorem C41_wrong_arguments m data kw :
  let M := underscores (lower m) in let call := call_estimator data (("measure", AStr m) :: kw) in
  (In M ["transfer_entropy"; "te"; "conditional_transfer_entropy"; "cte"] -> List.length data <> 2%nat -> call = Raise ValueError) /\
  (In M ["entropy"; "h"] -> (List.length data = 0 \/ 2 < List.length data)%nat -> call = Raise ValueError) /\
  (In M ["cross_entropy"; "hx"] -> List.length data <> 2%nat -> call = Raise ValueError) /\
  (In M ["mutual_information"; "mi"; "conditional_mutual_information"; "cmi"] -> List.length data = 0%nat -> call = Raise ValueError) /\
  (In M ["conditional_mutual_information"; "cmi"; "conditional_transfer_entropy"; "cte"] -> kget_none kw "cond" = ANone -> call = Raise ValueError) /\
  (In M ["entropy"; "h"; "cross_entropy"; "hx"] -> kget_none kw "cond" <> ANone -> call = Raise ValueError) /\
  (~ In M ["entropy"; "h"; "cross_entropy"; "hx"; "mutual_information"; "mi"; "conditional_mutual_information"; "cmi";
           "transfer_entropy"; "te"; "conditional_transfer_entropy"; "cte"] -> call = Raise ValueError).
Proof.
  intros M call. unfold call, call_estimator. rewrite (kget_none_measure m kw "cond") by discriminate.
  change (kget_none (("measure", AStr m) :: kw) "measure") with (AStr (D := D) m). cbv iota zeta. fold M. clearbody M. clear call.
  split; [|split; [|split; [|split; [|split; [|split]]]]].
  - intros I L. destruct (Nat.eqb_spec (List.length data) 2) as [Q|_]; [lia|]. cbn [In] in I. decompose [or] I; try contradiction; subst M; cbn [one_of existsb String.eqb Ascii.eqb Bool.eqb orb andb]; cbn; destruct (is_none (kget_none kw "cond")); reflexivity.
  - intros I L. destruct (Nat.ltb_spec 2 (List.length data)) as [Q|Q]; destruct (Nat.eqb_spec (List.length data) 0) as [Q'|Q']; try lia;
      cbn [In] in I; decompose [or] I; try contradiction; subst M; cbn; rewrite ?andb_false_r; destruct (is_none (kget_none kw "cond")); reflexivity.
  - intros I L. destruct (Nat.ltb_spec (List.length data) 2) as [Q|Q]; destruct (Nat.ltb_spec 2 (List.length data)) as [Q'|Q']; try lia;
      cbn [In] in I; decompose [or] I; try contradiction; subst M; cbn; rewrite ?andb_false_r, ?andb_true_r; try reflexivity; destruct (is_none (kget_none kw "cond")); reflexivity.
  - intros I L. rewrite L. cbn [In] in I; decompose [or] I; try contradiction; subst M; cbn; destruct (is_none (kget_none kw "cond")); reflexivity.
  - intros I C. rewrite C. cbn [In] in I; decompose [or] I; try contradiction; subst M; reflexivity.
  - intros I C. assert (NC : is_none (kget_none kw "cond") = false) by (destruct (kget_none kw "cond"); [congruence|reflexivity..]). rewrite NC. cbn [negb].
    cbn [In] in I; decompose [or] I; try contradiction; subst M; cbn; destruct (_ && _); try reflexivity; destruct (_ && _); reflexivity.
  - intros N. assert (O : forall l, (forall x, In x l -> In x ["entropy"; "h"; "cross_entropy"; "hx"; "mutual_information"; "mi"; "conditional_mutual_information"; "cmi";
           "transfer_entropy"; "te"; "conditional_transfer_entropy"; "cte"]) -> one_of l M = false).
    { intros l Hl. destruct (one_of l M) eqn:Q; [|reflexivity]. apply one_of_In in Q. elim N. apply Hl. exact Q. }
    rewrite !O by (cbn [In]; tauto). reflexivity.
Qed.
End Agree.

(** the claim fails for entropy and mutual information: [estimator] keeps [step_size] for itself *)
Theorem C41_step_size_dropped_refuted {D} (x y : D) :
  let kw := [("approach", AStr "ordinal"); ("embedding_dim", AInt 2); ("step_size", AInt 2)] in
  (exists c c', call_estimator [x] (("measure", AStr "entropy") :: kw) = Ok c /\ call_entropy [x] kw = Ok c' /\
     kget (c_kw c) "step_size" = None /\ kget (c_kw c') "step_size" = Some (AInt 2)) /\
  (exists c c', call_estimator [x; y] (("measure", AStr "mi") :: kw) = Ok c /\ call_mutual_information [x; y] kw = Ok c' /\
     kget (c_kw c) "step_size" = None /\ kget (c_kw c') "step_size" = Some (AInt 2)).
Proof. intros kw. split; do 2 eexists; (split; [vm_compute; reflexivity|]); (split; [vm_compute; reflexivity|]); split; reflexivity. Qed.

(** and the result differs: 1,3,2,4 has zero ordinal entropy with step 2 but not with step 1 *)
Theorem C41_step_size_result_refuted : let k := mkKind (@argsort_stable Z _) false in
  entropy_ordinal k BE [1; 3; 2; 4]%Z 2 2 = Ok 0%R /\ exists h, entropy_ordinal k BE [1; 3; 2; 4]%Z 2 1 = Ok h /\ (0 < h)%R.
Proof.
  intros k. split.
  - pose proof (entropy_ordinal_ok k BE 0%Z [1; 3; 2; 4]%Z 2 2 stable_legal Logic.I ltac:(lia) ltac:(lia) ltac:(simpl; lia)) as E.
    change (Z.of_nat 2) with 2%Z in E. rewrite E. f_equal.
    replace (map (eff_sort k 2 2) (windows 0%Z [1; 3; 2; 4]%Z 2 2)) with ([[0; 1]; [0; 1]]%nat) by (vm_compute; reflexivity).
    rewrite (Ent_const _ [0; 1]%nat); [simpl; lra|]. intros p [<-|[<-|[]]]; reflexivity.
  - pose proof (entropy_ordinal_ok k BE 0%Z [1; 3; 2; 4]%Z 2 1 stable_legal Logic.I ltac:(lia) ltac:(lia) ltac:(simpl; lia)) as E.
    change (Z.of_nat 2) with 2%Z in E. change (Z.of_nat 1) with 1%Z in E. eexists. split; [exact E|].
    replace (map (eff_sort k 2 1) (windows 0%Z [1; 3; 2; 4]%Z 2 1)) with ([[0; 1]; [1; 0]; [0; 1]]%nat) by (vm_compute; reflexivity).
    unfold Ent, prob, count, distinct. change (nodup eq_dec [[0; 1]; [1; 0]; [0; 1]]%nat) with ([[1; 0]; [0; 1]]%nat).
    unfold sumf. simpl.
    assert (L1 : (ln (1 / (1 + 1 + 1)) < 0)%R) by (replace 0%R with (ln 1) by apply ln_1; apply ln_increasing; lra).
    assert (L2 : (ln ((1 + 1) / (1 + 1 + 1)) < 0)%R) by (replace 0%R with (ln 1) by apply ln_1; apply ln_increasing; lra).
    nra.
Qed.

(** with one array the function refuses mutual information, the factory returns an entropy estimator and
    drops the condition *)
Theorem C41_single_array_refuted {D} (x z : D) : let kw := [("approach", AStr "discrete"); ("cond", AData z)] in
  call_mutual_information [x] kw = Raise ValueError /\
  call_estimator [x] (("measure", AStr "cmi") :: kw) = Ok (mkCtor "infomeasure.estimators.entropy.discrete.DiscreteEntropyEstimator" [x] []).
Proof. intros kw. split; vm_compute; reflexivity. Qed.

(** for every approach of mutual information (written in lower case) the factory builds, for one array, the entropy estimator
    of that approach with the same keywords; "ksg" becomes "kl".  The condition is not looked at. *)
Theorem C41_single_array_entropy {D} (x : D) m a rest : In (underscores (lower m)) ["mutual_information"; "mi"] -> In a (map fst mi_estimators) ->
  kget rest "cond" = None ->
  exists c, call_estimator [x] (("measure", AStr m) :: ("approach", AStr a) :: rest) = Ok c /\
    call_estimator [x] (("measure", AStr "entropy") :: ("approach", AStr (if String.eqb a "ksg" then "kl" else a)) :: rest) = Ok c /\
    c_data c = [x] /\ c_kw c = kdrop estimator_named rest.
Proof.
  intros M A NC. unfold call_estimator.
  assert (K : forall m' a', kdrop estimator_named (("measure", AStr m') :: ("approach", AStr a') :: rest) = kdrop estimator_named rest) by reflexivity.
  assert (C : forall m' a', kget_none (("measure", AStr m') :: ("approach", AStr a') :: rest) "cond" = ANone).
  { intros m' a'. unfold kget_none. cbn [kget]. change (String.eqb "measure" "cond") with false. change (String.eqb "approach" "cond") with false. cbv iota. rewrite NC. reflexivity. }
  rewrite !K, !C. set (kw := kdrop estimator_named rest). clearbody kw.
  change (kget_none (("measure", AStr m) :: ("approach", AStr a) :: rest) "measure") with (AStr (D := D) m).
  change (kget_none (("measure", AStr m) :: ("approach", AStr a) :: rest) "approach") with (AStr (D := D) a).
  set (a' := if String.eqb a "ksg" then "kl" else a).
  change (kget_none (("measure", AStr "entropy") :: ("approach", AStr a') :: rest) "measure") with (AStr (D := D) "entropy").
  change (kget_none (("measure", AStr "entropy") :: ("approach", AStr a') :: rest) "approach") with (AStr (D := D) a').
  cbv iota. change (underscores (lower "entropy")) with "entropy". cbn [List.length firstn is_none].
  assert (G : exists p, tget mi_entropy_map a = Some a' /\ get_estimator (D := D) entropy_estimators (AStr a') = Ok p).
  { subst a'. change (map fst mi_estimators) with (map (fun s : string => s) (map fst mi_estimators)) in A. vm_compute in A. decompose [or] A; clear A; try contradiction; subst a; eexists; split; vm_compute; reflexivity. }
  destruct G as (p & G1 & G2). exists (mkCtor p [x] kw).
  set (mm := underscores (lower m)) in *. clearbody mm.
  set (T := tget mi_entropy_map a) in *. set (GE := get_estimator (D := D) entropy_estimators) in *. set (G3 := get_estimator (D := D) cmi_estimators). set (G4 := get_estimator (D := D) mi_estimators).
  clearbody T GE G3 G4. split; [|split; [|split; reflexivity]].
  - cbn [In] in M. destruct M as [<-|[<-|[]]]; cbn; rewrite G1, G2; reflexivity.
  - cbn. rewrite G2. reflexivity.
Qed.
Print Assumptions C41_single_array_entropy.

Example C41_example {D} (x y z : D) :
  same_te (call_estimator [x; y] [("measure", AStr "Transfer Entropy"); ("approach", AStr "kernel"); ("cond", AData z); ("bandwidth", AOther)])
          (call_transfer_entropy [x; y] [("approach", AStr "kernel"); ("cond", AData z); ("bandwidth", AOther)]).
Proof. apply (C41_transfer_entropy "Transfer Entropy"); try reflexivity. left. vm_compute. tauto. Qed.
