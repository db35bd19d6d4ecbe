(** Property theorems: what the six functions construct (C40). *)
From Coq Require Import Reals Lra List ZArith Arith Bool String Ascii Lia.
From Verif Require Import Res RSum Spec SpecBase SpecDisp SpecOrd Ord MBase MData MEntropy MEst MOrd MDisp PBase PropsDisp.
Import ListNotations.
Local Open Scope string_scope.

(** one object of class [cls] is constructed from the given data; every keyword but the approach arrives unchanged *)
Definition constructs {D} (r : res (ctor D)) (cls : string) (data : list D) (kw : kwargs D) : Prop :=
  exists c, r = Ok c /\ c_class c = cls /\ c_data c = data /\
    forall k, ~ In k ["approach"; "EstimatorClass"] -> kget (c_kw c) k = kget kw k.

Lemma class_found {D} m M s f : In (lower m) (measure_names M) -> In f families -> In (lower s) (approach_names M f) ->
  get_estimator_class (D := D) (AStr m) (AStr s) = Ok (class_of M f).
Proof. intros Hm Hf Ha. apply C40_classes. exists M, f. repeat split; assumption. Qed.

Lemma passes {D} (data : list D) kw p : constructs (Ok (mkCtor p data (pass_on kw))) p data kw.
Proof.
  exists (mkCtor p data (pass_on kw)). repeat split. intros k N. cbn [c_kw]. unfold pass_on. rewrite kget_kdrop.
  destruct (one_of ["approach"; "EstimatorClass"] k) eqn:E; [apply one_of_In in E; contradiction|reflexivity].
Qed.

Theorem C40_functions_construct {D} (data : list D) kw s f : kget kw "approach" = Some (AStr s) -> In f families ->
  let given := kget kw "cond" <> None /\ kget kw "cond" <> Some ANone in
  (In (lower s) (approach_names H f) -> constructs (call_entropy data kw) (class_of H f) data kw) /\
  (In (lower s) (approach_names H f) -> (2 <= List.length data)%nat -> constructs (call_cross_entropy data kw) (class_of H f) data kw) /\
  (In (lower s) (approach_names MI f) -> (2 <= List.length data)%nat ->
     (~ given -> constructs (call_mutual_information data kw) (class_of MI f) data kw) /\
     (given -> constructs (call_mutual_information data kw) (class_of CMI f) data kw /\
               constructs (call_conditional_mutual_information data kw) (class_of CMI f) data kw)) /\
  (In (lower s) (approach_names TE f) -> List.length data = 2%nat ->
     (~ given -> constructs (call_transfer_entropy data kw) (class_of TE f) data kw) /\
     (given -> constructs (call_transfer_entropy data kw) (class_of CTE f) data kw /\
               constructs (call_conditional_transfer_entropy data kw) (class_of CTE f) data kw)).
Proof.
  intros A Hf given.
  assert (A' : kget_none kw "approach" = AStr s) by (unfold kget_none; rewrite A; reflexivity).
  assert (NG : ~ given -> is_none (kget_none kw "cond") = true).
  { intros N. unfold kget_none. destruct (kget kw "cond") as [v|] eqn:E; [|reflexivity]. destruct v; try reflexivity; exfalso; apply N; split; discriminate. }
  assert (G : given -> is_none (kget_none kw "cond") = false).
  { intros [N1 N2]. unfold kget_none. destruct (kget kw "cond") as [v|]; [|congruence]. destruct v; try reflexivity. congruence. }
  assert (EH : In (lower s) (approach_names H f) -> constructs (call_entropy data kw) (class_of H f) data kw).
  { intros Ha. unfold call_entropy, dyn_class. rewrite A'. cbn [is_none].
    destruct (is_none (kget_none kw "cond")); rewrite (class_found "entropy" H s f) by (simpl; tauto || assumption); cbn [bind]; apply passes. }
  assert (MIc : In (lower s) (approach_names MI f) -> (2 <= List.length data)%nat -> forall M m, (M = MI /\ m = "mi") \/ (M = CMI /\ m = "cmi") ->
     get_estimator_class (D := D) (AStr m) (AStr s) = Ok (class_of M f)).
  { intros Ha _ M m [[-> ->]|[-> ->]]; apply class_found; simpl; tauto || assumption. }
  assert (TEc : In (lower s) (approach_names TE f) -> forall M m, (M = TE /\ m = "te") \/ (M = CTE /\ m = "cte") ->
     get_estimator_class (D := D) (AStr m) (AStr s) = Ok (class_of M f)).
  { intros Ha M m [[-> ->]|[-> ->]]; apply class_found; simpl; tauto || assumption. }
  split; [exact EH|]. split; [|split].
  - intros Ha L. unfold call_cross_entropy. destruct (Nat.ltb_spec (List.length data) 2); [lia|]. apply EH, Ha.
  - intros Ha L.
    assert (B : forall M m, (M = MI /\ m = "mi") \/ (M = CMI /\ m = "cmi") -> (if is_none (kget_none kw "cond") then "mi" else "cmi") = m ->
      constructs (call_mutual_information data kw) (class_of M f) data kw).
    { intros M m X E. unfold call_mutual_information, dyn_class. rewrite A'. cbn [is_none]. rewrite E, (MIc Ha L M m X). cbn [bind].
      destruct (Nat.ltb_spec (List.length data) 2); [lia|]. apply passes. }
    split; [intros N; apply (B MI "mi"); [left; auto|rewrite (NG N); reflexivity]|].
    intros N. assert (C : constructs (call_mutual_information data kw) (class_of CMI f) data kw) by (apply (B CMI "cmi"); [right; auto|rewrite (G N); reflexivity]).
    split; [exact C|]. unfold call_conditional_mutual_information. rewrite (G N). destruct (Nat.ltb_spec (List.length data) 2); [lia|]. exact C.
  - intros Ha L.
    assert (B : forall M m, (M = TE /\ m = "te") \/ (M = CTE /\ m = "cte") -> (if is_none (kget_none kw "cond") then "te" else "cte") = m ->
      constructs (call_transfer_entropy data kw) (class_of M f) data kw).
    { intros M m X E. unfold call_transfer_entropy, dyn_class. rewrite A'. cbn [is_none]. rewrite E, (TEc Ha M m X). cbn [bind].
      rewrite L. cbn [Nat.eqb negb]. apply passes. }
    split; [intros N; apply (B TE "te"); [left; auto|rewrite (NG N); reflexivity]|].
    intros N. assert (C : constructs (call_transfer_entropy data kw) (class_of CTE f) data kw) by (apply (B CTE "cte"); [right; auto|rewrite (G N); reflexivity]).
    split; [exact C|]. unfold call_conditional_transfer_entropy. rewrite (G N), L. cbn [Nat.eqb negb]. exact C.
Qed.
Print Assumptions C40_functions_construct.

(** the conditional functions need a condition; all need enough data *)
Theorem C40_functions_refuse {D} (data : list D) kw :
  (kget kw "cond" = None \/ kget kw "cond" = Some ANone ->
     call_conditional_mutual_information data kw = Raise ValueError /\ call_conditional_transfer_entropy data kw = Raise ValueError) /\
  ((List.length data < 2)%nat ->
     call_cross_entropy data kw = Raise ValueError /\ call_conditional_mutual_information data kw = Raise ValueError /\
     ((exists a, kget kw "approach" = Some (AStr a)) -> call_mutual_information data kw = Raise ValueError)) /\
  (List.length data <> 2%nat ->
     call_conditional_transfer_entropy data kw = Raise ValueError /\
     ((exists a, kget kw "approach" = Some (AStr a)) -> call_transfer_entropy data kw = Raise ValueError)).
Proof.
  split; [|split].
  - intros C. assert (E : is_none (kget_none kw "cond") = true) by (unfold kget_none; destruct C as [-> | ->]; reflexivity).
    unfold call_conditional_mutual_information, call_conditional_transfer_entropy. rewrite E. split; reflexivity.
  - intros L. unfold call_cross_entropy, call_conditional_mutual_information, call_mutual_information, dyn_class.
    destruct (Nat.ltb_spec (List.length data) 2); [|lia]. split; [reflexivity|]. split; [destruct (is_none _); reflexivity|].
    intros (a & Ea). unfold kget_none at 1 3. rewrite Ea. cbn [is_none].
    destruct (C40_total (if is_none (kget_none kw "cond") then "mi" else "cmi") (@AStr D a)) as [(p & ->)| ->]; reflexivity.
  - intros L. unfold call_conditional_transfer_entropy, call_transfer_entropy, dyn_class.
    destruct (Nat.eqb_spec (List.length data) 2); [lia|]. cbn [negb]. split; [destruct (is_none _); reflexivity|].
    intros (a & Ea). unfold kget_none at 1 3. rewrite Ea. cbn [is_none].
    destruct (C40_total (if is_none (kget_none kw "cond") then "te" else "cte") (@AStr D a)) as [(p & ->)| ->]; reflexivity.
Qed.
Print Assumptions C40_functions_refuse.

(** a case: conditional mutual information of three series with approach "Chao_Shen" *)
Example C40_functions_example {D} (x y z : D) :
  constructs (call_conditional_mutual_information [x; y] [("approach", AStr "Chao_Shen"); ("cond", AData z); ("base", AInt 2)])
    "infomeasure.estimators.mutual_information.chao_shen.ChaoShenCMIEstimator" [x; y]
    [("approach", AStr "Chao_Shen"); ("cond", AData z); ("base", AInt 2)].
Proof.
  destruct (C40_functions_construct [x; y] [("approach", AStr "Chao_Shen"); ("cond", AData z); ("base", AInt 2)] "Chao_Shen"
    (plain ["chao_shen"; "cs"] ["chao_shen"] "chao_shen" "ChaoShen") eq_refl) as (_ & _ & M & _); [simpl; tauto|].
  destruct M as [_ M]; [left; reflexivity|simpl; lia|]. apply M. split; discriminate.
Qed.
