(** Property theorems: the divergences as API functions with an approach name (C96). *)
From Coq Require Import Reals Lra Lia List ZArith Arith Bool String.
From Verif Require Import Res RSum Spec SpecBase Ord MBase MData MEntropy MGeneric MEst MNsb MDiv MCtor MArgs MDisp MDivD PBase PropsDisp PropsDiv PropsDiv2.
From Verif Require SpecDisp.
Import ListNotations.
Local Open Scope R_scope.

(** the approach names (any case) of the Jensen-Shannon divergence *)
Definition jsd_names : list string := ["discrete"; "bayes"; "shrink"; "js"; "ordinal"; "symbolic"; "permutation"; "kernel"]%string.
(** the approach names of estimators without a cross-entropy *)
Definition no_cross_names : list string :=
  ["ansb"; "bonachela"; "chao_shen"; "cs"; "chao_wang_jost"; "cwj"; "grassberger"; "nsb"; "shrink"; "js"; "zhang"]%string.

Section Gen.
Context {D K : Type} `{EqDec K}.
Variable E : eenv D K.

(** KLD(p, q) is the API's cross-entropy of (p, q) minus its entropy of p, both with the same approach and keyword
    arguments; it fails when, and as, these fail (cross-entropy first) *)
Theorem C96_kld_difference p q approach (kw : kwargs D) :
  kget kw "approach" = None -> kget kw "EstimatorClass" = None ->
  kld_api E p q approach kw =
  (let* hqp := cross_entropy_api E [p; q] (("approach"%string, approach) :: kw) in
   let* hp := entropy_api E [p] (("approach"%string, approach) :: kw) in Ok (hqp - hp)).
Proof.
  intros NA NC.
  assert (PO : pass_on (("approach"%string, approach) :: kw) = kw).
  { unfold pass_on, kdrop. cbn [filter fst one_of existsb String.eqb Ascii.eqb Bool.eqb orb negb].
    revert NA NC. induction kw as [|[k v] kw' IH]; [reflexivity|]. cbn [kget]. intros A B.
    destruct (String.eqb_spec k "approach") as [?|Na]; [discriminate A|]. destruct (String.eqb_spec k "EstimatorClass") as [?|Nc]; [discriminate B|].
    cbn [filter fst]. unfold one_of. cbn [existsb]. rewrite (proj2 (String.eqb_neq _ _) Na), (proj2 (String.eqb_neq _ _) Nc). cbn [orb negb]. f_equal. apply IH; assumption. }
  unfold kld_api, cross_entropy_api, entropy_api, call_cross_entropy, call_entropy. cbn [List.length Nat.ltb Nat.leb].
  unfold dyn_class. cbn [kget_none kget String.eqb Ascii.eqb Bool.eqb]. unfold kget_none. cbn [kget String.eqb Ascii.eqb Bool.eqb].
  rewrite PO. destruct (is_none approach); [reflexivity|].
  assert (Q : forall c : bool, (if c then "entropy"%string else "entropy"%string) = "entropy"%string) by (intros []; reflexivity). rewrite Q.
  destruct (get_estimator_class (AStr "entropy") approach) as [c|e|]; [|reflexivity|reflexivity]. cbn [bind]. unfold run_ctor. cbn [c_class c_data c_kw].
  destruct (build E c [p; q] kw) as [o1|e|]; [|reflexivity|reflexivity]. cbn [bind]. destruct (g_val o1) as [h1|e|]; [|reflexivity|reflexivity]. cbn [bind].
  destruct (build E c [p] kw) as [o2|e|]; reflexivity.
Qed.

(** no approach, or an unknown one, is a ValueError whatever the data and the keyword arguments *)
Theorem C96_kld_unknown p q approach (kw : kwargs D) :
  (forall s f, approach = AStr s -> In f SpecDisp.families -> ~ In (lower s) (SpecDisp.f_h f)) ->
  kld_api E p q approach kw = Raise ValueError.
Proof.
  intros N. unfold kld_api. destruct (is_none approach) eqn:Z; [reflexivity|].
  destruct (C40_total (D := D) "entropy" approach) as [(c & Q)|Q]; rewrite Q; [|reflexivity]. exfalso.
  destruct approach as [|s|z|d|]; try discriminate Q.
  apply C40_classes in Q. destruct Q as (M & f & A & B & C & _).
  assert (M = SpecDisp.H) as ->. { destruct M; cbn in A; try reflexivity; exfalso; decompose [or] A; try discriminate; contradiction. }
  exact (N s f eq_refl B C).
Qed.

Lemma entropy_class (a : arg D) : get_estimator_class (AStr "entropy") a = get_estimator entropy_estimators a.
Proof. unfold get_estimator_class. replace (one_of ["entropy"; "h"]%string (lower "entropy")) with true by reflexivity. reflexivity. Qed.
Lemma jsd_class s c : get_estimator_class (D := D) (AStr "entropy") (AStr s) = Ok c ->
  In (lower s, c) entropy_estimators.
Proof.
  rewrite entropy_class. unfold get_estimator. destruct (tget entropy_estimators (lower s)) as [p|] eqn:T; [|discriminate].
  intros Q. injection Q as ->. apply tget_In. exact T.
Qed.

(** the Jensen-Shannon divergence knows exactly these approaches; for any other name, valid for entropies or not, and for a
    missing one it is a ValueError, before any estimator is built *)
Theorem C96_jsd_unsupported data approach (kw : kwargs D) :
  (forall s, approach = AStr s -> ~ In (lower s) jsd_names) -> jsd_api E data approach kw = Raise ValueError.
Proof.
  intros N. unfold jsd_api. destruct (is_none approach) eqn:Z; [reflexivity|]. destruct (forallb (is_array E) data); [|reflexivity]. cbn [negb].
  destruct (C40_total (D := D) "entropy" approach) as [(c & Q)|Q]; rewrite Q; [|reflexivity]. cbn [bind].
  destruct approach as [|s|z|d|]; try discriminate Q. apply jsd_class in Q. specialize (N s eq_refl).
  revert N Q. generalize (lower s). intros t N Q. cbn [entropy_estimators In] in Q.
  repeat (destruct Q as [Q|Q]; [injection Q as <- <-; first [reflexivity|exfalso; apply N; cbn [jsd_names In]; tauto]|]). contradiction.
Qed.

(** data that are not arrays (lists included) are a ValueError for every approach *)
Theorem C96_jsd_data_kind data approach (kw : kwargs D) x : In x data -> is_array E x = false ->
  jsd_api E data approach kw = Raise ValueError.
Proof.
  intros I F. unfold jsd_api. destruct (is_none approach); [reflexivity|].
  replace (forallb (is_array E) data) with false; [reflexivity|]. symmetry. apply not_true_iff_false. rewrite forallb_forall. intros A. rewrite (A x I) in F. discriminate F.
Qed.

(** the supported approaches on several arrays: distribution-based ones give the entropy of the mixture minus the mean
    entropy ([jsd_of], see C28), kernel that of the pooled data minus the mean entropy *)
Theorem C96_jsd_distributions s data (kw : kwargs D) os hs ds b c :
  In (lower s) ["discrete"; "bayes"; "shrink"; "js"; "ordinal"; "symbolic"; "permutation"]%string ->
  get_estimator_class (D := D) (AStr "entropy") (AStr s) = Ok c ->
  data <> [] -> (forall x, In x data -> is_array E x = true) ->
  Forall2 (fun x o => build E c [x] kw = Ok o /\ o_base o = b) data os ->
  Forall2 (fun o h => g_val o = Ok h) os hs -> Forall2 (fun o d => d_dict o = Ok d) os ds ->
  jsd_api E data (AStr s) kw = jsd_of b ds hs.
Proof.
  intros N Q NE A FB FG FD. unfold jsd_api. cbn [is_none]. replace (forallb (is_array E) data) with true by (symmetry; apply forallb_forall; exact A). cbn [negb].
  rewrite Q. cbn [bind]. apply jsd_class in Q.
  assert (C : one_of jsd_unsupported c = false /\ one_of jsd_dist c = true).
  { revert N Q. generalize (lower s). clear. intros t N Q. cbn [entropy_estimators In] in Q.
    repeat (destruct Q as [Q|Q]; [injection Q as <- <-; first [split; reflexivity|exfalso; cbn [In] in N; decompose [or] N; try discriminate; contradiction]|]). contradiction. }
  destruct C as [C1 C2]. rewrite C1, C2.
  assert (B1 : mapM (fun x => build E c [x] kw) data = Ok os).
  { clear - FB. induction FB as [|x o data os [Q _] F IH]; [reflexivity|]. cbn [mapM]. rewrite Q. cbn [bind]. rewrite IH. reflexivity. }
  assert (B2 : mapM g_val os = Ok hs).
  { clear - FG. induction FG as [|x o data os Q F IH]; [reflexivity|]. cbn [mapM]. rewrite Q. cbn [bind]. rewrite IH. reflexivity. }
  assert (B3 : mapM d_dict os = Ok ds).
  { clear - FD. induction FD as [|x o data os Q F IH]; [reflexivity|]. cbn [mapM]. rewrite Q. cbn [bind]. rewrite IH. reflexivity. }
  rewrite B1. cbn [bind]. rewrite B2. cbn [bind]. rewrite B3. inversion FB as [|x o data' os' [_ Qb] F]; subst; [congruence|]. cbn [bind]. reflexivity.
Qed.

Theorem C96_jsd_kernel s data (kw : kwargs D) c pool om hm hs :
  lower s = "kernel"%string -> get_estimator_class (D := D) (AStr "entropy") (AStr s) = Ok c ->
  data <> [] -> (forall x, In x data -> is_array E x = true) ->
  concat_data E data = Ok pool -> build E c [pool] kw = Ok om -> g_val om = Ok hm ->
  Forall2 (fun x h => exists o, build E c [x] kw = Ok o /\ g_val o = Ok h) data hs ->
  jsd_api E data (AStr s) kw = Ok (hm - sumR hs / INR (List.length data)).
Proof.
  intros N Q NE A CC BM GM F. unfold jsd_api. cbn [is_none]. replace (forallb (is_array E) data) with true by (symmetry; apply forallb_forall; exact A). cbn [negb].
  rewrite Q. cbn [bind]. apply jsd_class in Q. rewrite N in Q.
  assert (C : c = jsd_kernel).
  { clear - Q. cbn [entropy_estimators In] in Q. repeat (destruct Q as [Q|Q]; [first [discriminate Q|injection Q as <-; reflexivity]|]). contradiction. }
  subst c. change (one_of jsd_unsupported jsd_kernel) with false. change (one_of jsd_dist jsd_kernel) with false. cbn iota. rewrite String.eqb_refl.
  rewrite CC. cbn [bind]. rewrite BM. cbn [bind]. rewrite GM. cbn [bind].
  assert (B : mapM (fun v => let* o := build E jsd_kernel [v] kw in g_val o) data = Ok hs).
  { clear - F. induction F as [|x h data hs (o & Q1 & Q2) F IH]; [reflexivity|]. cbn [mapM]. rewrite Q1. cbn [bind]. rewrite Q2. cbn [bind]. rewrite IH. reflexivity. }
  rewrite B. cbn [bind]. destruct data; [congruence|reflexivity].
Qed.
End Gen.

(** ** The count-based estimators *)
Section Counts.
Variables (NE : nsb_env) (rd : kw_reader) (other : string -> list parg -> kwargs parg -> res (eobj Z)) (cat : list parg -> res parg).
Let E := count_env NE rd other cat.
Variables (kw : kwargs parg) (b : base) (a : alpha_arg) (Kp : option Z).
(** the constructor accepts the keyword arguments and reads base, alpha and K from them *)
Definition reads (s : string) : Prop := forall c, tget entropy_estimators (lower s) = Some c -> rd c kw = Ok (b, (a, Kp)).

Lemma run_class s c k args : tget entropy_estimators (lower s) = Some c -> reads s ->
  cls_of NE AlphaOther None c <> None -> cls_of NE a Kp c = Some k -> build E c args kw = count_obj k b args.
Proof.
  intros T R N Q. unfold E, count_env. cbn [build]. destruct (cls_of NE AlphaOther None c); [|congruence].
  rewrite (R c T). cbn [bind fst snd]. rewrite Q. reflexivity.
Qed.

Lemma kld_run s c k p q : tget entropy_estimators (lower s) = Some c -> reads s ->
  cls_of NE AlphaOther None c <> None -> cls_of NE a Kp c = Some k ->
  kld_api E (PSeq p) (PSeq q) (AStr s) kw =
  (let* hqp := cross_of (k_cross k) b p q in let* hp := entropy_of (k_est k) b (EArr p) in Ok (hqp - hp)).
Proof.
  intros T R N Q. unfold kld_api. cbn [is_none]. rewrite entropy_class. unfold get_estimator. rewrite T. cbn [bind].
  rewrite !(run_class s c k _ T R N Q). cbn [count_obj h_args bind mapM]. unfold cross_of, entropy_of.
  destruct (make_data (EArr p)) as [dp|e|]; [|reflexivity|reflexivity]. cbn [bind].
  destruct (make_data (EArr q)) as [dq|e|]; [|reflexivity|reflexivity]. cbn [bind g_val]. reflexivity.
Qed.

Lemma vnum (f : base -> ddata -> res R) g p : entropy_of (mkEst (fun b d => rmap VNum (f b d)) g) b (EArr p) = simple_of f b p.
Proof.
  unfold entropy_of, simple_of. destruct (make_data (EArr p)) as [d|e|]; [|reflexivity|reflexivity]. cbn [bind]. unfold e_global. cbn [e_calc].
  destruct (f b d); reflexivity.
Qed.

(** with "discrete", "miller_madow" / "mm" and "bayes" the divergence is the one of C27, for all arrays *)
Theorem C96_kld_counts s p q : reads s ->
  (lower s = "discrete"%string -> kld_api E (PSeq p) (PSeq q) (AStr s) kw = kld_disc b p q) /\
  (lower s = "miller_madow"%string \/ lower s = "mm"%string -> kld_api E (PSeq p) (PSeq q) (AStr s) kw = kld_mm b p q) /\
  (lower s = "bayes"%string -> kld_api E (PSeq p) (PSeq q) (AStr s) kw = kld_bayes a Kp b p q).
Proof.
  intros R. repeat split; intros N; [|destruct N as [N|N]|].
  all: match goal with |- context [kld_api] => idtac end.
  - rewrite (kld_run s _ (mkCls est_discrete discrete_cross (fun d => Ok (distribution_dict d))) p q ltac:(rewrite N; reflexivity) R ltac:(discriminate) eq_refl).
    cbn [k_est k_cross]. unfold est_discrete. rewrite vnum. reflexivity.
  - rewrite (kld_run s _ (mkCls est_mm mm_cross no_dict) p q ltac:(rewrite N; reflexivity) R ltac:(discriminate) eq_refl).
    cbn [k_est k_cross]. unfold est_mm. rewrite vnum. reflexivity.
  - rewrite (kld_run s _ (mkCls est_mm mm_cross no_dict) p q ltac:(rewrite N; reflexivity) R ltac:(discriminate) eq_refl).
    cbn [k_est k_cross]. unfold est_mm. rewrite vnum. reflexivity.
  - rewrite (kld_run s _ (mkCls (est_bayes a Kp) (bayes_cross a Kp) (probs_dict (bayes_probs a Kp))) p q ltac:(rewrite N; reflexivity) R ltac:(discriminate) eq_refl).
    cbn [k_est k_cross]. unfold est_bayes. rewrite vnum. reflexivity.
Qed.

(** with the other count-based estimators there is no divergence: TheoreticalInconsistencyError on usable data, and
    never a number *)
Theorem C96_kld_no_cross s p q : reads s -> In (lower s) no_cross_names ->
  (forall v, kld_api E (PSeq p) (PSeq q) (AStr s) kw <> Ok v) /\
  (forall ps qs, p = A1 ps -> q = A1 qs -> ps <> [] -> qs <> [] ->
     kld_api E (PSeq p) (PSeq q) (AStr s) kw = Raise TheoreticalInconsistencyError).
Proof.
  intros R N.
  assert (X : exists c k, tget entropy_estimators (lower s) = Some c /\ cls_of NE AlphaOther None c <> None /\ cls_of NE a Kp c = Some k /\ k_cross k = no_cross).
  { revert N. generalize (lower s). clear. intros t N. cbn [no_cross_names In] in N.
    repeat (destruct N as [N|N]; [subst t; eexists; eexists; split; [reflexivity|split; [discriminate|split; reflexivity]]|]). contradiction. }
  destruct X as (c & k & T & CN & Q & XC). rewrite (kld_run s c k p q T R CN Q), XC. unfold cross_of, no_cross. split.
  - intros v. destruct (make_data (EArr p)) as [dp|e|]; cbn [bind]; try discriminate. destruct (make_data (EArr q)); cbn [bind]; discriminate.
  - intros ps qs -> -> NP NQ. rewrite !make_1d by assumption. reflexivity.
Qed.

Lemma jsd_run s c k vars : tget entropy_estimators (lower s) = Some c -> reads s ->
  cls_of NE AlphaOther None c <> None -> cls_of NE a Kp c = Some k -> one_of jsd_unsupported c = false -> one_of jsd_dist c = true ->
  jsd_api E (map PSeq vars) (AStr s) kw =
  (let* dd := mapM (fun x => make_data (EArr x)) vars in
   let* hs := mapM (e_global (k_est k) b) dd in
   match dd with [] => Raise ZeroDivisionError | _ => let* ds := mapM (k_dict k) dd in jsd_of b ds hs end).
Proof.
  intros T R N Q U S. unfold jsd_api. cbn [is_none].
  replace (forallb (is_array E) (map PSeq vars)) with true by (symmetry; apply forallb_forall; intros x Hx; apply in_map_iff in Hx; destruct Hx as (y & <- & _); reflexivity).
  cbn [negb]. rewrite entropy_class. unfold get_estimator. rewrite T. cbn [bind]. rewrite U, S.
  assert (B : mapM (fun x => build E c [x] kw) (map PSeq vars) =
              (let* dd := mapM (fun x => make_data (EArr x)) vars in Ok (map (fun d => mkObj (e_global (k_est k) b d) (k_dict k d) b) dd))).
  { clear U S. induction vars as [|x vars IH]; [reflexivity|]. cbn [map mapM]. rewrite (run_class s c k _ T R N Q). cbn [count_obj h_args bind mapM].
    destruct (make_data (EArr x)) as [d|e|]; [|reflexivity|reflexivity]. cbn [bind]. rewrite IH. destruct (mapM (fun x0 => make_data (EArr x0)) vars); reflexivity. }
  rewrite B. destruct (mapM (fun x => make_data (EArr x)) vars) as [dd|e|]; [|reflexivity|reflexivity]. cbn [bind].
  assert (B2 : mapM g_val (map (fun d => mkObj (e_global (k_est k) b d) (k_dict k d) b) dd) = mapM (e_global (k_est k) b) dd).
  { clear. induction dd as [|d dd IH]; [reflexivity|]. cbn [map mapM g_val]. rewrite IH. reflexivity. }
  rewrite B2. destruct (mapM (e_global (k_est k) b) dd) as [hs|e|]; [|reflexivity|reflexivity]. cbn [bind].
  destruct dd as [|d dd]; [reflexivity|].
  assert (B3 : forall dd, mapM d_dict (map (fun d => mkObj (e_global (k_est k) b d) (k_dict k d) b) dd) = mapM (k_dict k) dd).
  { clear. induction dd as [|d' dd IH]; [reflexivity|]. cbn [map mapM d_dict]. rewrite IH. reflexivity. }
  rewrite B3. reflexivity.
Qed.

(** with "discrete", "shrink" / "js" and "bayes" the Jensen-Shannon divergence is the one of C28, for all arrays *)
Theorem C96_jsd_counts s vars : reads s ->
  (lower s = "discrete"%string -> jsd_api E (map PSeq vars) (AStr s) kw = jsd_discrete b vars) /\
  (lower s = "shrink"%string \/ lower s = "js"%string -> jsd_api E (map PSeq vars) (AStr s) kw = jsd_shrink b vars) /\
  (lower s = "bayes"%string -> jsd_api E (map PSeq vars) (AStr s) kw = jsd_bayes a Kp b vars).
Proof.
  intros RD.
  assert (G : forall (f : base -> ddata -> res R) g dd, mapM (e_global (mkEst (fun b d => rmap VNum (f b d)) g) b) dd = mapM (f b) dd).
  { intros f g. clear. induction dd as [|d dd IH]; [reflexivity|]. cbn [mapM]. rewrite IH. unfold e_global at 1. cbn [e_calc]. destruct (f b d); reflexivity. }
  assert (P : forall (probs : ddata -> res (list R)) dd, mapM (probs_dict probs) dd =
     (let* ps := mapM probs dd in Ok (map (fun dp => combine (dd_uniq (fst dp)) (snd dp)) (combine dd ps)))).
  { intros probs. clear. induction dd as [|d dd IH]; [reflexivity|]. cbn [mapM]. rewrite IH. unfold probs_dict at 1. destruct (probs d) as [p|e|]; [|reflexivity|reflexivity].
    cbn [bind]. destruct (mapM probs dd); reflexivity. }
  assert (PJ : forall s' c probs g x, k_est x = mkEst (fun b d => rmap VNum ((fun b d => let* p := probs d in plogp b p) b d)) g -> k_dict x = probs_dict probs ->
     lower s' = lower s -> tget entropy_estimators (lower s) = Some c -> cls_of NE AlphaOther None c <> None -> cls_of NE a Kp c = Some x ->
     one_of jsd_unsupported c = false -> one_of jsd_dist c = true -> jsd_api E (map PSeq vars) (AStr s) kw = jsd_probs probs b vars).
  { intros s' c probs g x QE QD _ T CN Q U S. rewrite (jsd_run s c x vars T RD CN Q U S), QE, QD. unfold jsd_probs.
    destruct (mapM (fun x => make_data (EArr x)) vars) as [dd|e|]; [|reflexivity|reflexivity]. cbn [bind]. rewrite G.
    destruct (mapM _ dd) as [hs|e|] eqn:HS; [|reflexivity|reflexivity]. cbn [bind]. destruct dd as [|d dd].
    - cbn in HS. injection HS as <-. reflexivity.
    - rewrite P. destruct (mapM probs (d :: dd)) as [ps|e|]; reflexivity. }
  repeat split; intros N; [|destruct N as [N|N]|].
  - rewrite (jsd_run s _ (mkCls est_discrete discrete_cross (fun d => Ok (distribution_dict d))) vars ltac:(rewrite N; reflexivity) RD ltac:(discriminate) eq_refl eq_refl eq_refl).
    unfold jsd_discrete. cbn [k_est k_dict]. destruct (mapM (fun x => make_data (EArr x)) vars) as [dd|e|]; [|reflexivity|reflexivity]. cbn [bind].
    unfold est_discrete. rewrite G. destruct (mapM (discrete_simple b) dd) as [hs|e|] eqn:HS; [|reflexivity|reflexivity]. cbn [bind].
    destruct dd as [|d dd]; [cbn in HS; injection HS as <-; reflexivity|].
    assert (B : forall dd, mapM (fun d => Ok (distribution_dict d)) dd = Ok (map distribution_dict dd)).
    { clear. induction dd as [|d' dd IH]; [reflexivity|]. cbn [mapM bind]. rewrite IH. reflexivity. }
    rewrite B. reflexivity.
  - unfold jsd_shrink. eapply (PJ s _ shrink_probs shrink_local (mkCls est_shrink no_cross (probs_dict shrink_probs)));
      [reflexivity|reflexivity|reflexivity|rewrite N; reflexivity|discriminate|reflexivity|reflexivity|reflexivity].
  - unfold jsd_shrink. eapply (PJ s _ shrink_probs shrink_local (mkCls est_shrink no_cross (probs_dict shrink_probs)));
      [reflexivity|reflexivity|reflexivity|rewrite N; reflexivity|discriminate|reflexivity|reflexivity|reflexivity].
  - unfold jsd_bayes. eapply (PJ s _ (bayes_probs a Kp) no_local (mkCls (est_bayes a Kp) (bayes_cross a Kp) (probs_dict (bayes_probs a Kp))));
      [reflexivity|reflexivity|reflexivity|rewrite N; reflexivity|discriminate|reflexivity|reflexivity|reflexivity].
Qed.
End Counts.
Print Assumptions C96_kld_difference.
Print Assumptions C96_jsd_counts.

(** a complete request: upper-case name, base 2, no other keyword *)
Example C96_example NE : let rd := fun (_ : string) (_ : kwargs parg) => Ok (BNum 2, (AlphaOther, None : option Z)) in
  let E := count_env NE rd (fun _ _ _ => Raise TypeError) (fun _ => Raise TypeError) in
  jsd_api E (map PSeq (map A1 [[0; 1]; [1; 1; 2]; [5]]%Z)) (AStr "Discrete"%string) [] = Ok (JSD [[0; 1]; [1; 1; 2]; [5]]%Z / ln 2) /\
  kld_api E (PSeq (A1 [0; 0; 1]%Z)) (PSeq (A1 [0; 1; 1; 2]%Z)) (AStr "DISCRETE"%string) [] = Ok (KL [0; 0; 1]%Z [0; 1; 1; 2]%Z / ln 2) /\
  kld_api E (PSeq (A1 [0; 0; 1]%Z)) (PSeq (A1 [0; 1; 1; 2]%Z)) (AStr "js"%string) [] = Raise TheoreticalInconsistencyError.
Proof.
  intros rd E. subst E.
  assert (R : forall s, reads rd [] (BNum 2) AlphaOther None s) by (intros s c _; reflexivity).
  assert (V : valid_base (BNum 2)) by (simpl; lra).
  split; [|split].
  - rewrite (proj1 (C96_jsd_counts NE rd _ _ [] (BNum 2) AlphaOther None "Discrete" _ (R _)) eq_refl).
    apply (C28_jsd_discrete (BNum 2) [[0; 1]; [1; 1; 2]; [5]]%Z V); [discriminate|repeat constructor; discriminate].
  - rewrite (proj1 (C96_kld_counts NE rd _ _ [] (BNum 2) AlphaOther None "DISCRETE" _ _ (R _)) eq_refl).
    apply (C27_kld_discrete (BNum 2) [0; 0; 1]%Z [0; 1; 1; 2]%Z V); [discriminate|intros x Hx; simpl in *; intuition].
  - refine (proj2 (C96_kld_no_cross NE rd _ _ [] (BNum 2) AlphaOther None "js" (A1 [0; 0; 1]%Z) (A1 [0; 1; 1; 2]%Z) (R _) _) [0; 0; 1]%Z [0; 1; 1; 2]%Z _ _ _ _);
      [cbn; tauto|reflexivity|reflexivity|discriminate|discriminate].
Qed.
