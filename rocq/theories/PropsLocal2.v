(** C102: which approaches have local values, and what the others raise. *)
From Coq Require Import Reals Lra Lia List ZArith Arith Bool.
From Verif Require Import Res RSum Ord Spec SpecBase MBase MData MEntropy MMI MTE MGeneric MEst MNsb MComb.
Import ListNotations.
Local Open Scope R_scope.

(** ** Specification: the discrete approaches in three groups *)
Inductive locals : Type := Available | Unsupported | Inconsistent.
(** what [local_vals()] raises for an approach without local values *)
Definition refusal (g : locals) : option exn :=
  match g with Available => None | Unsupported => Some UnsupportedOperation | Inconsistent => Some TheoreticalInconsistencyError end.
Inductive group : est -> locals -> Prop :=
| g_discrete : group est_discrete Available
| g_mm : group est_mm Available
| g_shrink : group est_shrink Available
| g_zhang : group est_zhang Available
| g_grassberger : group est_grassberger Available
| g_bayes a K : group (est_bayes a K) Unsupported
| g_chao_shen : group est_chao_shen Unsupported
| g_cwj : group est_cwj Inconsistent
| g_ansb K : group (est_ansb K) Inconsistent
| g_bonachela : group est_bonachela Inconsistent
| g_nsb E K : group (est_nsb E K) Inconsistent.

(** ** Proof machinery: results that are neither of the two refusals *)
Definition safe {A} (r : res A) : Prop := r <> Raise UnsupportedOperation /\ r <> Raise TheoreticalInconsistencyError /\ r <> Raise NotImplementedError.
Ltac nr := repeat split; let EE := fresh in intros EE; (injection EE as EE; rewrite EE in *; congruence) || discriminate EE.
Lemma safe_ok {A} (x : A) : safe (Ok x). Proof. repeat split; discriminate. Qed.
Lemma safe_nf {A} : safe (@NonFinite A). Proof. repeat split; discriminate. Qed.
Lemma safe_bind {A B} (r : res A) (f : A -> res B) : safe r -> (forall x, safe (f x)) -> safe (bind r f).
Proof. intros (H1 & H2 & H3) F. destruct r as [x|e|]; cbn [bind]; [apply F| |apply safe_nf]. nr. Qed.
Lemma safe_rmap {A B} (f : A -> B) (r : res A) : safe r -> safe (rmap f r).
Proof. intros (H1 & H2 & H3). destruct r as [x|e|]; cbn [rmap]; [apply safe_ok| |apply safe_nf]. nr. Qed.
Lemma safe_mapM {A B} (f : A -> res B) l : (forall x, safe (f x)) -> safe (mapM f l).
Proof. intros F. induction l as [|x l IH]; cbn [mapM]; [apply safe_ok|]. apply safe_bind; [apply F|]. intros y. apply safe_bind; [exact IH|]. intros ys. apply safe_ok. Qed.
Lemma safe_np_log x : safe (np_log x). Proof. unfold np_log. destruct (Rlt_dec 0 x); [apply safe_ok|apply safe_nf]. Qed.
Lemma safe_np_div x y : safe (np_div x y). Proof. unfold np_div. destruct (Req_EM_T y 0); [apply safe_nf|apply safe_ok]. Qed.
Lemma safe_log_base b x : safe (log_base b x).
Proof.
  destruct b as [|r]; [apply safe_np_log|]. cbn [log_base].
  repeat match goal with |- safe (if ?c then _ else _) => destruct c end; try apply safe_ok; try (apply safe_rmap; apply safe_np_log).
  - repeat split; discriminate.
  - apply safe_bind; [apply safe_np_log|]. intros lx. apply safe_bind; [apply safe_np_log|]. intros lb. apply safe_np_div.
Qed.
Lemma safe_to_base b x : safe (to_base b x).
Proof.
  destruct b as [|r]; [apply safe_ok|]. cbn [to_base]. destruct (Req_EM_T r 0); [apply safe_ok|].
  apply safe_bind; [apply safe_np_log|]. intros lb. apply safe_np_div.
Qed.
Lemma safe_digamma n : safe (digamma n). Proof. unfold digamma. destruct (n <=? 0)%Z; [apply safe_nf|apply safe_ok]. Qed.
Lemma safe_lookup {V} (dict : list (Z * V)) d : safe (lookup_data dict d).
Proof.
  unfold lookup_data. destruct (dd_data d); [|repeat split; discriminate]. apply safe_mapM. intros x. unfold dget_exn.
  destruct (dget dict x); [apply safe_ok|repeat split; discriminate].
Qed.
Ltac safe := repeat (match goal with
  | |- safe (Ok _) => apply safe_ok
  | |- safe NonFinite => apply safe_nf
  | |- safe (bind _ _) => apply safe_bind
  | |- safe (rmap _ _) => apply safe_rmap
  | |- safe (mapM _ _) => apply safe_mapM
  | |- safe (log_base _ _) => apply safe_log_base
  | |- safe (to_base _ _) => apply safe_to_base
  | |- safe (np_log _) => apply safe_np_log
  | |- safe (np_div _ _) => apply safe_np_div
  | |- safe (digamma _) => apply safe_digamma
  | |- safe (lookup_data _ _) => apply safe_lookup
  | |- forall _, _ => intro
  | |- safe (if ?c then _ else _) => destruct c
  | |- safe (match ?x with [] => _ | _ :: _ => _ end) => destruct x
  end).
Lemma safe_local e b d : group e Available -> safe (e_local e b d).
Proof.
  assert (K : forall c x, safe (c b d) -> safe (x b d) -> safe (e_local (mkEst c x) b d)).
  { intros c x C X. unfold e_local. cbn [e_calc e_extract]. apply safe_bind; [exact C|]. intros [v|ls]; [|apply safe_ok].
    destruct X as (X1 & X2 & X3). destruct (x b d) as [l|y|]; [apply safe_ok| |apply safe_nf]. destruct y; try (exfalso; congruence); repeat split; discriminate. }
  intros G. inversion G; subst; [apply K|apply K|apply K|apply K|].
  - unfold discrete_simple, plogp. safe.
  - unfold discrete_local. safe.
  - unfold mm_simple, plogp, mm_factor. safe.
  - unfold mm_local, mm_factor. safe.
  - unfold shrink_simple, shrink_probs, shrink_lambda, plogp. safe.
  - unfold shrink_local, shrink_probs, shrink_lambda. safe.
  - unfold zhang_simple, zhang_t2, zhang_factor. safe.
  - unfold zhang_local, zhang_t2, zhang_factor. safe.
  - unfold e_local, est_grassberger. cbn [e_calc e_extract]. assert (S : safe (grassberger_calc b d)) by (unfold grassberger_calc; safe).
    destruct (grassberger_calc b d) as [[x|ls]|y|] eqn:GC; cbn [bind]; [exfalso|apply safe_ok| |apply safe_nf].
    + unfold grassberger_calc in GC. destruct (lookup_data _ d) as [ns| |]; cbn [bind] in GC; try discriminate. destruct (np_log _) as [lN| |]; cbn [bind] in GC; try discriminate.
      match type of GC with bind ?m _ = _ => destruct m as [ws| |] end; cbn [bind] in GC; try discriminate.
      match type of GC with rmap _ ?m = _ => destruct m end; discriminate GC.
    + destruct S as (S1 & S2 & S3). nr.
Qed.

Lemma safe_from xs : safe (from_data xs).
Proof. unfold from_data, post_init. repeat match goal with |- safe (if ?c then _ else _) => destruct c end; try apply safe_ok; repeat split; discriminate. Qed.
Lemma safe_reduce r : safe (reduce_joint_space r).
Proof.
  destruct r as [|[xs|rs]|cols]; cbn [reduce_joint_space]; [repeat split; discriminate|apply safe_ok|apply safe_ok|]. apply safe_rmap.
  unfold column_stack. destruct cols; [repeat split; discriminate|]. destruct (forallb _ _); [apply safe_ok|repeat split; discriminate].
Qed.
Lemma safe_make i : safe (make_data i).
Proof.
  destruct i as [[xs|rs]|cols]; cbn [make_data]; [apply safe_from| |destruct (existsb _ cols); [repeat split; discriminate|]];
    (apply safe_bind; [apply safe_reduce|]; intros r; apply safe_from).
Qed.

(** ** Entropy *)
(** an error of the global value is also the error of the local values, for every approach *)
Theorem C102_errors_agree : forall e g b i x, group e g -> entropy_of e b i = Raise x -> local_of e b i = Raise x.
Proof.
  intros e g b i x _. unfold entropy_of, local_of, e_global, e_local. destruct (make_data i) as [d|y|]; cbn [bind]; [|congruence|discriminate].
  destruct (e_calc e b d) as [v|y|]; cbn [rmap bind]; congruence.
Qed.
(** approaches without local values say so, with the documented exception, whenever there is a global value ... *)
Theorem C102_refused : forall e g b i h x, group e g -> refusal g = Some x -> entropy_of e b i = Ok h -> local_of e b i = Raise x.
Proof.
  intros e g b i h x G R0. unfold entropy_of, local_of, e_global, e_local. destruct (make_data i) as [d|y|]; cbn [bind]; [|discriminate|discriminate].
  destruct G; try discriminate R0; injection R0 as <-; unfold est_bayes, est_chao_shen, est_cwj, est_ansb, est_bonachela, est_nsb; cbn [e_calc e_extract];
    match goal with |- context [rmap VNum ?r] => destruct r end; cbn [rmap bind]; try discriminate; intros _; reflexivity.
Qed.
(** ... and the others never refuse *)
Theorem C102_available : forall e b i, group e Available ->
  local_of e b i <> Raise UnsupportedOperation /\ local_of e b i <> Raise TheoreticalInconsistencyError.
Proof.
  intros e b i G. unfold local_of. assert (S : safe (let* d := make_data i in e_local e b d)).
  { apply safe_bind; [apply safe_make|]. intros d. apply safe_local. exact G. }
  destruct S as (S1 & S2 & _). auto.
Qed.
Print Assumptions C102_available.

(** ** Mutual information, conditional mutual information, transfer entropy: an approach with local values gives local values of the
    combination (an array), one without gives the number only *)
Definition combination (e : est) (b : base) (r : res value) : Prop :=
  (exists o vars, r = MGeneric.gen_mi e b o vars) \/ (exists vars cond, r = MGeneric.gen_cmi e b vars cond) \/
  (exists x y a rnd, r = MGeneric.gen_te e b x y a rnd) \/ (exists x y z a, r = MGeneric.gen_cte e b x y z a).
Lemma local_never e g b d w : group e g -> g <> Available -> e_local e b d = Ok w -> False.
Proof.
  intros G NA. unfold e_local. destruct G; try congruence; unfold est_bayes, est_chao_shen, est_cwj, est_ansb, est_bonachela, est_nsb; cbn [e_calc e_extract];
    match goal with |- context [rmap VNum ?r] => destruct r end; cbn [rmap bind]; discriminate.
Qed.
Lemma from_kind e g b plus minus v : group e g -> plus ++ minus <> [] -> from_entropies e b plus minus = Ok v ->
  match g with Available => exists ls, v = VArr ls | _ => exists x, v = VNum x end.
Proof.
  intros G NE. unfold from_entropies. destruct (mapM make_data plus) as [dp|y|] eqn:DP; cbn [bind]; try discriminate.
  destruct (mapM make_data minus) as [dm|y|] eqn:DM; cbn [bind]; try discriminate.
  assert (SC : forall r : res (list R), (safe r -> match r with Ok ls => Ok (VArr ls) | Raise UnsupportedOperation | Raise TheoreticalInconsistencyError =>
      let* gp := mapM (e_global e b) dp in let* gm := mapM (e_global e b) dm in Ok (VNum (sumR gp - sumR gm)) | Raise x => Raise x | NonFinite => NonFinite end = Ok v -> exists ls, v = VArr ls)).
  { intros r (S1 & S2 & _). destruct r as [ls|x|]; [intros E; injection E as <-; eauto| |discriminate]. destruct x; try discriminate; congruence. }
  assert (NUM : True /\ (g <> Available -> match (let* lp := mapM (e_local e b) dp in let* lm := mapM (e_local e b) dm in vcomb lp lm) with
      Ok ls => Ok (VArr ls) | Raise UnsupportedOperation | Raise TheoreticalInconsistencyError =>
      let* gp := mapM (e_global e b) dp in let* gm := mapM (e_global e b) dm in Ok (VNum (sumR gp - sumR gm)) | Raise x => Raise x | NonFinite => NonFinite end = Ok v -> exists x, v = VNum x)).
  { split; [exact Logic.I|]. intros NA.
    destruct (let* lp := mapM (e_local e b) dp in let* lm := mapM (e_local e b) dm in vcomb lp lm) as [ls|x|] eqn:L.
    - exfalso. apply NE. assert (ZP : forall l ds os, mapM make_data l = Ok ds -> mapM (e_local e b) ds = Ok os -> l = []).
      { intros [|i l] ds os; [reflexivity|]. cbn [mapM]. destruct (make_data i) as [d|y|]; cbn [bind]; try discriminate.
        destruct (mapM make_data l) as [r|y|]; cbn [bind]; try discriminate. intros E. injection E as <-. cbn [mapM].
        destruct (e_local e b d) as [w|y|] eqn:W; cbn [bind]; try discriminate. destruct (local_never e g b d w G NA W). }
      destruct (mapM (e_local e b) dp) as [lp|y|] eqn:LP; cbn [bind] in L; try discriminate. destruct (mapM (e_local e b) dm) as [lm|y|] eqn:LM; cbn [bind] in L; try discriminate.
      rewrite (ZP _ _ _ DP LP), (ZP _ _ _ DM LM). reflexivity.
    - destruct (mapM (e_global e b) dp) as [gp|y|]; cbn [bind]; [destruct (mapM (e_global e b) dm) as [gm|y|]; cbn [bind]| |];
        destruct x; try discriminate; intros E; injection E as <-; eauto.
    - discriminate. }
  destruct g.
  - apply SC. apply safe_bind; [apply safe_mapM; intros d; apply safe_local; exact G|]. intros lp.
    apply safe_bind; [apply safe_mapM; intros d; apply safe_local; exact G|]. intros lm. unfold vcomb. destruct (forallb _ _); [apply safe_ok|repeat split; discriminate].
  - exact (proj2 NUM ltac:(discriminate)).
  - exact (proj2 NUM ltac:(discriminate)).
Qed.

Theorem C102_combinations : forall e g b r v, valid_base b -> group e g -> combination e b r -> r = Ok v ->
  match g with Available => exists ls, v = VArr ls | _ => exists x, v = VNum x end.
Proof.
  intros e g b r v _ G C E.
  assert (Q : forall plus minus, plus ++ minus <> [] -> from_entropies e b plus minus = Ok v -> match g with Available => exists ls, v = VArr ls | _ => exists x, v = VNum x end)
    by (intros plus minus NE; exact (from_kind e g b plus minus v G NE)).
  destruct C as [(o & vars & ->)|[(vars & cond & ->)|[(x & y & a & rnd & ->)|(x & y & z & a & ->)]]].
  - unfold MGeneric.gen_mi in E. destruct (mi_init o vars) as [vs|y|]; cbn [bind] in E; try discriminate. refine (Q _ _ _ E). destruct vs; discriminate.
  - unfold MGeneric.gen_cmi in E. destruct (cmi_init vars (arr_len cond)) as [u|y|]; cbn [bind] in E; try discriminate. refine (Q _ _ _ E). destruct vars; discriminate.
  - unfold MGeneric.gen_te in E. destruct (te_init _ _ _ _ _) as [sd|w|]; cbn [bind] in E; try discriminate.
    destruct (te_observations _ _ _ _ _ _) as [[[sh dh] df]|w|]; cbn [bind] in E; try discriminate. destruct (te_spaces sh dh df) as [[[j p] m1] m2]. refine (Q _ _ _ E). discriminate.
  - unfold MGeneric.gen_cte in E. destruct (cte_init _ _ _ _ _) as [sd|w|]; cbn [bind] in E; try discriminate.
    destruct (cte_observations _ _ _ _ _ _ _ _) as [[[[sh dh] df] ch]|w|]; cbn [bind] in E; try discriminate. destruct (cte_spaces sh dh df ch) as [[[j p] m1] m2]. refine (Q _ _ _ E). discriminate.
Qed.
Print Assumptions C102_combinations.
Print Assumptions C102_refused.

(** a global value exists where the local values are refused *)
Example C102_example : exists h, entropy_of est_bonachela BE (EArr (A1 [1; 1; 2]%Z)) = Ok h /\ local_of est_bonachela BE (EArr (A1 [1; 1; 2]%Z)) = Raise TheoreticalInconsistencyError.
Proof.
  assert (Q : exists h, entropy_of est_bonachela BE (EArr (A1 [1; 1; 2]%Z)) = Ok h).
  { unfold entropy_of, est_bonachela, e_global. cbn [e_calc make_data].
    change (from_data [1; 1; 2]%Z) with (Ok (mkDD [1; 2]%Z [2; 1]%Z (Some [1; 1; 2]%Z))). cbn [bind]. unfold bonachela_simple, np_div.
    destruct (Req_EM_T _ 0) as [E|E]; [exfalso|cbn; eauto]. unfold dd_N in E. cbn in E. lra. }
  destruct Q as [h Q]. exists h. split; [exact Q|]. apply (C102_refused est_bonachela Inconsistent BE _ h); [constructor|reflexivity|exact Q].
Qed.
