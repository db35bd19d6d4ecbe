(** C09, supporting lemmas: what is computed with a base that is negative, zero or one is zero, if it is a number at all. *)
From Coq Require Import Reals Lra Lia List ZArith Arith Bool.
From Verif Require Import Res RSum Spec SpecBase SpecBad PropsObjC Ord MBase MData MEntropy MMI MTE MGeneric MEst MDiv MNsb MComb MOrd PBase.
Import ListNotations.
Local Open Scope R_scope.

Definition W {A} (P : A -> Prop) (r : res A) : Prop := match r with Ok a => P a | _ => True end.
Lemma W_bind {A B} (P : A -> Prop) (Q : B -> Prop) m f : W P m -> (forall a, P a -> W Q (f a)) -> W Q (bind m f).
Proof. destruct m; cbn; intros H F; auto. Qed.
Lemma W_same {A B} (Q : B -> Prop) (m : res A) f : (forall a, m = Ok a -> W Q (f a)) -> W Q (bind m f).
Proof. destruct m; cbn; intros F; auto. Qed.
Lemma W_mapM {A B} (P : B -> Prop) f (l : list A) : (forall a, In a l -> W P (f a)) -> W (List.Forall P) (mapM f l).
Proof.
  induction l as [|x l IH]; cbn [mapM]; intros H; [constructor|].
  eapply W_bind; [apply H; left; reflexivity|]. intros a Ha.
  eapply W_bind; [apply IH; intros; apply H; right; assumption|]. intros l1 Hl. cbn. constructor; assumption.
Qed.
Lemma W_rmap {A B} (P : A -> Prop) (Q : B -> Prop) g m : W P m -> (forall a, P a -> Q (g a)) -> W Q (rmap g m).
Proof. intros H F. eapply W_bind; [exact H|]. intros; cbn; auto. Qed.

Definition sc (x : R) : Prop := x = 0.
Definition scl : list R -> Prop := List.Forall sc.
Definition scv (v : value) : Prop := match v with VNum x => sc x | VArr l => scl l end.
Lemma W_log b x : unusable b -> W sc (log_base b x).
Proof.
  intros (r & -> & V). unfold log_base. destruct (Req_EM_T r 2); [lra|]. destruct (Req_EM_T r 10); [lra|]. destruct (Req_EM_T r 0); [reflexivity|].
  destruct (Rlt_dec r 0); [exact Logic.I|]. apply W_same. intros lx _. apply W_same. intros lb Hb. assert (r = 1) as -> by lra.
  unfold np_log in Hb. destruct (Rlt_dec 0 1); [|lra]. injection Hb as <-. rewrite ln_1. unfold np_div. destruct (Req_EM_T 0 0); [exact Logic.I|congruence].
Qed.
Lemma W_mmc b (k n : R) : unusable b ->
  W sc (match b with BE => np_div k n | BNum r => if Req_EM_T r 0 then Ok 0 else let* lb := np_log r in np_div k (n * lb) end).
Proof.
  intros (r & -> & V). destruct (Req_EM_T r 0); [reflexivity|]. apply W_same. intros lb Hb. unfold np_log in Hb. destruct (Rlt_dec 0 r); [|discriminate].
  assert (r = 1) as -> by lra. injection Hb as <-. rewrite ln_1, Rmult_0_r. unfold np_div. destruct (Req_EM_T 0 0); [exact Logic.I|congruence].
Qed.
Lemma to_no_wrong r : W sc r -> no_wrong_number r.
Proof. intros H v ->. exact H. Qed.
Lemma to_no_wrong_local r : W scl r -> no_wrong_local r.
Proof. intros H l -> v Hv. cbn in H. exact (proj1 (List.Forall_forall _ _) H v Hv). Qed.
Lemma to_no_wrong_value r : W scv r -> no_wrong_value r.
Proof. intros H. split; intros x ->; [exact H|]. exact (to_no_wrong_local (Ok x) H x eq_refl). Qed.
Section Bad.
Context (b : base) (V : unusable b).
Lemma W_log' x : W sc (log_base b x). Proof. apply W_log, V. Qed.
Lemma W_to x : W sc (to_base b x).
Proof.
  destruct V as (r & -> & V'). unfold to_base. destruct (Req_EM_T r 0); [reflexivity|]. apply W_same. intros lb Hb. unfold np_log in Hb. destruct (Rlt_dec 0 r); [|discriminate].
  assert (r = 1) as -> by lra. injection Hb as <-. rewrite ln_1. unfold np_div. destruct (Req_EM_T 0 0); [exact Logic.I|congruence].
Qed.
Lemma sc0 : sc 0. Proof. reflexivity. Qed.
Lemma sc_opp x : sc x -> sc (- x). Proof. unfold sc. lra. Qed.
Lemma sc_plus x x' : sc x -> sc x' -> sc (x + x'). Proof. unfold sc. lra. Qed.
Lemma sc_minus x x' : sc x -> sc x' -> sc (x - x'). Proof. unfold sc. lra. Qed.
Lemma sc_mult p x : sc x -> sc (p * x). Proof. unfold sc. intros ->. ring. Qed.
Lemma sc_div p x : sc x -> sc (x / p). Proof. unfold sc. intros ->. unfold Rdiv. ring. Qed.
Lemma sc_sum l : scl l -> sc (sumR l).
Proof. induction 1 as [|x l H _ IH]; [exact sc0|]. cbn [sumR fold_right]. apply sc_plus; assumption. Qed.
Lemma sc_mean l : scl l -> sc (mean l).
Proof. intros H. unfold mean. apply sc_div, sc_sum, H. Qed.
Lemma sc_dot p l : scl l -> sc (dot p l).
Proof.
  intros H. unfold dot. revert p. induction H as [|x l H _ IH]; intros p; [destruct p; exact sc0|]. destruct p as [|a p]; [exact sc0|].
  cbn [combine map sumR fold_right fst snd]. apply sc_plus; [apply sc_mult, H|apply IH].
Qed.
Lemma scl_maps {A} (f : A -> R) l : (forall a, sc (f a)) -> scl (map f l).
Proof. intros H. induction l; constructor; auto. Qed.
Lemma scl_map2 f l : scl l -> (forall x, sc x -> sc (f x)) -> scl (map f l).
Proof. intros H F. induction H; constructor; auto. Qed.
Lemma scl_nth l t : scl l -> sc (nth t l 0).
Proof. intros H. revert t. induction H; intros [|t]; cbn; auto using sc0. Qed.
Lemma scl_repeat0 n : scl (repeat 0 n).
Proof. induction n; constructor; auto using sc0. Qed.
Lemma W_logs l : W scl (mapM (log_base b) l).
Proof. apply W_mapM. intros. apply W_log'. Qed.
Lemma W_tos l : W scl (mapM (to_base b) l).
Proof. apply W_mapM. intros. apply W_to. Qed.
Lemma W_div x p : sc x -> W sc (np_div x p).
Proof. intros H. unfold np_div. destruct (Req_EM_T p 0); [exact Logic.I|]. cbn. apply sc_div, H. Qed.
Ltac same := apply W_same; intros.
Ltac via L := eapply W_bind; [apply L|]; cbv beta; intros.

Lemma W_plogp p : W sc (plogp b p).
Proof. unfold plogp. via W_logs. cbn. apply sc_opp, sc_dot. assumption. Qed.
Lemma W_mmf d : W sc (mm_factor b d).
Proof. unfold mm_factor. same. apply W_to. Qed.
Lemma W_discrete d : W sc (discrete_simple b d). Proof. apply W_plogp. Qed.
Lemma W_discrete_local d : W scl (discrete_local b d).
Proof. unfold discrete_local. same. via W_logs. cbn. eapply scl_map2; [eassumption|apply sc_opp]. Qed.
Lemma W_mm d : W sc (mm_simple b d).
Proof. unfold mm_simple. via W_mmf. via W_plogp. cbn. apply sc_plus; assumption. Qed.
Lemma W_mm_local d : W scl (mm_local b d).
Proof. unfold mm_local. same. via W_mmf. via W_logs. cbn. eapply scl_map2; [eassumption|]. intros. apply sc_plus; [apply sc_opp|]; assumption. Qed.
Lemma W_cross_sum up uq dp dq : W sc (cross_sum b up uq dp dq).
Proof.
  unfold cross_sum. eapply W_bind.
  - apply (W_mapM sc). intros. same. same. via W_log'. cbn. apply sc_mult. assumption.
  - intros. cbn. apply sc_opp, sc_sum. assumption.
Qed.
Lemma W_discrete_cross p q : W sc (discrete_cross b p q).
Proof. unfold discrete_cross. destruct (common _ _); [exact sc0|apply W_cross_sum]. Qed.
Lemma W_mm_cross p q : W sc (mm_cross b p q).
Proof.
  unfold mm_cross. destruct (common _ _); [exact sc0|]. eapply W_bind.
  2:{ intros. via W_cross_sum. cbn. apply sc_plus; eassumption. }
  apply W_mmc, V.
Qed.
Lemma W_bayes a K d : W sc (bayes_simple a K b d).
Proof. unfold bayes_simple. same. apply W_plogp. Qed.
Lemma W_bayes_cross a K p q : W sc (bayes_cross a K b p q).
Proof. unfold bayes_cross. cbv zeta. same. same. same. same. destruct (common _ _); [exact sc0|apply W_cross_sum]. Qed.
Lemma W_shrink d : W sc (shrink_simple b d).
Proof. unfold shrink_simple. same. apply W_plogp. Qed.
Lemma W_shrink_local d : W scl (shrink_local b d).
Proof. unfold shrink_local. same. same. via W_logs. cbn. eapply scl_map2; [eassumption|apply sc_opp]. Qed.
Lemma W_zhang d : W sc (zhang_simple b d).
Proof. unfold zhang_simple. cbv zeta. destruct (filter _ _) as [|c l]; [exact sc0|]. destruct (_ <=? 0)%Z; [exact sc0|]. same. apply W_to. Qed.
Lemma W_zhang_local d : W scl (zhang_local b d).
Proof. unfold zhang_local. cbv zeta. same. same. apply W_tos. Qed.
Lemma W_cs d : W sc (chao_shen_simple b d).
Proof. unfold chao_shen_simple. cbv zeta. same. same. apply W_to. Qed.
Lemma W_cwj d : W sc (cwj_simple b d).
Proof. unfold cwj_simple. cbv zeta. same. same. same. same. same. apply W_to. Qed.
Lemma W_ansb K d : W sc (ansb_simple K b d).
Proof. unfold ansb_simple. cbv zeta. destruct (_ =? 0)%Z; [exact Logic.I|]. same. same. apply W_to. Qed.
Lemma W_bonachela d : W sc (bonachela_simple b d).
Proof. unfold bonachela_simple. cbv zeta. same. apply W_to. Qed.
Lemma W_grassberger d : W scv (grassberger_calc b d).
Proof. unfold grassberger_calc. same. same. same. eapply W_rmap; [apply W_tos|]. intros; assumption. Qed.
Lemma W_nsb E K d : W sc (nsb_simple E K b d).
Proof. unfold nsb_simple. cbv zeta. same. destruct (_ =? 0)%Z; [exact Logic.I|]. destruct (Req_EM_T _ 0); [exact Logic.I|]. apply W_to. Qed.

(** an estimator that calculates no other number than 0 *)
Definition bad_est (e : est) : Prop :=
  forall d, W scv (e_calc e b d) /\ W scl (e_extract e b d).
Lemma bad_est_num f g : (forall d, W sc (f b d)) -> (forall d, W scl (g b d)) -> bad_est (mkEst (fun b d => rmap VNum (f b d)) g).
Proof. intros F G d. split; [|apply G]. cbn [e_calc]. eapply W_rmap; [apply F|]. intros; assumption. Qed.
Lemma W_raise {A} (P : A -> Prop) e : W P (Raise e). Proof. exact Logic.I. Qed.

Lemma W_global e d : bad_est e -> W sc (e_global e b d).
Proof. intros F. eapply W_rmap; [apply F|]. intros [x|l]; cbn; [auto|apply sc_mean]. Qed.
Lemma W_local e d : bad_est e -> W scl (e_local e b d).
Proof.
  intros F. unfold e_local. eapply W_bind; [apply F|]. intros [x|l]; [|exact (fun H => H)]. intros _.
  destruct (F d) as [_ X]. destruct (e_extract e b d) as [ls|x1|]; [exact X| |exact Logic.I]. destruct x1; exact Logic.I.
Qed.
Lemma W_entropy e i : bad_est e -> W sc (entropy_of e b i).
Proof. intros F. unfold entropy_of. same. apply W_global, F. Qed.
Lemma W_local_of e i : bad_est e -> W scl (local_of e b i).
Proof. intros F. unfold local_of. same. apply W_local, F. Qed.
Lemma W_vcomb lp lm : List.Forall scl lp -> List.Forall scl lm -> W scl (vcomb lp lm).
Proof.
  intros P M. unfold vcomb. cbv zeta. destruct (forallb _ _); [|exact Logic.I]. cbn [W].
  assert (G : forall t l, List.Forall scl l -> sc (sumf (fun l => nth t l 0) l)).
  { intros t l H. induction H as [|x l H _ IH]; [exact sc0|]. cbn [sumf fold_right]. apply sc_plus; [apply scl_nth, H|exact IH]. }
  apply scl_maps. intros t. apply sc_minus; apply G; assumption.
Qed.
Lemma W_from_entropies e plus minus : bad_est e -> W scv (from_entropies e b plus minus).
Proof.
  intros F. unfold from_entropies. same. same.
  assert (X : W scl (let* lp := mapM (e_local e b) a in let* lm := mapM (e_local e b) a0 in vcomb lp lm)).
  { eapply W_bind; [apply (W_mapM scl); intros; apply W_local, F|]. intros. eapply W_bind; [apply (W_mapM scl); intros; apply W_local, F|]. intros. apply W_vcomb; assumption. }
  assert (Y : W scv (let* gp := mapM (e_global e b) a in let* gm := mapM (e_global e b) a0 in Ok (VNum (sumR gp - sumR gm)))).
  { eapply W_bind; [apply (W_mapM sc); intros; apply W_global, F|]. intros. eapply W_bind; [apply (W_mapM sc); intros; apply W_global, F|]. intros. cbn. apply sc_minus; apply sc_sum; assumption. }
  destruct (bind (mapM (e_local e b) a) _) as [l|x|]; [exact X| |exact Logic.I]. destruct x; try exact Logic.I; exact Y.
Qed.
Lemma W_gen_mi e o vars : bad_est e -> W scv (gen_mi e b o vars).
Proof. intros F. unfold gen_mi. same. apply W_from_entropies, F. Qed.
Lemma W_gen_cmi e vars c : bad_est e -> W scv (gen_cmi e b vars c).
Proof. intros F. unfold gen_cmi. same. apply W_from_entropies, F. Qed.
Lemma W_gen_te e s d a r : bad_est e -> W scv (gen_te e b s d a r).
Proof. intros F. unfold gen_te. same. same. destruct a1 as [[? ?] ?]. cbn [te_spaces]. apply W_from_entropies, F. Qed.
Lemma W_gen_cte e s d c a : bad_est e -> W scv (gen_cte e b s d c a).
Proof. intros F. unfold gen_cte. same. same. destruct a1 as [[[? ?] ?] ?]. cbn [cte_spaces]. apply W_from_entropies, F. Qed.
Lemma bad_est_discrete : bad_est est_discrete. Proof. apply bad_est_num; [apply W_discrete|apply W_discrete_local]. Qed.
Lemma bad_est_mm : bad_est est_mm. Proof. apply bad_est_num; [apply W_mm|apply W_mm_local]. Qed.
Lemma bad_est_shrink : bad_est est_shrink. Proof. apply bad_est_num; [apply W_shrink|apply W_shrink_local]. Qed.
Lemma bad_est_bayes a K : bad_est (est_bayes a K). Proof. apply (bad_est_num (bayes_simple a K)); [apply W_bayes|intros; apply W_raise]. Qed.
Lemma bad_est_zhang : bad_est est_zhang. Proof. apply bad_est_num; [apply W_zhang|apply W_zhang_local]. Qed.
Lemma bad_est_cs : bad_est est_chao_shen. Proof. apply bad_est_num; [apply W_cs|intros; apply W_raise]. Qed.
Lemma bad_est_cwj : bad_est est_cwj. Proof. apply bad_est_num; [apply W_cwj|intros; apply W_raise]. Qed.
Lemma bad_est_ansb K : bad_est (est_ansb K). Proof. apply (bad_est_num (ansb_simple K)); [apply W_ansb|intros; apply W_raise]. Qed.
Lemma bad_est_bonachela : bad_est est_bonachela. Proof. apply bad_est_num; [apply W_bonachela|intros; apply W_raise]. Qed.
Lemma bad_est_grassberger : bad_est est_grassberger. Proof. intros d. split; [apply W_grassberger|apply W_raise]. Qed.
Lemma bad_est_nsb E K : bad_est (est_nsb E K). Proof. apply (bad_est_num (nsb_simple E K)); [apply W_nsb|intros; apply W_raise]. Qed.

(** dedicated (conditional) mutual information *)
Lemma W_corr ki kj n kc : W sc (mm_mi_corr ki kj n b kc).
Proof. unfold mm_mi_corr. cbv zeta. same. apply W_to. Qed.
(** no bias correction, or the correction in the same base *)
Inductive mmr : option base -> Prop := mmr_none : mmr None | mmr_some : mmr (Some b).
Lemma W_add mm x corr : mmr mm -> sc x -> W sc (corr b) -> W sc (add_corr mm x corr).
Proof. intros M H C. destruct M; cbn [add_corr]; [exact H|]. eapply W_bind; [exact C|]. intros. cbn. apply sc_plus; assumption. Qed.
Lemma W_mi_nd mm vars : mmr mm -> W sc (mi_global_nd_int b mm vars).
Proof.
  intros M. unfold mi_global_nd_int. cbv zeta. same. destruct (existsb _ _); [exact sc0|].
  eapply W_bind.
  - apply (W_mapM sc). intros. unfold mi_term. same. via W_log'. via W_log'. via W_log'. cbn.
    apply sc_plus; apply sc_mult; [apply sc_minus|apply sc_plus; [apply sc_opp|apply sc_mult]]; assumption.
  - intros. apply W_add; [exact M|apply sc_sum; assumption|apply W_corr].
Qed.
Lemma W_mi_2d mm x y : mmr mm -> W sc (mi_global_2d_int b mm x y).
Proof.
  intros M. unfold mi_global_2d_int. cbv zeta. same. destruct (_ || _); [exact sc0|].
  eapply W_bind.
  - apply (W_mapM sc). intros. same. via W_log'. via W_log'. via W_log'. via W_log'. via W_log'. cbn.
    apply sc_plus; apply sc_mult; [apply sc_minus|repeat apply sc_plus; [apply sc_opp|..]]; assumption.
  - intros. apply W_add; [exact M| |apply W_corr].
    apply sc_sum in H0. unfold sc in *. rewrite H0. unfold Rmax. destruct (Rle_dec 0 0); reflexivity.
Qed.
Lemma W_mi_other mm vars : mmr mm -> W sc (mi_global_nd_other b mm vars).
Proof.
  intros M. unfold mi_global_nd_other. cbv zeta. same. eapply W_bind.
  - apply (W_mapM sc). intros. same. same. same. via W_log'. cbn. apply sc_mult; assumption.
  - intros l Hl. destruct (Nat.eqb _ _); [exact sc0|]. apply W_add; [exact M|apply sc_sum; assumption|apply W_corr].
Qed.
Lemma W_mi mm vars : mmr mm -> W sc (mi_global b mm vars).
Proof.
  intros M. unfold mi_global. destruct (forallb _ _); [|apply W_mi_other, M]. destruct vars as [|x [|y [|z r]]]; try (apply W_mi_nd, M). apply W_mi_2d, M.
Qed.
Lemma W_mi_local mm vars : mmr mm -> W scl (mi_local b mm vars).
Proof.
  intros M. unfold mi_local. cbv zeta. same. destruct (existsb _ _); [apply scl_repeat0|]. eapply W_bind.
  - apply (W_mapM sc). intros. same. same. via W_log'. via W_log'. cbn. apply sc_plus; [apply sc_opp|]; assumption.
  - intros. destruct M; [assumption|]. via W_corr. cbn. eapply scl_map2; [eassumption|]. intros. apply sc_plus; assumption.
Qed.
Lemma W_cmi mm vars c : mmr mm -> W sc (cmi_global b mm vars c).
Proof.
  intros M. unfold cmi_global. destruct c as [zs|]; [|exact Logic.I]. cbv zeta. same. destruct (existsb _ _); [exact sc0|]. eapply W_bind.
  - apply (W_mapM sc). intros. same. via W_log'. via W_log'. via W_log'.
    eapply W_bind; [apply (W_mapM sc); intros; apply W_log'|]. intros. cbn.
    apply sc_plus; apply sc_mult; [apply sc_minus; assumption|apply sc_plus; [apply sc_opp; assumption|apply sc_sum; assumption]].
  - intros. apply W_add; [exact M|apply sc_sum; assumption|apply W_corr].
Qed.
Lemma W_cmi_local mm vars c : mmr mm -> W scl (cmi_local b mm vars c).
Proof.
  intros M. unfold cmi_local. cbv zeta. same. destruct (existsb _ _); [apply scl_repeat0|]. eapply W_bind.
  - apply (W_mapM sc). intros. same. same. same. via W_log'. via W_log'. cbn. apply sc_minus; assumption.
  - intros. destruct M; [assumption|]. via W_corr. cbn. eapply scl_map2; [eassumption|]. intros. apply sc_plus; assumption.
Qed.
Lemma W_te mm s d a r : mmr mm -> W sc (te_gen b mm s d a r) /\ W scl (te_gen_local b mm s d a r).
Proof. intros M. split; unfold te_gen, te_gen_local, te_form, te_form_local; same; same; destruct a1 as [[? ?] ?]; same; [apply W_cmi, M|apply W_cmi_local, M]. Qed.
Lemma W_cte mm s d c a : mmr mm -> W sc (cte_gen b mm s d c a) /\ W scl (cte_gen_local b mm s d c a).
Proof. intros M. split; unfold cte_gen, cte_gen_local, cte_form, cte_form_local; same; same; destruct a1 as [[[? ?] ?] ?]; same; [apply W_cmi, M|apply W_cmi_local, M]. Qed.

(** divergences *)
Lemma W_kld cross simple p q :
  (forall p q, W sc (cross b p q)) -> (forall d, W sc (simple b d)) -> W sc (kld_of cross simple b p q).
Proof.
  intros C D. unfold kld_of, cross_of, simple_of. eapply (W_bind sc); [same; same; apply C|]. intros. eapply (W_bind sc); [same; apply D|]. intros. cbn. apply sc_minus; assumption.
Qed.
Lemma W_jsd_of {K} `{EqDec K} (ds : list (list (K * R))) hs : scl hs -> W sc (jsd_of b ds hs).
Proof.
  intros H0. unfold jsd_of. destruct H0 as [|x hs Hx Hs]; [exact Logic.I|]. cbv zeta. via W_plogp. cbn [W].
  apply sc_minus; [assumption|]. apply sc_div, sc_sum. constructor; assumption.
Qed.
Lemma W_jsd_discrete vars : W sc (jsd_discrete b vars).
Proof. unfold jsd_discrete. same. eapply W_bind; [apply (W_mapM sc); intros; apply W_discrete|]. intros. apply W_jsd_of. assumption. Qed.
Lemma W_jsd_probs probs vars : W sc (jsd_probs probs b vars).
Proof. unfold jsd_probs. same. eapply W_bind; [apply (W_mapM sc); intros; same; apply W_plogp|]. intros. same. apply W_jsd_of. assumption. Qed.

(** ordinal measures *)
Section Ord.
Context {T : Type} `{Cmp T} (k : kind T).
Lemma W_ord_simple xs d s : W (fun r => sc (fst r)) (ord_simple k b xs d s).
Proof.
  unfold ord_simple. destruct (d =? 1)%Z; [exact sc0|]. destruct (_ =? _)%Z; [exact sc0|]. same. via W_plogp. assumption.
Qed.
Lemma W_ordinal xs d s : W sc (entropy_ordinal k b xs d s).
Proof. unfold entropy_ordinal. same. eapply W_rmap; [apply W_ord_simple|]. intros ? H1; exact H1. Qed.
Lemma W_ordinal_local xs d s : W scl (local_ordinal k b xs d s).
Proof.
  unfold local_ordinal. same. via W_ord_simple. destruct (snd a0) as [[dict pats]|].
  - same. via W_logs. cbn. eapply scl_map2; [eassumption|apply sc_opp].
  - destruct (Nat.eqb _ _); [constructor|exact Logic.I].
Qed.
Lemma W_ordinal_joint cols d s : W sc (joint_entropy_ordinal k b cols d s).
Proof. unfold joint_entropy_ordinal. destruct cols; [exact Logic.I|]. destruct (existsb _ _); [exact Logic.I|]. same. same. same. same. apply W_plogp. Qed.
Lemma W_ordinal_cross p q d s : W sc (cross_entropy_ordinal k b p q d s).
Proof. unfold cross_entropy_ordinal. same. same. same. same. same. apply W_discrete_cross. Qed.
Lemma W_ordinal_kld p q d s : W sc (kld_ordinal k b p q d s).
Proof. unfold kld_ordinal. via W_ordinal_cross. via W_ordinal. cbn. apply sc_minus; assumption. Qed.
Lemma W_ordinal_jsd vars d s : W sc (jsd_ordinal k b vars d s).
Proof.
  unfold jsd_ordinal. same. eapply W_bind; [apply W_mapM; intros; apply W_ord_simple|]. intros l Hl. apply W_jsd_of. clear - Hl. induction Hl; constructor; assumption.
Qed.
Lemma W_ordinal_mi o vars d s : W sc (mi_ordinal k b o vars d s).
Proof. unfold mi_ordinal. same. same. same. destruct (d =? 1)%Z; [exact sc0|]. apply W_mi. constructor. Qed.
Lemma W_ordinal_cmi vars c d s : W sc (cmi_ordinal k b vars c d s).
Proof. unfold cmi_ordinal. destruct vars as [|x [|y r]]; try exact Logic.I. destruct (_ || _); [exact Logic.I|]. same. same. same. destruct (d =? 1)%Z; [exact sc0|]. apply W_cmi. constructor. Qed.
Lemma W_ordinal_te x y d l kk s r : W sc (te_ordinal k b x y d l kk s r).
Proof.
  unfold te_ordinal. destruct s as [sz|]; [|exact Logic.I]. destruct (_ <? _)%Z; [exact Logic.I|]. destruct (_ <? _)%Z; [exact Logic.I|]. destruct (_ <? _)%Z; [exact Logic.I|].
  same. same. same. destruct a1 as [[? ?] ?]. unfold te_form. same. apply W_cmi. constructor.
Qed.
Lemma W_ordinal_cte x y c d l kk m s : W sc (cte_ordinal k b x y c d l kk m s).
Proof.
  unfold cte_ordinal. destruct s as [sz|]; [|exact Logic.I]. destruct (_ <? _)%Z; [exact Logic.I|]. destruct (_ <? _)%Z; [exact Logic.I|]. destruct (_ <? _)%Z; [exact Logic.I|].
  same. same. same. same. destruct a2 as [[[? ?] ?] ?]. unfold cte_form. same. apply W_cmi. constructor.
Qed.
End Ord.
End Bad.
