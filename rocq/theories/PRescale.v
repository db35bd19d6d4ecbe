(** C08, supporting lemmas: a relational reading of the model with two bases. *)
From Coq Require Import Reals Lra Lia List ZArith Arith Bool.
From Verif Require Import Res RSum Spec SpecBase SpecRescale PropsObjC Ord MBase MData MEntropy MMI MTE MGeneric MEst MDiv MNsb MComb MOrd PBase.
Import ListNotations.
Local Open Scope R_scope.

(** outcomes related by [P] *)
Definition U {A B} (P : A -> B -> Prop) (r : res A) (r' : res B) : Prop :=
  match r, r' with
  | Ok a, Ok a' => P a a' | NonFinite, NonFinite => True | Raise e, Raise e' => e = e' | _, _ => False
  end.
Lemma U_bind {A A' B B'} (P : A -> A' -> Prop) (Q : B -> B' -> Prop) m m' f f' :
  U P m m' -> (forall a a', P a a' -> U Q (f a) (f' a')) -> U Q (bind m f) (bind m' f').
Proof. destruct m, m'; cbn; intros H F; try contradiction; try exact H. apply F, H. Qed.
Lemma U_same {A B B'} (Q : B -> B' -> Prop) (m : res A) f f' :
  (forall a, m = Ok a -> U Q (f a) (f' a)) -> U Q (bind m f) (bind m f').
Proof. destruct m; cbn; intros F; auto. Qed.
Lemma U_refl {A} (P : A -> A -> Prop) m : (forall a, P a a) -> U P m m.
Proof. destruct m; cbn; auto. Qed.
Lemma U_mono {A B} (P Q : A -> B -> Prop) r r' : (forall a b, P a b -> Q a b) -> U P r r' -> U Q r r'.
Proof. destruct r, r'; cbn; auto. Qed.
Lemma U_mapM {A B B'} (P : B -> B' -> Prop) f f' (l : list A) :
  (forall a, In a l -> U P (f a) (f' a)) -> U (Forall2 P) (mapM f l) (mapM f' l).
Proof.
  induction l as [|x l IH]; cbn [mapM]; intros H; [constructor|].
  eapply U_bind; [apply H; left; reflexivity|]. intros a a' Ha.
  eapply U_bind; [apply IH; intros; apply H; right; assumption|]. intros l1 l2 Hl. cbn. constructor; assumption.
Qed.
Lemma U_rmap {A A' B B'} (P : A -> A' -> Prop) (Q : B -> B' -> Prop) g g' m m' :
  U P m m' -> (forall a a', P a a' -> Q (g a) (g' a')) -> U Q (rmap g m) (rmap g' m').
Proof. intros H F. eapply U_bind; [exact H|]. intros; cbn; auto. Qed.

Definition sc_ (b : base) (x y : R) : Prop := x * unit_of b = y.
Definition scl_ (b : base) : list R -> list R -> Prop := Forall2 (sc_ b).
Definition scv_ (b : base) (v w : value) : Prop :=
  match v, w with VNum x, VNum y => sc_ b x y | VArr l, VArr m => scl_ b l m | _, _ => False end.
Lemma U_log b x : valid_base b -> U (sc_ b) (log_base b x) (log_base BE x).
Proof.
  intros V. destruct (Rlt_dec 0 x) as [P|N].
  - rewrite !log_base_ok by (assumption || exact Logic.I). unfold U, sc_. cbn [unit_of]. field. exact (unit_neq0 b V).
  - unfold log_base, np_log. destruct (Rlt_dec 0 x); [contradiction|]. destruct b as [|r]; [exact Logic.I|]. destruct V as [V1 V2].
    destruct (Req_EM_T r 2); [exact Logic.I|]. destruct (Req_EM_T r 10); [exact Logic.I|]. destruct (Req_EM_T r 0); [lra|]. destruct (Rlt_dec r 0); [lra|]. exact Logic.I.
Qed.
Lemma U_mmc b (k n : R) : valid_base b ->
  U (sc_ b) (match b with BE => np_div k n | BNum r => if Req_EM_T r 0 then Ok 0 else let* lb := np_log r in np_div k (n * lb) end) (np_div k n).
Proof.
  intros V. destruct b as [|r]; [unfold sc_; apply U_refl; intros; cbn; ring|].
  destruct V as [V1 V2]. destruct (Req_EM_T r 0); [lra|]. rewrite np_log_ok by exact V1. cbn [bind]. unfold np_div.
  assert (L : ln r <> 0) by (apply ln_neq0; assumption).
  destruct (Req_EM_T n 0) as [->|N].
  - destruct (Req_EM_T (0 * ln r) 0) as [_|C]; [exact Logic.I|]. rewrite Rmult_0_l in C. congruence.
  - destruct (Req_EM_T (n * ln r) 0) as [C|_]; [apply Rmult_integral in C; tauto|]. cbn. unfold sc_. cbn [unit_of]. field. split; assumption.
Qed.
Section Units.
Context (b : base) (V : valid_base b).
Notation u := (unit_of b).
Notation sc := (sc_ b).
Notation scl := (scl_ b).
Notation scv := (scv_ b).

Lemma u_ne : u <> 0. Proof. exact (unit_neq0 b V). Qed.
Lemma scl_map l m : scl l m <-> map (fun v => v * u) l = m.
Proof.
  split.
  - induction 1 as [|x y l m H _ IH]; [reflexivity|]. cbn. rewrite IH. f_equal. exact H.
  - intros <-. induction l; constructor; [reflexivity|assumption].
Qed.
Lemma to_only_unit r r' : U sc r r' -> only_unit b r r'.
Proof. destruct r, r'; exact (fun H => H). Qed.
Lemma to_only_unit_local r r' : U scl r r' -> only_unit_local b r r'.
Proof. destruct r, r'; try exact (fun H => H). cbn. apply scl_map. Qed.
Lemma to_only_unit_value r r' : U scv r r' -> only_unit_value b r r'.
Proof. destruct r as [[]| |], r' as [[]| |]; try exact (fun H => H). cbn. apply scl_map. Qed.

Lemma U_log' x : U sc (log_base b x) (log_base BE x). Proof. apply U_log, V. Qed.
Lemma U_to x : U sc (to_base b x) (to_base BE x).
Proof. rewrite !to_base_ok by (assumption || exact Logic.I). unfold U, sc_. cbn [unit_of]. field. exact u_ne. Qed.
Lemma U_ok x y : sc x y -> U sc (Ok x) (Ok y). Proof. exact (fun H => H). Qed.
Lemma sc0 : sc 0 0. Proof. unfold sc_. ring. Qed.
Lemma sc_opp x y : sc x y -> sc (- x) (- y). Proof. unfold sc_. intros <-. ring. Qed.
Lemma sc_plus x y x' y' : sc x y -> sc x' y' -> sc (x + x') (y + y'). Proof. unfold sc_. intros <- <-. ring. Qed.
Lemma sc_minus x y x' y' : sc x y -> sc x' y' -> sc (x - x') (y - y'). Proof. unfold sc_. intros <- <-. ring. Qed.
Lemma sc_mult p x y : sc x y -> sc (p * x) (p * y). Proof. unfold sc_. intros <-. ring. Qed.
Lemma sc_div p x y : sc x y -> sc (x / p) (y / p). Proof. unfold sc_. intros <-. unfold Rdiv. ring. Qed.
Lemma sc_sum l m : scl l m -> sc (sumR l) (sumR m).
Proof. induction 1 as [|x y l m H _ IH]; [exact sc0|]. cbn [sumR fold_right]. apply sc_plus; assumption. Qed.
Lemma scl_len l m : scl l m -> length l = length m. Proof. induction 1; cbn; congruence. Qed.
Lemma sc_mean l m : scl l m -> sc (mean l) (mean m).
Proof. intros H. unfold mean. rewrite (scl_len _ _ H). apply sc_div, sc_sum, H. Qed.
Lemma sc_dot p l m : scl l m -> sc (dot p l) (dot p m).
Proof.
  intros H. unfold dot. revert p. induction H as [|x y l m H _ IH]; intros p; [destruct p; exact sc0|]. destruct p as [|a p]; [exact sc0|].
  cbn [combine map sumR fold_right fst snd]. apply sc_plus; [apply sc_mult, H|apply IH].
Qed.
Lemma scl_maps {A} (f g : A -> R) l : (forall a, sc (f a) (g a)) -> scl (map f l) (map g l).
Proof. intros H. induction l; constructor; auto. Qed.
Lemma scl_map2 f g l m : scl l m -> (forall x y, sc x y -> sc (f x) (g y)) -> scl (map f l) (map g m).
Proof. intros H F. induction H; constructor; auto. Qed.
Lemma scl_nth l m t : scl l m -> sc (nth t l 0) (nth t m 0).
Proof. intros H. revert t. induction H; intros [|t]; cbn; auto using sc0. Qed.
Lemma scl_repeat0 n : scl (repeat 0 n) (repeat 0 n).
Proof. induction n; constructor; auto using sc0. Qed.
Lemma U_logs l : U scl (mapM (log_base b) l) (mapM (log_base BE) l).
Proof. apply U_mapM. intros. apply U_log'. Qed.
Lemma U_tos l : U scl (mapM (to_base b) l) (mapM (to_base BE) l).
Proof. apply U_mapM. intros. apply U_to. Qed.
Lemma U_div x y p : sc x y -> U sc (np_div x p) (np_div y p).
Proof. intros H. unfold np_div. destruct (Req_EM_T p 0); [exact Logic.I|]. cbn. apply sc_div, H. Qed.
(** proof steps: a computation that does not see the base; one that does *)
Ltac same := apply U_same; intros.
Ltac via L := eapply U_bind; [apply L|]; cbv beta; intros.

Lemma U_plogp p : U sc (plogp b p) (plogp BE p).
Proof. unfold plogp. via U_logs. cbn. apply sc_opp, sc_dot. assumption. Qed.
Lemma U_mmf d : U sc (mm_factor b d) (mm_factor BE d).
Proof. unfold mm_factor. same. apply U_to. Qed.
Lemma U_discrete d : U sc (discrete_simple b d) (discrete_simple BE d). Proof. apply U_plogp. Qed.
Lemma U_discrete_local d : U scl (discrete_local b d) (discrete_local BE d).
Proof. unfold discrete_local. same. via U_logs. cbn. eapply scl_map2; [eassumption|apply sc_opp]. Qed.
Lemma U_mm d : U sc (mm_simple b d) (mm_simple BE d).
Proof. unfold mm_simple. via U_mmf. via U_plogp. cbn. apply sc_plus; assumption. Qed.
Lemma U_mm_local d : U scl (mm_local b d) (mm_local BE d).
Proof. unfold mm_local. same. via U_mmf. via U_logs. cbn. eapply scl_map2; [eassumption|]. intros. apply sc_plus; [apply sc_opp|]; assumption. Qed.
Lemma U_cross_sum up uq dp dq : U sc (cross_sum b up uq dp dq) (cross_sum BE up uq dp dq).
Proof.
  unfold cross_sum. eapply U_bind.
  - apply (U_mapM sc). intros. same. same. via U_log'. cbn. apply sc_mult. assumption.
  - intros. cbn. apply sc_opp, sc_sum. assumption.
Qed.
Lemma U_discrete_cross p q : U sc (discrete_cross b p q) (discrete_cross BE p q).
Proof. unfold discrete_cross. destruct (common _ _); [exact sc0|apply U_cross_sum]. Qed.
Lemma U_mm_cross p q : U sc (mm_cross b p q) (mm_cross BE p q).
Proof.
  unfold mm_cross. destruct (common _ _); [exact sc0|]. eapply U_bind.
  2:{ intros. via U_cross_sum. cbn. apply sc_plus; eassumption. }
  apply U_mmc, V.
Qed.
Lemma U_bayes a K d : U sc (bayes_simple a K b d) (bayes_simple a K BE d).
Proof. unfold bayes_simple. same. apply U_plogp. Qed.
Lemma U_bayes_cross a K p q : U sc (bayes_cross a K b p q) (bayes_cross a K BE p q).
Proof. unfold bayes_cross. cbv zeta. same. same. same. same. destruct (common _ _); [exact sc0|apply U_cross_sum]. Qed.
Lemma U_shrink d : U sc (shrink_simple b d) (shrink_simple BE d).
Proof. unfold shrink_simple. same. apply U_plogp. Qed.
Lemma U_shrink_local d : U scl (shrink_local b d) (shrink_local BE d).
Proof. unfold shrink_local. same. same. via U_logs. cbn. eapply scl_map2; [eassumption|apply sc_opp]. Qed.
Lemma U_zhang d : U sc (zhang_simple b d) (zhang_simple BE d).
Proof. unfold zhang_simple. cbv zeta. destruct (filter _ _) as [|c l]; [exact sc0|]. destruct (_ <=? 0)%Z; [exact sc0|]. same. apply U_to. Qed.
Lemma U_zhang_local d : U scl (zhang_local b d) (zhang_local BE d).
Proof. unfold zhang_local. cbv zeta. same. same. apply U_tos. Qed.
Lemma U_cs d : U sc (chao_shen_simple b d) (chao_shen_simple BE d).
Proof. unfold chao_shen_simple. cbv zeta. same. same. apply U_to. Qed.
Lemma U_cwj d : U sc (cwj_simple b d) (cwj_simple BE d).
Proof. unfold cwj_simple. cbv zeta. same. same. same. same. same. apply U_to. Qed.
Lemma U_ansb K d : U sc (ansb_simple K b d) (ansb_simple K BE d).
Proof. unfold ansb_simple. cbv zeta. destruct (_ =? 0)%Z; [exact Logic.I|]. same. same. apply U_to. Qed.
Lemma U_bonachela d : U sc (bonachela_simple b d) (bonachela_simple BE d).
Proof. unfold bonachela_simple. cbv zeta. same. apply U_to. Qed.
Lemma U_grassberger d : U scv (grassberger_calc b d) (grassberger_calc BE d).
Proof. unfold grassberger_calc. same. same. same. eapply U_rmap; [apply U_tos|]. intros; assumption. Qed.
Lemma U_nsb E K d : U sc (nsb_simple E K b d) (nsb_simple E K BE d).
Proof. unfold nsb_simple. cbv zeta. same. destruct (_ =? 0)%Z; [exact Logic.I|]. destruct (Req_EM_T _ 0); [exact Logic.I|]. apply U_to. Qed.

(** an estimator whose two calculations only change the unit *)
Definition fair (e : est) : Prop :=
  forall d, U scv (e_calc e b d) (e_calc e BE d) /\ U scl (e_extract e b d) (e_extract e BE d).
Lemma fair_num f g : (forall d, U sc (f b d) (f BE d)) -> (forall d, U scl (g b d) (g BE d)) -> fair (mkEst (fun b d => rmap VNum (f b d)) g).
Proof. intros F G d. split; [|apply G]. cbn [e_calc]. eapply U_rmap; [apply F|]. intros; assumption. Qed.
Lemma U_raise {A B} (P : A -> B -> Prop) e : U P (Raise e) (Raise e). Proof. reflexivity. Qed.

Lemma U_global e d : fair e -> U sc (e_global e b d) (e_global e BE d).
Proof. intros F. eapply U_rmap; [apply F|]. intros [x|l] [y|m]; cbn; try contradiction; [auto|apply sc_mean]. Qed.
Lemma U_local e d : fair e -> U scl (e_local e b d) (e_local e BE d).
Proof.
  intros F. unfold e_local. eapply U_bind; [apply F|]. intros [x|l] [y|m]; cbn [scv]; try contradiction; [|exact (fun H => H)]. intros _.
  destruct (F d) as [_ X]. destruct (e_extract e b d) as [ls|x1|], (e_extract e BE d) as [ms|x2|]; cbn in X; try contradiction; [exact X| |exact Logic.I]. subst. destruct x2; reflexivity.
Qed.
Lemma U_entropy e i : fair e -> U sc (entropy_of e b i) (entropy_of e BE i).
Proof. intros F. unfold entropy_of. same. apply U_global, F. Qed.
Lemma U_local_of e i : fair e -> U scl (local_of e b i) (local_of e BE i).
Proof. intros F. unfold local_of. same. apply U_local, F. Qed.
Lemma U_vcomb lp lp' lm lm' : Forall2 scl lp lp' -> Forall2 scl lm lm' -> U scl (vcomb lp lm) (vcomb lp' lm').
Proof.
  intros P M. unfold vcomb.
  assert (N : length (hd [] lp) = length (hd [] lp')) by (destruct P; cbn; [reflexivity|apply scl_len; assumption]).
  rewrite <- N. set (n := length (hd [] lp)). clearbody n.
  assert (E : forallb (fun l => Nat.eqb (length l) n) (lp ++ lm) = forallb (fun l => Nat.eqb (length l) n) (lp' ++ lm')).
  { rewrite !forallb_app. f_equal.
    - clear M N. induction P as [|x y l m H _ IH]; [reflexivity|]. cbn. rewrite IH, (scl_len _ _ H). reflexivity.
    - clear P N. induction M as [|x y l m H _ IH]; [reflexivity|]. cbn. rewrite IH, (scl_len _ _ H). reflexivity. }
  rewrite <- E. destruct (forallb _ _); [|reflexivity]. cbn.
  assert (G : forall t l m, Forall2 scl l m -> sc (sumf (fun l => nth t l 0) l) (sumf (fun l => nth t l 0) m)).
  { intros t l m H. induction H as [|x y l m H _ IH]; [exact sc0|]. cbn [sumf fold_right]. apply sc_plus; [apply scl_nth, H|exact IH]. }
  apply scl_maps. intros t. apply sc_minus; apply G; assumption.
Qed.
Lemma U_from_entropies e plus minus : fair e -> U scv (from_entropies e b plus minus) (from_entropies e BE plus minus).
Proof.
  intros F. unfold from_entropies. same. same.
  assert (X : U scl (let* lp := mapM (e_local e b) a in let* lm := mapM (e_local e b) a0 in vcomb lp lm)
                    (let* lp := mapM (e_local e BE) a in let* lm := mapM (e_local e BE) a0 in vcomb lp lm)).
  { eapply U_bind; [apply (U_mapM scl); intros; apply U_local, F|]. intros. eapply U_bind; [apply (U_mapM scl); intros; apply U_local, F|]. intros. apply U_vcomb; assumption. }
  assert (Y : U scv (let* gp := mapM (e_global e b) a in let* gm := mapM (e_global e b) a0 in Ok (VNum (sumR gp - sumR gm)))
                    (let* gp := mapM (e_global e BE) a in let* gm := mapM (e_global e BE) a0 in Ok (VNum (sumR gp - sumR gm)))).
  { eapply U_bind; [apply (U_mapM sc); intros; apply U_global, F|]. intros. eapply U_bind; [apply (U_mapM sc); intros; apply U_global, F|]. intros. cbn. apply sc_minus; apply sc_sum; assumption. }
  destruct (bind (mapM (e_local e b) a) _) as [l|x|], (bind (mapM (e_local e BE) a) _) as [l'|x'|]; cbn in X; try contradiction; [exact X| |exact Logic.I].
  subst x'. destruct x; try reflexivity; exact Y.
Qed.
Lemma U_gen_mi e o vars : fair e -> U scv (gen_mi e b o vars) (gen_mi e BE o vars).
Proof. intros F. unfold gen_mi. same. apply U_from_entropies, F. Qed.
Lemma U_gen_cmi e vars c : fair e -> U scv (gen_cmi e b vars c) (gen_cmi e BE vars c).
Proof. intros F. unfold gen_cmi. same. apply U_from_entropies, F. Qed.
Lemma U_gen_te e s d a r : fair e -> U scv (gen_te e b s d a r) (gen_te e BE s d a r).
Proof. intros F. unfold gen_te. same. same. destruct a1 as [[? ?] ?]. cbn [te_spaces]. apply U_from_entropies, F. Qed.
Lemma U_gen_cte e s d c a : fair e -> U scv (gen_cte e b s d c a) (gen_cte e BE s d c a).
Proof. intros F. unfold gen_cte. same. same. destruct a1 as [[[? ?] ?] ?]. cbn [cte_spaces]. apply U_from_entropies, F. Qed.
Lemma fair_discrete : fair est_discrete. Proof. apply fair_num; [apply U_discrete|apply U_discrete_local]. Qed.
Lemma fair_mm : fair est_mm. Proof. apply fair_num; [apply U_mm|apply U_mm_local]. Qed.
Lemma fair_shrink : fair est_shrink. Proof. apply fair_num; [apply U_shrink|apply U_shrink_local]. Qed.
Lemma fair_bayes a K : fair (est_bayes a K). Proof. apply (fair_num (bayes_simple a K)); [apply U_bayes|intros; apply U_raise]. Qed.
Lemma fair_zhang : fair est_zhang. Proof. apply fair_num; [apply U_zhang|apply U_zhang_local]. Qed.
Lemma fair_cs : fair est_chao_shen. Proof. apply fair_num; [apply U_cs|intros; apply U_raise]. Qed.
Lemma fair_cwj : fair est_cwj. Proof. apply fair_num; [apply U_cwj|intros; apply U_raise]. Qed.
Lemma fair_ansb K : fair (est_ansb K). Proof. apply (fair_num (ansb_simple K)); [apply U_ansb|intros; apply U_raise]. Qed.
Lemma fair_bonachela : fair est_bonachela. Proof. apply fair_num; [apply U_bonachela|intros; apply U_raise]. Qed.
Lemma fair_grassberger : fair est_grassberger. Proof. intros d. split; [apply U_grassberger|apply U_raise]. Qed.
Lemma fair_nsb E K : fair (est_nsb E K). Proof. apply (fair_num (nsb_simple E K)); [apply U_nsb|intros; apply U_raise]. Qed.

(** dedicated (conditional) mutual information *)
Lemma U_corr ki kj n kc : U sc (mm_mi_corr ki kj n b kc) (mm_mi_corr ki kj n BE kc).
Proof. unfold mm_mi_corr. cbv zeta. same. apply U_to. Qed.
(** no bias correction, or the correction in the same base *)
Inductive mmr : option base -> option base -> Prop := mmr_none : mmr None None | mmr_some : mmr (Some b) (Some BE).
Lemma U_add mm mm' x y corr : mmr mm mm' -> sc x y -> U sc (corr b) (corr BE) -> U sc (add_corr mm x corr) (add_corr mm' y corr).
Proof. intros M H C. destruct M; cbn [add_corr]; [exact H|]. eapply U_bind; [exact C|]. intros. cbn. apply sc_plus; assumption. Qed.
Lemma U_mi_nd mm mm' vars : mmr mm mm' -> U sc (mi_global_nd_int b mm vars) (mi_global_nd_int BE mm' vars).
Proof.
  intros M. unfold mi_global_nd_int. cbv zeta. same. destruct (existsb _ _); [exact sc0|].
  eapply U_bind.
  - apply (U_mapM sc). intros. unfold mi_term. same. via U_log'. via U_log'. via U_log'. cbn.
    apply sc_plus; apply sc_mult; [apply sc_minus|apply sc_plus; [apply sc_opp|apply sc_mult]]; assumption.
  - intros. apply U_add; [exact M|apply sc_sum; assumption|apply U_corr].
Qed.
Lemma U_mi_2d mm mm' x y : big_base b -> mmr mm mm' -> U sc (mi_global_2d_int b mm x y) (mi_global_2d_int BE mm' x y).
Proof.
  intros B M. unfold mi_global_2d_int. cbv zeta. same. destruct (_ || _); [exact sc0|].
  eapply U_bind.
  - apply (U_mapM sc). intros. same. via U_log'. via U_log'. via U_log'. via U_log'. via U_log'. cbn.
    apply sc_plus; apply sc_mult; [apply sc_minus|repeat apply sc_plus; [apply sc_opp|..]]; assumption.
  - intros. apply U_add; [exact M| |apply U_corr].
    apply sc_sum in H0. unfold sc_ in *. rewrite <- H0. pose proof (big_unit b B) as P.
    unfold Rmax. destruct (Rle_dec (sumR a0) 0), (Rle_dec (sumR a0 * u) 0); try lra; nra.
Qed.
Lemma U_mi_other mm mm' vars : mmr mm mm' -> U sc (mi_global_nd_other b mm vars) (mi_global_nd_other BE mm' vars).
Proof.
  intros M. unfold mi_global_nd_other. cbv zeta. same. eapply U_bind.
  - apply (U_mapM sc). intros. same. same. same. via U_log'. cbn. apply sc_mult; assumption.
  - intros l l' Hl. rewrite (scl_len _ _ Hl). destruct (Nat.eqb _ _); [exact sc0|]. apply U_add; [exact M|apply sc_sum; assumption|apply U_corr].
Qed.
(** two one-dimensional variables go through the clipped formula *)
Definition clipped (vars : list arr) : bool := forallb is_1d vars && Nat.eqb (length vars) 2.
Lemma U_mi mm mm' vars : big_base b \/ clipped vars = false -> mmr mm mm' -> U sc (mi_global b mm vars) (mi_global BE mm' vars).
Proof.
  intros B M. unfold mi_global, clipped in *. destruct (forallb _ _); [|apply U_mi_other, M].
  destruct vars as [|x [|y [|z r]]]; try (apply U_mi_nd, M). apply U_mi_2d; [|exact M]. destruct B as [B|B]; [exact B|discriminate].
Qed.
Lemma U_mi_local mm mm' vars : mmr mm mm' -> U scl (mi_local b mm vars) (mi_local BE mm' vars).
Proof.
  intros M. unfold mi_local. cbv zeta. same. destruct (existsb _ _); [apply scl_repeat0|]. eapply U_bind.
  - apply (U_mapM sc). intros. same. same. via U_log'. via U_log'. cbn. apply sc_plus; [apply sc_opp|]; assumption.
  - intros. destruct M; [assumption|]. via U_corr. cbn. eapply scl_map2; [eassumption|]. intros. apply sc_plus; assumption.
Qed.
Lemma U_cmi mm mm' vars c : mmr mm mm' -> U sc (cmi_global b mm vars c) (cmi_global BE mm' vars c).
Proof.
  intros M. unfold cmi_global. destruct c as [zs|]; [|reflexivity]. cbv zeta. same. destruct (existsb _ _); [exact sc0|]. eapply U_bind.
  - apply (U_mapM sc). intros. same. via U_log'. via U_log'. via U_log'.
    eapply U_bind; [apply (U_mapM sc); intros; apply U_log'|]. intros. cbn.
    apply sc_plus; apply sc_mult; [apply sc_minus; assumption|apply sc_plus; [apply sc_opp; assumption|apply sc_sum; assumption]].
  - intros. apply U_add; [exact M|apply sc_sum; assumption|apply U_corr].
Qed.
Lemma U_cmi_local mm mm' vars c : mmr mm mm' -> U scl (cmi_local b mm vars c) (cmi_local BE mm' vars c).
Proof.
  intros M. unfold cmi_local. cbv zeta. same. destruct (existsb _ _); [apply scl_repeat0|]. eapply U_bind.
  - apply (U_mapM sc). intros. same. same. same. via U_log'. via U_log'. cbn. apply sc_minus; assumption.
  - intros. destruct M; [assumption|]. via U_corr. cbn. eapply scl_map2; [eassumption|]. intros. apply sc_plus; assumption.
Qed.
Lemma U_te mm mm' s d a r : mmr mm mm' -> U sc (te_gen b mm s d a r) (te_gen BE mm' s d a r) /\ U scl (te_gen_local b mm s d a r) (te_gen_local BE mm' s d a r).
Proof. intros M. split; unfold te_gen, te_gen_local, te_form, te_form_local; same; same; destruct a1 as [[? ?] ?]; same; [apply U_cmi, M|apply U_cmi_local, M]. Qed.
Lemma U_cte mm mm' s d c a : mmr mm mm' -> U sc (cte_gen b mm s d c a) (cte_gen BE mm' s d c a) /\ U scl (cte_gen_local b mm s d c a) (cte_gen_local BE mm' s d c a).
Proof. intros M. split; unfold cte_gen, cte_gen_local, cte_form, cte_form_local; same; same; destruct a1 as [[[? ?] ?] ?]; same; [apply U_cmi, M|apply U_cmi_local, M]. Qed.

(** divergences *)
Lemma U_kld cross simple p q :
  (forall p q, U sc (cross b p q) (cross BE p q)) -> (forall d, U sc (simple b d) (simple BE d)) -> U sc (kld_of cross simple b p q) (kld_of cross simple BE p q).
Proof.
  intros C D. unfold kld_of, cross_of, simple_of. eapply (U_bind sc); [same; same; apply C|]. intros. eapply (U_bind sc); [same; apply D|]. intros. cbn. apply sc_minus; assumption.
Qed.
Lemma U_jsd_of {K} `{EqDec K} (ds : list (list (K * R))) hs hs' : scl hs hs' -> U sc (jsd_of b ds hs) (jsd_of BE ds hs').
Proof.
  intros H0. unfold jsd_of. pose proof (scl_len _ _ H0) as L. destruct H0 as [|x y hs hs' Hx Hs]; [reflexivity|]. cbv zeta. via U_plogp. cbn [U].
  apply sc_minus; [assumption|]. rewrite L. apply sc_div, sc_sum. constructor; assumption.
Qed.
Lemma U_jsd_discrete vars : U sc (jsd_discrete b vars) (jsd_discrete BE vars).
Proof. unfold jsd_discrete. same. eapply U_bind; [apply (U_mapM sc); intros; apply U_discrete|]. intros. apply U_jsd_of. assumption. Qed.
Lemma U_jsd_probs probs vars : U sc (jsd_probs probs b vars) (jsd_probs probs BE vars).
Proof. unfold jsd_probs. same. eapply U_bind; [apply (U_mapM sc); intros; same; apply U_plogp|]. intros. same. apply U_jsd_of. assumption. Qed.

(** ordinal measures *)
Section Ord.
Context {T : Type} `{Cmp T} (k : kind T).
Lemma U_ord_simple xs d s : U (fun r r' => sc (fst r) (fst r') /\ snd r = snd r') (ord_simple k b xs d s) (ord_simple k BE xs d s).
Proof.
  unfold ord_simple. destruct (d =? 1)%Z; [split; [exact sc0|reflexivity]|]. destruct (_ =? _)%Z; [split; [exact sc0|reflexivity]|].
  same. via U_plogp. split; [assumption|reflexivity].
Qed.
Lemma U_ordinal xs d s : U sc (entropy_ordinal k b xs d s) (entropy_ordinal k BE xs d s).
Proof. unfold entropy_ordinal. same. eapply U_rmap; [apply U_ord_simple|]. intros ? ? []; assumption. Qed.
Lemma U_ordinal_local xs d s : U scl (local_ordinal k b xs d s) (local_ordinal k BE xs d s).
Proof.
  unfold local_ordinal. same. via U_ord_simple. destruct H1 as [_ <-]. destruct (snd a0) as [[dict pats]|].
  - same. via U_logs. cbn. eapply scl_map2; [eassumption|apply sc_opp].
  - destruct (Nat.eqb _ _); [constructor|reflexivity].
Qed.
Lemma U_ordinal_joint cols d s : U sc (joint_entropy_ordinal k b cols d s) (joint_entropy_ordinal k BE cols d s).
Proof. unfold joint_entropy_ordinal. destruct cols; [reflexivity|]. destruct (existsb _ _); [reflexivity|]. same. same. same. same. apply U_plogp. Qed.
Lemma U_ordinal_cross p q d s : U sc (cross_entropy_ordinal k b p q d s) (cross_entropy_ordinal k BE p q d s).
Proof. unfold cross_entropy_ordinal. same. same. same. same. same. apply U_discrete_cross. Qed.
Lemma U_ordinal_kld p q d s : U sc (kld_ordinal k b p q d s) (kld_ordinal k BE p q d s).
Proof. unfold kld_ordinal. via U_ordinal_cross. via U_ordinal. cbn. apply sc_minus; assumption. Qed.
Lemma U_ordinal_jsd vars d s : U sc (jsd_ordinal k b vars d s) (jsd_ordinal k BE vars d s).
Proof.
  unfold jsd_ordinal. same. eapply U_bind; [apply U_mapM; intros; apply U_ord_simple|]. intros l l' Hl.
  match goal with |- U _ (jsd_of _ ?d1 _) (jsd_of _ ?d2 _) => assert (E : d1 = d2) end.
  { induction Hl as [|x y l l' [_ Hx] _ IH]; [reflexivity|]. destruct x as [x1 x2], y as [y1 y2]. cbn [snd] in Hx. subst y2. cbn [map snd]. rewrite IH. reflexivity. }
  rewrite E. apply U_jsd_of. clear E. induction Hl as [|x y l l' [Hx _] _ IH]; constructor; assumption.
Qed.
Lemma U_ordinal_mi o vars d s : big_base b \/ length vars <> 2%nat -> U sc (mi_ordinal k b o vars d s) (mi_ordinal k BE o vars d s).
Proof.
  intros B. unfold mi_ordinal. same. same. same. destruct (d =? 1)%Z; [exact sc0|]. apply U_mi; [|constructor].
  destruct B as [B|B]; [left; exact B|right]. unfold clipped. rewrite map_length. rewrite (mapM_length _ _ _ H2).
  assert (X : length a <> 2%nat).
  { unfold ord_mi_init in H0. destruct (Nat.ltb (length vars) 2) eqn:L1; [discriminate|]. destruct (_ && _) eqn:L2; [discriminate|]. destruct (negb (forallb _ _)); [discriminate|].
    apply Nat.ltb_ge in L1. assert (L3 : Nat.ltb 2 (length vars) = true) by (apply Nat.ltb_lt; lia). rewrite L3 in L2. cbn [andb] in L2. apply negb_false_iff, Z.eqb_eq in L2. subst o. cbn in H0. injection H0 as <-. exact B. }
  apply Nat.eqb_neq in X. rewrite X. apply andb_false_r.
Qed.
Lemma U_ordinal_cmi vars c d s : U sc (cmi_ordinal k b vars c d s) (cmi_ordinal k BE vars c d s).
Proof. unfold cmi_ordinal. destruct vars as [|x [|y r]]; try reflexivity. destruct (_ || _); [reflexivity|]. same. same. same. destruct (d =? 1)%Z; [exact sc0|]. apply U_cmi. constructor. Qed.
Lemma U_ordinal_te x y d l kk s r : U sc (te_ordinal k b x y d l kk s r) (te_ordinal k BE x y d l kk s r).
Proof.
  unfold te_ordinal. destruct s as [sz|]; [|reflexivity]. destruct (_ <? _)%Z; [reflexivity|]. destruct (_ <? _)%Z; [reflexivity|]. destruct (_ <? _)%Z; [reflexivity|].
  same. same. same. destruct a1 as [[? ?] ?]. unfold te_form. same. apply U_cmi. constructor.
Qed.
Lemma U_ordinal_cte x y c d l kk m s : U sc (cte_ordinal k b x y c d l kk m s) (cte_ordinal k BE x y c d l kk m s).
Proof.
  unfold cte_ordinal. destruct s as [sz|]; [|reflexivity]. destruct (_ <? _)%Z; [reflexivity|]. destruct (_ <? _)%Z; [reflexivity|]. destruct (_ <? _)%Z; [reflexivity|].
  same. same. same. same. destruct a2 as [[[? ?] ?] ?]. unfold cte_form. same. apply U_cmi. constructor.
Qed.
End Ord.
End Units.
