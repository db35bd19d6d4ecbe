(** C09, supporting lemmas: a negative base against base "e". *)
From Coq Require Import Reals Lra Lia List ZArith Arith Bool.
From Verif Require Import Res RSum Spec SpecBase SpecNeg Ord MBase MData MEntropy MMI MTE MGeneric MEst SpecOrd MOrd MDiv MCont MKern PBase.
Import ListNotations.
Local Open Scope R_scope.

Definition Neg {A} (P : A -> A -> Prop) (m n : res A) : Prop :=
  forall v, n = Ok v -> m = Raise ValueError \/ exists w, m = Ok w /\ P w v.
Definition Never {A} (w v : A) : Prop := False.
Definition Z0 (w v : R) : Prop := w = 0 /\ v = 0.
Definition Zl : list R -> list R -> Prop := Forall2 Z0.

Lemma Neg_bind {A B} (P : A -> A -> Prop) (Q : B -> B -> Prop) m n f g : Neg P m n -> (forall w v, P w v -> Neg Q (f w) (g v)) -> Neg Q (bind m f) (bind n g).
Proof.
  intros H F v E. destruct n as [a| |]; try discriminate. destruct (H a eq_refl) as [->|(w & -> & Pw)]; [left; reflexivity|].
  cbn [bind] in *. exact (F w a Pw v E).
Qed.
Lemma Neg_same {A B} (Q : B -> B -> Prop) (m : res A) f g : (forall a, m = Ok a -> Neg Q (f a) (g a)) -> Neg Q (bind m f) (bind m g).
Proof. intros F v E. destruct m as [a| |]; try discriminate. exact (F a eq_refl v E). Qed.
Lemma Neg_never {A B} (Q : B -> B -> Prop) (m n : res A) f g : Neg Never m n -> Neg Q (bind m f) (bind n g).
Proof. intros H. eapply Neg_bind; [exact H|]. intros w v []. Qed.
Lemma Neg_mapM {A B} (P : B -> B -> Prop) (f g : A -> res B) l : (forall a, In a l -> Neg P (f a) (g a)) -> Neg (Forall2 P) (mapM f l) (mapM g l).
Proof.
  induction l as [|x l IH]; intros F.
  - intros v E. injection E as <-. right. exists []. split; [reflexivity|constructor].
  - cbn [mapM]. eapply Neg_bind; [apply F; left; reflexivity|]. intros w v Pw. eapply Neg_bind; [apply IH; intros a Ha; apply F; right; exact Ha|].
    intros ws vs Ps u E. injection E as <-. right. eexists. split; [reflexivity|]. constructor; assumption.
Qed.
Lemma Neg_ok {A} (P : A -> A -> Prop) w v : P w v -> Neg P (Ok w) (Ok v).
Proof. intros H u E. injection E as <-. right. exists w. split; [reflexivity|exact H]. Qed.
Lemma Neg_raise {A} (P : A -> A -> Prop) m e : Neg P m (Raise e).
Proof. intros v E. discriminate. Qed.
Lemma Neg_imp {A} (P Q : A -> A -> Prop) m n : Neg P m n -> (forall w v, P w v -> Q w v) -> Neg Q m n.
Proof. intros H F v E. destruct (H v E) as [->|(w & -> & Pw)]; [left; reflexivity|right; exists w; split; [reflexivity|apply F, Pw]]. Qed.
Lemma Neg_rmap {A B} (P : A -> A -> Prop) (Q : B -> B -> Prop) h m n : Neg P m n -> (forall w v, P w v -> Q (h w) (h v)) -> Neg Q (rmap h m) (rmap h n).
Proof. intros H F. eapply Neg_bind; [exact H|]. intros w v Pw. apply Neg_ok, F, Pw. Qed.
Lemma never_nil {A} (l l' : list A) : Forall2 Never l l' -> l = [] /\ l' = [].
Proof. intros H. destruct H as [|w v l l' []]; split; reflexivity. Qed.

Lemma to_refused {A} (m n : res A) : Neg Never m n -> refused m n.
Proof. intros H v E. destruct (H v E) as [X|(w & _ & [])]. exact X. Qed.
Lemma to_zero m n : Neg Z0 m n -> refused_or_zero m n.
Proof. intros H v E. destruct (H v E) as [X|(w & X & -> & ->)]; [left; exact X|right; split; [exact X|reflexivity]]. Qed.
Lemma Zl_repeat l l' : Zl l l' -> exists n, l = repeat 0 n /\ l' = repeat 0 n.
Proof.
  induction 1 as [|w v l l' [-> ->] _ (n & -> & ->)]; [exists 0%nat; split; reflexivity|]. exists (S n). split; reflexivity.
Qed.
Lemma to_zeros m n : Neg Zl m n -> refused_or_zeros m n.
Proof.
  intros H v E. destruct (H v E) as [X|(w & X & Z)]; [left; exact X|right]. destruct (Zl_repeat _ _ Z) as (k & -> & ->). exists k. split; [exact X|reflexivity].
Qed.
Lemma Zl_sum l l' : Zl l l' -> Z0 (sumR l) (sumR l').
Proof. induction 1 as [|w v l l' [-> ->] _ [IH1 IH2]]; [split; reflexivity|]. unfold sumR in *. cbn [sumf fold_right] in *. split; lra. Qed.
Lemma Z0_zero : Z0 0 0. Proof. split; reflexivity. Qed.
Lemma Zl_zeros n : Zl (repeat 0 n) (repeat 0 n). Proof. induction n; constructor; [apply Z0_zero|assumption]. Qed.

Section Negative.
Context (r : R) (V : r < 0).
Let b := BNum r.
Lemma log_neg x : log_base b x = Raise ValueError.
Proof using V.
  unfold b, log_base. destruct (Req_EM_T r 2); [lra|]. destruct (Req_EM_T r 10); [lra|]. destruct (Req_EM_T r 0); [lra|]. destruct (Rlt_dec r 0); [reflexivity|contradiction].
Qed.
Lemma Neg_log x y : Neg Never (log_base b x) (log_base BE y).
Proof using V. intros v _. left. apply log_neg. Qed.
Lemma Neg_logs l : Neg (fun w v => w = [] /\ v = []) (mapM (log_base b) l) (mapM (log_base BE) l).
Proof using V. eapply Neg_imp; [apply Neg_mapM; intros a _; apply Neg_log|]. intros w v. apply never_nil. Qed.
Lemma Neg_plogp p : Neg Z0 (plogp b p) (plogp BE p).
Proof using V.
  unfold plogp. eapply Neg_bind; [apply Neg_logs|]. intros w v [-> ->]. apply Neg_ok. unfold dot.
  replace (combine p (@nil R)) with (@nil (R * R)) by (destruct p; reflexivity). cbn. split; lra.
Qed.
Ltac nsame := apply Neg_same; intros.
Lemma Neg_locals l : Neg Zl (let* ls := mapM (log_base b) l in Ok (map Ropp ls)) (let* ls := mapM (log_base BE) l in Ok (map Ropp ls)).
Proof using V. eapply Neg_bind; [apply Neg_logs|]. intros w v [-> ->]. apply Neg_ok. constructor. Qed.

Lemma Neg_entropy_discrete i : Neg Z0 (entropy_discrete b i) (entropy_discrete BE i).
Proof using V. unfold entropy_discrete. nsame. apply Neg_plogp. Qed.
Lemma Neg_local_discrete i : Neg Zl (local_discrete b i) (local_discrete BE i).
Proof using V. unfold local_discrete. nsame. unfold discrete_local. nsame. apply Neg_locals. Qed.
Lemma Neg_value (m n : res R) : Neg Z0 m n -> Neg Z0 (rmap value_global (rmap VNum m)) (rmap value_global (rmap VNum n)).
Proof using. intros H. eapply (Neg_rmap (fun w v => exists x y, w = VNum x /\ v = VNum y /\ Z0 x y)).
  - eapply Neg_rmap; [exact H|]. intros w v Z. exists w, v. repeat split; apply Z.
  - intros w v (x & y & -> & -> & Z). exact Z.
Qed.
Lemma Neg_entropy_shrink i : Neg Z0 (entropy_of est_shrink b i) (entropy_of est_shrink BE i).
Proof using V. unfold entropy_of. nsame. unfold e_global. cbn [e_calc est_shrink]. apply Neg_value. unfold shrink_simple. nsame. apply Neg_plogp. Qed.
Lemma Neg_entropy_bayes al K i : Neg Z0 (entropy_of (est_bayes al K) b i) (entropy_of (est_bayes al K) BE i).
Proof using V. unfold entropy_of. nsame. unfold e_global. cbn [e_calc est_bayes]. apply Neg_value. unfold bayes_simple. nsame. apply Neg_plogp. Qed.

(** ** divergences *)
Lemma Neg_cross_sum up uq dp dq : Neg Z0 (cross_sum b up uq dp dq) (cross_sum BE up uq dp dq).
Proof using V.
  unfold cross_sum. eapply Neg_bind; [apply (Neg_mapM Never); intros; nsame; nsame; apply Neg_never, Neg_log|].
  intros w v N. apply never_nil in N. destruct N as [-> ->]. apply Neg_ok. cbn. split; lra.
Qed.
Lemma Neg_discrete_cross p q : Neg Z0 (discrete_cross b p q) (discrete_cross BE p q).
Proof using V. unfold discrete_cross. destruct (common _ _); [apply Neg_ok, Z0_zero|apply Neg_cross_sum]. Qed.
Lemma Neg_bayes_cross al K p q : Neg Z0 (bayes_cross al K b p q) (bayes_cross al K BE p q).
Proof using V. unfold bayes_cross. cbv zeta. nsame. nsame. nsame. nsame. destruct (common _ _); [apply Neg_ok, Z0_zero|apply Neg_cross_sum]. Qed.
Lemma Neg_cross_of cross p q : (forall p q, Neg Z0 (cross b p q) (cross BE p q)) -> Neg Z0 (cross_of cross b p q) (cross_of cross BE p q).
Proof using. intros F. unfold cross_of. nsame. nsame. apply F. Qed.
Lemma Neg_minus (m n m' n' : res R) : Neg Z0 m n -> Neg Z0 m' n' -> Neg Z0 (let* x := m in let* y := m' in Ok (x - y)) (let* x := n in let* y := n' in Ok (x - y)).
Proof using. intros F1 F2. eapply Neg_bind; [exact F1|]. intros w v [-> ->]. eapply Neg_bind; [exact F2|]. intros w v [-> ->]. apply Neg_ok. split; lra. Qed.
Lemma Neg_kld_of cross simple p q : (forall p q, Neg Z0 (cross b p q) (cross BE p q)) -> (forall p, Neg Z0 (simple b p) (simple BE p)) ->
  Neg Z0 (kld_of cross simple b p q) (kld_of cross simple BE p q).
Proof using. intros F G. unfold kld_of. apply Neg_minus; [apply Neg_cross_of, F|]. unfold simple_of. nsame. apply G. Qed.
Lemma Neg_jsd_of {K} `{EqDec K} (ds : list (list (K * R))) hs hs' : Zl hs hs' -> Neg Z0 (jsd_of b ds hs) (jsd_of BE ds hs').
Proof using V.
  intros Z. unfold jsd_of. pose proof (Zl_sum _ _ Z) as [S1 S2]. destruct Z as [|w v l l' Z1 Z2]; [apply Neg_raise|].
  eapply Neg_bind; [apply Neg_plogp|]. intros x y [-> ->]. apply Neg_ok. rewrite S1, S2. unfold Rdiv. split; ring.
Qed.
Lemma Neg_jsd_discrete vars : Neg Z0 (jsd_discrete b vars) (jsd_discrete BE vars).
Proof using V. unfold jsd_discrete. nsame. eapply Neg_bind; [apply (Neg_mapM Z0); intros; apply Neg_plogp|]. intros w v Z. apply Neg_jsd_of, Z. Qed.
Lemma Neg_jsd_probs probs vars : Neg Z0 (jsd_probs probs b vars) (jsd_probs probs BE vars).
Proof using V.
  unfold jsd_probs. nsame. eapply Neg_bind; [apply (Neg_mapM Z0); intros; nsame; apply Neg_plogp|]. intros w v Z. nsame. apply Neg_jsd_of, Z.
Qed.

(** ** mutual information *)
Lemma Neg_mi vars : Neg Z0 (mi_global b None vars) (mi_global BE None vars).
Proof using V.
  assert (O : forall vars, Neg Z0 (mi_global_nd_int b None vars) (mi_global_nd_int BE None vars)).
  { clear vars. intros vars. unfold mi_global_nd_int. nsame. cbv zeta. destruct (existsb _ _); [apply Neg_ok, Z0_zero|].
    eapply Neg_bind; [apply (Neg_mapM Never); intros; unfold mi_term; nsame; apply Neg_never, Neg_log|].
    intros w v N. apply never_nil in N. destruct N as [-> ->]. apply Neg_ok. split; reflexivity. }
  unfold mi_global. destruct (forallb is_1d vars).
  - destruct vars as [|x [|y [|z vars]]]; try apply O. unfold mi_global_2d_int. nsame. cbv zeta. destruct (_ || _)%bool; [apply Neg_ok, Z0_zero|].
    eapply Neg_bind; [apply (Neg_mapM Never); intros; nsame; apply Neg_never, Neg_log|].
    intros w v N. apply never_nil in N. destruct N as [-> ->]. apply Neg_ok. unfold sumR. cbn. unfold Rmax. destruct (Rle_dec 0 0); split; reflexivity.
  - unfold mi_global_nd_other. nsame. cbv zeta.
    eapply Neg_bind; [apply (Neg_mapM Never); intros; nsame; nsame; nsame; apply Neg_never, Neg_log|].
    intros w v N. apply never_nil in N. destruct N as [-> ->]. cbn. apply Neg_ok, Z0_zero.
Qed.
Lemma Neg_mi_local vars : Neg Zl (mi_local b None vars) (mi_local BE None vars).
Proof using V.
  unfold mi_local. nsame. cbv zeta. destruct (existsb _ _); [apply Neg_ok, Zl_zeros|].
  eapply Neg_bind; [apply (Neg_mapM Never); intros; nsame; nsame; apply Neg_never, Neg_log|].
  intros w v N. apply never_nil in N. destruct N as [-> ->]. apply Neg_ok. constructor.
Qed.
Lemma Neg_cmi vars c : Neg Z0 (cmi_global b None vars c) (cmi_global BE None vars c).
Proof using V.
  unfold cmi_global. destruct c; [|apply Neg_raise]. nsame. cbv zeta. destruct (existsb _ _); [apply Neg_ok, Z0_zero|].
  eapply Neg_bind; [apply (Neg_mapM Never); intros; nsame; apply Neg_never, Neg_log|].
  intros w v N. apply never_nil in N. destruct N as [-> ->]. apply Neg_ok. split; reflexivity.
Qed.
Lemma Neg_cmi_local vars c : Neg Zl (cmi_local b None vars c) (cmi_local BE None vars c).
Proof using V.
  unfold cmi_local. cbv zeta. nsame. destruct (existsb _ _); [apply Neg_ok, Zl_zeros|].
  eapply Neg_bind; [apply (Neg_mapM Never); intros; nsame; nsame; nsame; apply Neg_never, Neg_log|].
  intros w v N. apply never_nil in N. destruct N as [-> ->]. apply Neg_ok. constructor.
Qed.
Lemma Neg_te_form sh dh df : Neg Z0 (te_form b None sh dh df) (te_form BE None sh dh df).
Proof using V. unfold te_form. nsame. apply Neg_cmi. Qed.
Lemma Neg_te_form_local sh dh df : Neg Zl (te_form_local b None sh dh df) (te_form_local BE None sh dh df).
Proof using V. unfold te_form_local. nsame. apply Neg_cmi_local. Qed.
Lemma Neg_cte_form sh dh df ch : Neg Z0 (cte_form b None sh dh df ch) (cte_form BE None sh dh df ch).
Proof using V. unfold cte_form. nsame. apply Neg_cmi. Qed.
Lemma Neg_cte_form_local sh dh df ch : Neg Zl (cte_form_local b None sh dh df ch) (cte_form_local BE None sh dh df ch).
Proof using V. unfold cte_form_local. nsame. apply Neg_cmi_local. Qed.

(** ** ordinal *)
Section Ordinal.
Context {T : Type} `{Cmp T} (k : kind T) (d s : Z).
Lemma Neg_ord_simple xs : Neg (fun w v => Z0 (fst w) (fst v) /\ snd w = snd v) (ord_simple k b xs d s) (ord_simple k BE xs d s).
Proof using V.
  unfold ord_simple. destruct (d =? 1)%Z; [apply Neg_ok; repeat split|]. cbv zeta. destruct (_ =? _)%Z; [apply Neg_ok; repeat split|].
  nsame. eapply Neg_bind; [apply Neg_plogp|]. intros w v Z. apply Neg_ok. split; [exact Z|reflexivity].
Qed.
Lemma Neg_entropy_ordinal xs : Neg Z0 (entropy_ordinal k b xs d s) (entropy_ordinal k BE xs d s).
Proof using V. unfold entropy_ordinal. nsame. eapply Neg_rmap; [apply Neg_ord_simple|]. intros w v [Z _]. exact Z. Qed.
Lemma Neg_joint_ordinal cols : Neg Z0 (joint_entropy_ordinal k b cols d s) (joint_entropy_ordinal k BE cols d s).
Proof using V.
  unfold joint_entropy_ordinal. destruct cols; [apply Neg_raise|]. destruct (existsb _ _); [apply Neg_raise|]. nsame. nsame. nsame. nsame. apply Neg_plogp.
Qed.
Lemma Neg_cross_ordinal p q : Neg Z0 (cross_entropy_ordinal k b p q d s) (cross_entropy_ordinal k BE p q d s).
Proof using V. unfold cross_entropy_ordinal. nsame. nsame. nsame. nsame. nsame. apply Neg_discrete_cross. Qed.
Lemma Neg_kld_ordinal p q : Neg Z0 (kld_ordinal k b p q d s) (kld_ordinal k BE p q d s).
Proof using V. unfold kld_ordinal. apply Neg_minus; [apply Neg_cross_ordinal|apply Neg_entropy_ordinal]. Qed.
Lemma Neg_jsd_ordinal vars : Neg Z0 (jsd_ordinal k b vars d s) (jsd_ordinal k BE vars d s).
Proof using V.
  unfold jsd_ordinal. nsame. eapply Neg_bind; [apply Neg_mapM; intros; apply Neg_ord_simple|]. intros w v F.
  match goal with |- Neg _ (jsd_of _ ?m1 _) (jsd_of _ ?m2 _) => replace m2 with m1 end.
  - apply Neg_jsd_of. clear - F. induction F as [|x y l l' [Z _] F IH]; constructor; assumption.
  - clear - F. induction F as [|x y l l' [_ E] F IH]; [reflexivity|]. cbn [map]. f_equal; [|exact IH]. destruct x as [x1 x2], y as [y1 y2]. cbn [snd] in *. subst. reflexivity.
Qed.
Lemma Neg_mi_ordinal o vars : Neg Z0 (mi_ordinal k b o vars d s) (mi_ordinal k BE o vars d s).
Proof using V. unfold mi_ordinal. nsame. nsame. nsame. destruct (d =? 1)%Z; [apply Neg_ok, Z0_zero|apply Neg_mi]. Qed.
Lemma Neg_cmi_ordinal vars c : Neg Z0 (cmi_ordinal k b vars c d s) (cmi_ordinal k BE vars c d s).
Proof using V.
  unfold cmi_ordinal. destruct vars as [|x [|y vars]]; try apply Neg_raise. destruct (_ || _)%bool; [apply Neg_raise|].
  nsame. nsame. nsame. destruct (d =? 1)%Z; [apply Neg_ok, Z0_zero|apply Neg_cmi].
Qed.
Lemma Neg_te_ordinal x y l kk st rnd : Neg Z0 (te_ordinal k b x y d l kk st rnd) (te_ordinal k BE x y d l kk st rnd).
Proof using V.
  unfold te_ordinal. destruct st; [|apply Neg_raise]. repeat (match goal with |- Neg _ (if ?c then _ else _) _ => destruct c; [apply Neg_raise|] end).
  nsame. nsame. nsame. destruct a1 as [[? ?] ?]. apply Neg_te_form.
Qed.
Lemma Neg_cte_ordinal x y c l kk m st : Neg Z0 (cte_ordinal k b x y c d l kk m st) (cte_ordinal k BE x y c d l kk m st).
Proof using V.
  unfold cte_ordinal. destruct st; [|apply Neg_raise]. repeat (match goal with |- Neg _ (if ?c then _ else _) _ => destruct c; [apply Neg_raise|] end).
  nsame. nsame. nsame. nsame. destruct a2 as [[[? ?] ?] ?]. apply Neg_cte_form.
Qed.
End Ordinal.
End Negative.
