(** C101: data arguments of (conditional) mutual information: number of variables, lengths, offset. *)
From Coq Require Import Reals Lra Lia List ZArith Arith Bool.
From Verif Require Import Res RSum Spec SpecBase MBase MData MMI MTE MGeneric MNsb MComb MCont MKern MKnn MFam MOrd Ord PBase PropsShift PropsObjC PropsTight.
Import ListNotations.
Local Open Scope R_scope.

(** ** Specification *)
(** what a mutual-information constructor accepts: at least two variables of one length; a shift only between two *)
Definition mi_acceptable (lens : list nat) (offset : option Z) : Prop :=
  (2 <= length lens)%nat /\ (forall n m, In n lens -> In m lens -> n = m) /\
  exists o, offset = Some o /\ (o = 0%Z \/ length lens = 2%nat).
Definition raises {A} (r : res A) : Prop := exists e, r = Raise e.

(** the approaches *)
Definition symbol_mi (b : base) (c : est) (E : nsb_env) (Kg : option Z) (und : R) (o : option Z) (vars : list arr) : list (res value) :=
  [rmap VNum (mi_discrete b o vars); rmap VNum (mi_mm b o vars); rmap VArr (mi_discrete_local b o vars); rmap VArr (mi_mm_local b o vars);
   MGeneric.gen_mi c b o vars; ansb_mi und b o vars; nsb_mi E Kg b o vars].
Definition numeric_mi (E : kenv) (N : nenv) (k : kargs) (a : nargs) (e : eargs) (noise : R) (o : option Z) (nm : bool) (vars : list farr) : list (res R) :=
  [kernel_mi E k o nm vars; ksg_mi N a o nm vars; fam_mi Renyi N e noise o nm vars; fam_mi Tsallis N e noise o nm vars].

(** ** Mutual information *)
Lemma all_same_spec {A} (len : A -> nat) d vars : vars <> [] ->
  (forallb (fun a => Nat.eqb (len a) (len (hd d vars))) vars = true <-> forall n m, In n (map len vars) -> In m (map len vars) -> n = m).
Proof.
  intros NE. rewrite forallb_forall. split.
  - intros F n m Hn Hm. apply in_map_iff in Hn, Hm. destruct Hn as (x & <- & Hx), Hm as (y & <- & Hy).
    apply F in Hx, Hy. apply Nat.eqb_eq in Hx, Hy. congruence.
  - intros F x Hx. apply Nat.eqb_eq. apply F; apply in_map; [exact Hx|]. destruct vars; [congruence|left; reflexivity].
Qed.
Lemma mi_init_spec o vars :
  (mi_acceptable (map arr_len vars) o -> exists vs, mi_init o vars = Ok vs) /\
  (~ mi_acceptable (map arr_len vars) o -> refused (mi_init o vars)).
Proof.
  unfold mi_init, mi_acceptable, refused. rewrite map_length.
  destruct (Nat.ltb_spec (length vars) 2) as [L|L].
  { split; [intros (H & _); lia|auto]. }
  assert (NE : vars <> []) by (intros ->; simpl in L; lia).
  pose proof (all_same_spec arr_len (A1 []) vars NE) as S0.
  destruct (Nat.ltb 2 (length vars) && negb (match o with None => true | Some o => Z.eqb o 0 end)) eqn:G.
  { apply andb_prop in G. destruct G as [G1 G2]. apply Nat.ltb_lt in G1. destruct o as [z|]; [|discriminate G2].
    apply negb_true_iff, Z.eqb_neq in G2. split; [|auto]. intros (_ & _ & q & E & [->|Q]); [injection E as ->; congruence|lia]. }
  destruct (forallb _ vars) eqn:F; cbn [negb].
  - destruct o as [z|].
    + split; [intros _; destruct (0 <? z)%Z; [eauto|]; destruct (z <? 0)%Z; eauto|].
      intros NA. exfalso. apply NA. split; [exact L|]. split; [apply S0; reflexivity|]. exists z. split; [reflexivity|].
      apply andb_false_iff in G. destruct G as [G|G]; [apply Nat.ltb_ge in G; right; lia|].
      apply negb_false_iff, Z.eqb_eq in G. auto.
    + split; [intros (_ & _ & q & E & _); discriminate E|auto].
  - split; [|auto]. intros (_ & Q & _). apply S0 in Q. discriminate Q.
Qed.

Theorem C101_mi_refused_symbols : forall b c E Kg und o vars, ~ mi_acceptable (map arr_len vars) o ->
  List.Forall refused (symbol_mi b c E Kg und o vars).
Proof.
  intros b c E Kg und o vars NA. apply mi_init_spec in NA.
  unfold symbol_mi, mi_discrete, mi_mm, mi_discrete_local, mi_mm_local, MGeneric.gen_mi, ansb_mi, nsb_mi.
  repeat (apply List.Forall_cons || apply List.Forall_nil); destruct NA as [-> | ->]; cbn [bind rmap]; unfold refused; auto.
Qed.
Print Assumptions C101_mi_refused_symbols.

Lemma fmi_init_refuses o nm vars : ~ mi_acceptable (map flen vars) o -> refused (fmi_init o nm vars).
Proof.
  unfold fmi_init, mi_acceptable, refused. rewrite map_length.
  destruct (Nat.ltb_spec (length vars) 2) as [L|L]; [auto|].
  assert (NE : vars <> []) by (intros ->; simpl in L; lia).
  pose proof (all_same_spec flen (F1 []) vars NE) as S0.
  destruct (Nat.ltb 2 (length vars) && negb (match o with None => true | Some o => Z.eqb o 0 end)) eqn:G; [auto|].
  destruct (forallb _ vars) eqn:F; cbn [negb]; [|auto].
  destruct o as [z|]; [|auto]. intros NA. exfalso. apply NA. split; [exact L|]. split; [apply S0; reflexivity|].
  exists z. split; [reflexivity|]. apply andb_false_iff in G. destruct G as [G|G]; [apply Nat.ltb_ge in G; right; lia|].
  apply negb_false_iff, Z.eqb_eq in G. auto.
Qed.
Theorem C101_mi_refused_numeric : forall E N k a e noise o nm vars, ~ mi_acceptable (map flen vars) o ->
  List.Forall refused (numeric_mi E N k a e noise o nm vars).
Proof.
  intros E N k a e noise o nm vars NA. apply (fmi_init_refuses o nm) in NA.
  unfold numeric_mi, kernel_mi, kernel_mi_local, ksg_mi, ksg_mi_local, fam_mi.
  repeat (apply List.Forall_cons || apply List.Forall_nil); destruct NA as [-> | ->]; cbn [bind]; unfold refused; auto.
Qed.

(** ... and the ordinal approach, whose offset is an integer *)
Theorem C101_mi_refused_ordinal : forall {T} `{Cmp T} (k : kind T) b o (vars : list (list T)) d s, ~ mi_acceptable (map (@length T) vars) (Some o) ->
  mi_ordinal k b o vars d s = Raise ValueError.
Proof.
  intros T C k b o vars d s. unfold mi_acceptable. rewrite map_length. intros NA. unfold mi_ordinal, ord_mi_init.
  destruct (Nat.ltb_spec (length vars) 2) as [L|L]; [reflexivity|].
  assert (NE : vars <> []) by (intros ->; simpl in L; lia).
  pose proof (all_same_spec (@length T) [] vars NE) as S0.
  destruct (Nat.ltb 2 (length vars) && negb (Z.eqb o 0)) eqn:G; [reflexivity|].
  destruct (forallb _ vars) eqn:F; cbn [negb]; [|reflexivity].
  exfalso. apply NA. split; [exact L|]. split; [apply S0; reflexivity|].
  exists o. split; [reflexivity|]. apply andb_false_iff in G. destruct G as [G|G]; [apply Nat.ltb_ge in G; right; lia|].
  apply negb_false_iff, Z.eqb_eq in G. auto.
Qed.

(** ** Conditional mutual information *)
Definition symbol_cmi (b : base) (c : est) (E : nsb_env) (Kg : option Z) (und : R) (vars : list arr) (cond : arr) : list (res value) :=
  [rmap VNum (cmi_discrete b vars (RArr cond)); rmap VNum (cmi_mm b vars cond); rmap VArr (cmi_discrete_local b vars (RArr cond));
   rmap VArr (cmi_mm_local b vars cond); MGeneric.gen_cmi c b vars cond; ansb_cmi und b vars cond; nsb_cmi E Kg b vars cond].
Definition numeric_cmi (E : kenv) (N : nenv) (k : kargs) (a : nargs) (e : eargs) (noise : R) (o : option Z) (nm : bool) (vars : list farr) (cond : farr) : list (res R) :=
  [kernel_cmi E k o nm vars cond; ksg_cmi N a o nm vars cond; fam_cmi Renyi N e noise o nm vars cond; fam_cmi Tsallis N e noise o nm vars cond].
(** at least two variables, and the variables and the condition have one length *)
Definition cmi_acceptable (lens : list nat) (clen : nat) : Prop := (2 <= length lens)%nat /\ forall n, In n lens -> n = clen.
Definition gives_nothing {A} (r : res A) : Prop := forall v, r <> Ok v.

Lemma not_all_len {A} (len : A -> nat) vars clen : (exists x, In x vars /\ len x <> clen) \/ (forall x, In x vars -> len x = clen).
Proof.
  induction vars as [|x r [(y & Hy & N)|IH]]; [right; intros x []|left; exists y; split; [right|]; assumption|].
  destruct (Nat.eq_dec (len x) clen) as [E|N]; [right; intros y [<-|Hy]; auto|left; exists x; split; [left; reflexivity|exact N]].
Qed.
Lemma unacceptable {A} (len : A -> nat) vars clen : ~ cmi_acceptable (map len vars) clen ->
  (length vars < 2)%nat \/ exists x, In x vars /\ len x <> clen.
Proof.
  intros NA. destruct (not_all_len len vars clen) as [X|X]; [auto|]. left. destruct (Nat.lt_ge_cases (length vars) 2) as [L|L]; [exact L|].
  exfalso. apply NA. split; [rewrite map_length; exact L|]. intros n Hn. apply in_map_iff in Hn. destruct Hn as (x & <- & Hx). auto.
Qed.
Lemma stack_uneven {A} (len : A -> nat) d vars cond : (exists x, In x vars /\ len x <> len cond) ->
  forallb (fun a => Nat.eqb (len a) (len (hd d (vars ++ [cond])))) (vars ++ [cond]) = false.
Proof.
  intros (x & Hx & N). destruct (forallb _ _) eqn:F; [|reflexivity]. exfalso. rewrite forallb_forall in F.
  assert (Hx' : In x (vars ++ [cond])) by (apply in_or_app; auto).
  assert (Hc : In cond (vars ++ [cond])) by (apply in_or_app; right; left; reflexivity).
  apply F in Hx', Hc. apply Nat.eqb_eq in Hx', Hc. congruence.
Qed.
Lemma cmi_init_few vars n : (length vars < 2)%nat -> cmi_init vars n = Raise IndexError.
Proof. destruct vars as [|x [|y r]]; cbn [length]; intros L; [reflexivity|reflexivity|lia]. Qed.
Lemma cmi_init_raises vars n : cmi_init vars n = Ok tt \/ cmi_init vars n = Raise ValueError \/ cmi_init vars n = Raise IndexError.
Proof. unfold cmi_init. destruct vars as [|x [|y r]]; auto. destruct (_ || _); auto. Qed.
Lemma reduce_total i : exists z, reduce_joint_space (RArr i) = Ok z /\ length z = arr_len i.
Proof. destruct i as [xs|rs]; cbn; eexists; (split; [reflexivity|]); [reflexivity|apply PBase.reduce_rows_length]. Qed.
Lemma make_finite i : make_data i <> NonFinite.
Proof.
  assert (F : forall xs, from_data xs <> NonFinite) by (intros xs; unfold from_data, post_init; repeat (match goal with |- context [if ?c then _ else _] => destruct c end); discriminate).
  assert (G : forall r, reduce_joint_space r <> NonFinite).
  { intros r. unfold reduce_joint_space. destruct r as [|[xs|rs]|cols]; try discriminate. unfold column_stack. destruct cols; [discriminate|]. destruct (forallb _ _); discriminate. }
  destruct i as [[xs|rs]|cols]; cbn [make_data]; [apply F| |destruct (existsb _ cols); [discriminate|]].
  - destruct (reduce_joint_space _) eqn:E; cbn [bind]; [apply F|discriminate|exfalso; exact (G _ E)].
  - destruct (reduce_joint_space _) eqn:E; cbn [bind]; [apply F|discriminate|exfalso; exact (G _ E)].
Qed.
Lemma mapM_finite {A B} (f : A -> res B) l : (forall x, f x <> NonFinite) -> mapM f l <> NonFinite.
Proof.
  intros F. induction l as [|x l IH]; cbn [mapM]; [discriminate|]. destruct (f x) eqn:E; cbn [bind]; [|discriminate|exfalso; apply (F _ E)].
  destruct (mapM f l); cbn [bind]; [discriminate|discriminate|congruence].
Qed.
Lemma gen_uneven c b vars cond : (exists x, In x vars /\ arr_len x <> arr_len cond) -> raises (MGeneric.gen_cmi c b vars cond).
Proof.
  intros U. unfold MGeneric.gen_cmi, from_entropies, raises. destruct (cmi_init_raises vars (arr_len cond)) as [->|[->| ->]]; cbn [bind]; eauto.
  destruct (mapM make_data (map _ vars)) eqn:E; cbn [bind]; [|eauto|exfalso; apply (mapM_finite make_data _ make_finite E)].
  cbn [mapM]. assert (X : make_data (ETuple (vars ++ [cond])) = Raise ValueError); [|rewrite X; cbn [bind]; eauto].
  cbn [make_data]. destruct (existsb _ _) eqn:F; [reflexivity|]. exfalso.
  pose proof (stack_uneven arr_len (A1 []) vars cond U) as S0. destruct (vars ++ [cond]) as [|a0 r0] eqn:EV; [destruct vars; discriminate EV|]. cbn [hd] in S0.
  assert (K : forallb (fun a : arr => Nat.eqb (arr_len a) (arr_len a0)) (a0 :: r0) = true); [|congruence].
  apply forallb_forall. intros x Hx. destruct (Nat.eqb (arr_len x) (arr_len a0)) eqn:Q; [reflexivity|]. exfalso.
  assert (Y : existsb (fun c0 : arr => negb (Nat.eqb (arr_len c0) (arr_len a0))) (a0 :: r0) = true) by (apply existsb_exists; exists x; rewrite Q; auto). congruence.
Qed.

Theorem C101_cmi_refused_symbols : forall b c E Kg und vars cond, ~ cmi_acceptable (map arr_len vars) (arr_len cond) ->
  List.Forall raises (symbol_cmi b c E Kg und vars cond).
Proof.
  intros b c E Kg und vars cond NA. apply unacceptable in NA. unfold symbol_cmi.
  assert (Q : forall b', List.Forall raises [rmap VNum (let* _ := cmi_init vars (arr_len cond) in cmi_global b b' vars cond); rmap VArr (let* _ := cmi_init vars (arr_len cond) in cmi_local b b' vars cond)] /\
     forall z, length z = arr_len cond -> List.Forall raises [rmap VNum (let* _ := cmi_init vars (length z) in cmi_global b b' vars (A1 z)); rmap VArr (let* _ := cmi_init vars (length z) in cmi_local b b' vars (A1 z))]).
  { intros b'. assert (W : forall c', arr_len c' = arr_len cond -> List.Forall raises [rmap VNum (let* _ := cmi_init vars (arr_len cond) in cmi_global b b' vars c'); rmap VArr (let* _ := cmi_init vars (arr_len cond) in cmi_local b b' vars c')]).
    { intros c' LC. destruct NA as [L|U].
      - rewrite (cmi_init_few vars _ L). unfold raises. (repeat (apply List.Forall_cons || apply List.Forall_nil)); cbn [rmap bind]; eauto.
      - rewrite <- LC in U. pose proof (stack_uneven arr_len (A1 []) vars c' U) as S0.
        destruct (cmi_init_raises vars (arr_len cond)) as [->|[->| ->]]; cbn [bind]; unfold cmi_global, cmi_local, coo_of; rewrite ?S0; cbn [bind]; unfold raises; (repeat (apply List.Forall_cons || apply List.Forall_nil)); cbn [rmap bind]; eauto; exists ValueError; destruct c'; reflexivity. }
    split; [apply W; reflexivity|]. intros z Lz. specialize (W (A1 z) Lz). rewrite Lz. exact W. }
  destruct (reduce_total cond) as (z & Rz & Lz).
  unfold cmi_discrete, cmi_discrete_local, cmi_mm, cmi_mm_local. rewrite Rz. cbn [bind].
  destruct (Q None) as [_ Q1]. specialize (Q1 z Lz). destruct (Q (Some b)) as [Q2 _].
  inversion Q1 as [|? ? A1' A2' e1]; subst. inversion A2' as [|? ? A3' _ e2]; subst.
  inversion Q2 as [|? ? B1' B2' e3]; subst. inversion B2' as [|? ? B3' _ e4]; subst.
  assert (G : forall c, raises (MGeneric.gen_cmi c b vars cond)).
  { intros c0. destruct NA as [L|U]; [unfold MGeneric.gen_cmi; rewrite (cmi_init_few vars _ L); exists IndexError; reflexivity|apply gen_uneven; exact U]. }
  repeat (apply List.Forall_cons || apply List.Forall_nil); try assumption; [apply G| |]; unfold ansb_cmi, nsb_cmi;
    (destruct (cmi_init_raises vars (arr_len cond)) as [->|[->| ->]]; cbn [bind]; [|eexists; reflexivity|eexists; reflexivity]).
  - destruct (Rlt_dec und 0); [eexists; reflexivity|apply G].
  - destruct (nsb_K_ok Kg); [apply G|eexists; reflexivity].
Qed.
Print Assumptions C101_cmi_refused_symbols.

(** *** Numeric approaches: no number (an exception, or for normalised data possibly nan) *)
Lemma fcmi_lens nm vars cond vs c : fcmi_init nm vars cond = Ok (vs, c) -> map (@length pt) vs = map flen vars /\ length c = flen cond.
Proof.
  unfold fcmi_init. destruct vars as [|x [|y r]]; try discriminate. set (V := x :: y :: r).
  destruct (_ || _); [discriminate|]. destruct nm.
  - destruct (existsb _ _); [discriminate|]. destruct (mapM norm_any V) as [ws|e|] eqn:M; try discriminate. cbn [bind].
    destruct (norm_any cond) as [w|e|] eqn:C; try discriminate. cbn [bind]. intros E. injection E as <- <-.
    rewrite rows2d_len. split; [|exact (norm_any_len _ _ C)]. clear -M. revert ws M. induction V as [|v V IH]; cbn [mapM]; intros ws M; [injection M as <-; reflexivity|].
    destruct (norm_any v) as [v'|e|] eqn:N; try discriminate. cbn [bind] in M. destruct (mapM norm_any V) as [ws'|e|]; try discriminate. injection M as <-.
    cbn [map]. rewrite rows2d_len, (norm_any_len _ _ N). f_equal. apply IH. reflexivity.
  - intros E. assert (EV : vs = map rows2d V) by congruence. assert (EC : c = rows2d cond) by congruence. rewrite EV, EC, map_map, rows2d_len. split; [|reflexivity]. apply map_ext. apply rows2d_len.
Qed.
Lemma fcmi_few nm vars cond : (length vars < 2)%nat -> fcmi_init nm vars cond = Raise IndexError.
Proof. destruct vars as [|x [|y r]]; cbn [length]; intros L; [reflexivity|reflexivity|lia]. Qed.
Lemma stack_raises vs c : (exists x, In x vs /\ length x <> length c) -> cstack (vs ++ [c]) = Raise ValueError.
Proof.
  intros U. pose proof (stack_uneven (@length pt) [] vs c U) as S0. unfold cstack. destruct (vs ++ [c]) as [|a r] eqn:E; [reflexivity|]. cbn [hd] in S0. rewrite S0. reflexivity.
Qed.
Lemma lens_uneven {A B} (la : A -> nat) (lb : B -> nat) vs ws n : map la vs = map lb ws -> (exists x, In x ws /\ lb x <> n) -> exists x, In x vs /\ la x <> n.
Proof.
  intros M (x & Hx & N). assert (K : In (lb x) (map la vs)) by (rewrite M; apply in_map; exact Hx).
  apply in_map_iff in K. destruct K as (y & Ey & Hy). exists y. split; [exact Hy|congruence].
Qed.
Lemma upd_length {A} (f : A -> A) l : forall j, length (MKnn.upd j f l) = length l.
Proof. induction l as [|x l IH]; intros [|j]; cbn; auto. Qed.
Lemma noise_rows_len lvl z v : forall pos, length (noise_rows lvl z pos v) = length v.
Proof. induction v as [|p v IH]; intros pos; cbn; [reflexivity|rewrite IH; reflexivity]. Qed.
Lemma noise_row_vars_len lvl z j data : forall pos, map (@length pt) (fst (noise_row_vars lvl z j pos data)) = map (@length pt) data.
Proof.
  induction data as [|v vs IH]; intros pos; cbn [noise_row_vars]; [reflexivity|].
  specialize (IH (pos + length (nth j v []))%nat). destruct (noise_row_vars lvl z j _ vs) as [vs' pos']. cbn [fst map] in *. rewrite upd_length, IH. reflexivity.
Qed.
Lemma cmi_noise_len lvl z js : forall pos data c, map (@length pt) (fst (cmi_noise lvl z js pos data c)) = map (@length pt) data /\ length (snd (cmi_noise lvl z js pos data c)) = length c.
Proof.
  induction js as [|j js IH]; intros pos data c; cbn [cmi_noise]; [split; reflexivity|].
  pose proof (noise_row_vars_len lvl z j data pos) as L. destruct (noise_row_vars lvl z j pos data) as [d' p']. cbn [fst] in L.
  destruct (IH (p' + size c)%nat d' (noise_rows lvl z p' c)) as [I1 I2]. rewrite I1, I2, L, noise_rows_len. split; reflexivity.
Qed.
Lemma noise_vars_len lvl z vs : forall pos, map (@length pt) (noise_vars lvl z pos vs) = map (@length pt) vs.
Proof. induction vs as [|v vs IH]; intros pos; cbn; [reflexivity|rewrite IH, noise_rows_len; reflexivity]. Qed.
Lemma gives_bind {A B} (r : res A) (f : A -> res B) : (forall x, r = Ok x -> gives_nothing (f x)) -> gives_nothing (bind r f).
Proof. intros F. destruct r as [x|e|]; cbn [bind]; [apply F; reflexivity|intros v; discriminate|intros v; discriminate]. Qed.
Lemma mapM_In_none {A B} (f : A -> res B) l x : In x l -> gives_nothing (f x) -> gives_nothing (mapM f l).
Proof.
  intros Hx N. induction l as [|y l IH]; [destruct Hx|]. cbn [mapM]. destruct Hx as [->|Hx].
  - apply gives_bind. intros v Ev. exfalso. exact (N v Ev).
  - apply gives_bind. intros v _. apply gives_bind. intros w Ew. exfalso. exact (IH Hx w Ew).
Qed.

Lemma fam_uneven H vs c : (exists x, In x vs /\ length x <> length c) -> gives_nothing (MFam.gen_cmi H vs c).
Proof.
  intros U. unfold MFam.gen_cmi. apply gives_bind. intros w Ew. exfalso. revert Ew.
  apply (mapM_In_none construct _ (FTuple (map F2 (vs ++ [c])))); [apply in_or_app; right; left; reflexivity|].
  unfold construct. apply gives_bind. intros r Er. exfalso. cbn [make_rows] in Er. destruct (existsb _ _); [discriminate|].
  assert (EM : map rows2d (map F2 (vs ++ [c])) = vs ++ [c]) by (rewrite map_map; apply map_id).
  rewrite EM, (stack_raises vs c U) in Er. discriminate.
Qed.
Theorem C101_cmi_no_number_numeric : forall E N k a e noise o nm vars cond, ~ cmi_acceptable (map flen vars) (flen cond) ->
  List.Forall gives_nothing (numeric_cmi E N k a e noise o nm vars cond).
Proof.
  intros E N k a e noise o nm vars cond NA. apply unacceptable in NA. unfold numeric_cmi.
  assert (Q : forall vs c, fcmi_init nm vars cond = Ok (vs, c) -> exists x, In x vs /\ length x <> length c).
  { intros vs c I0. destruct NA as [L|U]; [rewrite (fcmi_few _ _ _ L) in I0; discriminate|].
    destruct (fcmi_lens _ _ _ _ _ I0) as [M C]. rewrite C. exact (lens_uneven (@length pt) flen vs vars _ M U). }
  assert (FAM : forall f, gives_nothing (fam_cmi f N e noise o nm vars cond)).
  { intros f. unfold fam_cmi. apply gives_bind. intros _ _. apply gives_bind. intros [vs c] I0. apply gives_bind. intros _ _. apply gives_bind. intros data W. cbn [fst snd] in *.
    apply fam_uneven. destruct (Q _ _ I0) as (x & Hx & Nx).
    assert (M : map (@length pt) data = map (@length pt) (vs ++ [c])).
    { unfold with_noise in W. destruct (Req_EM_T noise 0); [injection W as <-; reflexivity|]. destruct (Rlt_dec noise 0); [discriminate|].
      injection W as <-. apply noise_vars_len. }
    assert (LD : length data = S (length vs)) by (rewrite <- (map_length (@length pt) data), M, map_length, app_length; cbn; lia).
    destruct data as [|d0 d1] using rev_ind; [discriminate LD|]. clear IHd1.
    rewrite app_length in LD. cbn [length] in LD. rewrite last_last, firstn_app, firstn_all2 by lia.
    replace (length vs - length d1)%nat with 0%nat by lia. cbn [firstn]. rewrite app_nil_r.
    rewrite !map_app in M. cbn [map] in M. apply app_inj_tail in M. destruct M as [M1 M2]. rewrite M2.
    apply (lens_uneven (@length pt) (@length pt) d1 vs (length c) M1). eauto. }
  repeat (apply List.Forall_cons || apply List.Forall_nil).
  - unfold kernel_cmi. apply gives_bind. intros ls. unfold kernel_cmi_local. destruct (match o with None | Some 0%Z => Ok tt | _ => Raise ValueError end); cbn [bind]; try discriminate.
    destruct (fcmi_init nm vars cond) as [[vs c]|e0|] eqn:I0; cbn [bind]; try discriminate. unfold kernel_cmi_form. cbn [fst snd].
    rewrite (stack_raises vs c (Q _ _ eq_refl)). discriminate.
  - unfold ksg_cmi. apply gives_bind. intros ls. unfold ksg_cmi_local. destruct (match o with None | Some 0%Z => Ok tt | _ => Raise ValueError end); cbn [bind]; try discriminate.
    destruct (fcmi_init nm vars cond) as [[vs c]|e0|] eqn:I0; cbn [bind]; try discriminate. destruct (negb (id_ok a)); [discriminate|]. cbn [fst snd].
    destruct (cmi_with_noise (n_noise a) (draw N) vs c) as [[vs' c']|e0|] eqn:W; cbn [bind]; try discriminate.
    destruct (int_k a) as [kk|e0|]; cbn [bind]; try discriminate. unfold ksg_cmi_form. cbn [fst snd]. rewrite (stack_raises vs' c'); [discriminate|].
    destruct (Q _ _ eq_refl) as (x & Hx & Nx). unfold cmi_with_noise in W.
    destruct (Req_EM_T (n_noise a) 0); [injection W as <- <-; eauto|]. destruct (Rlt_dec (n_noise a) 0); [discriminate|]. destruct (existsb _ vs); [discriminate|].
    match type of W with Ok (cmi_noise ?l ?z ?js ?p ?d ?c0) = _ => destruct (cmi_noise_len l z js p d c0) as [L1 L2]; replace (cmi_noise l z js p d c0) with (vs', c') in L1, L2 by congruence end.
    cbn [fst snd] in L1, L2. rewrite L2. apply (lens_uneven (@length pt) (@length pt) vs' vs (length c) L1). eauto.
  - apply FAM.
  - apply FAM.
Qed.
Print Assumptions C101_cmi_no_number_numeric.

(** *** Ordinal approach: no number for an embedding of at least two points ... *)
Lemma ord_symbols_len {T} `{Cmp T} (k : kind T) (xs : list T) d s z : ord_symbols k xs d s = Ok z ->
  (1 <= d)%Z /\ (1 <= s)%Z /\ Z.of_nat (length z) = (Z.of_nat (length xs) - (d - 1) * s)%Z.
Proof.
  unfold ord_symbols, symbolize. destruct (d <? 1)%Z eqn:D; [discriminate|]. destruct (s <? 1)%Z eqn:S1; [discriminate|].
  destruct (Z.of_nat (length xs) - (d - 1) * s <? 1)%Z eqn:W; [discriminate|].
  apply Z.ltb_ge in D, S1, W. destruct xs as [|x0 r] eqn:EX; [discriminate|]. rewrite <- EX in *. cbn [bind reduce_joint_space]. intros E. injection E as <-.
  split; [exact D|]. split; [exact S1|]. rewrite reduce_rows_length. unfold rows_Z. rewrite !map_length. unfold SpecOrd.windows. rewrite map_length, seq_length. unfold SpecOrd.nwindows.
  rewrite Nat2Z.inj_sub.
  - rewrite Nat2Z.inj_mul, Nat2Z.inj_sub by lia. rewrite !Z2Nat.id by lia. reflexivity.
  - apply Nat2Z.inj_le. rewrite Nat2Z.inj_mul, Nat2Z.inj_sub by lia. rewrite !Z2Nat.id by lia. lia.
Qed.
Theorem C101_cmi_no_number_ordinal : forall {T} `{Cmp T} (k : kind T) b (vars : list (list T)) cond d s, ~ cmi_acceptable (map (@length T) vars) (length cond) ->
  (d <> 1)%Z -> gives_nothing (cmi_ordinal k b vars cond d s).
Proof.
  intros T C k b vars cond d s NA D. apply unacceptable in NA. unfold cmi_ordinal. destruct vars as [|x [|y r]] eqn:EV; try (intros v; discriminate).
  destruct NA as [L|U]; [cbn [length] in L; lia|]. rewrite <- EV in *.
  destruct (_ || _); [intros v; discriminate|]. apply gives_bind. intros _ _. apply gives_bind. intros syms M. apply gives_bind. intros z Z0.
  destruct (Z.eqb_spec d 1) as [E|_]; [congruence|]. unfold cmi_global, coo_of.
  assert (F : exists a, In a (map A1 syms) /\ arr_len a <> arr_len (A1 z)).
  { destruct U as (v & Hv & N). clear EV. revert syms M. induction vars as [|w vars IH]; [destruct Hv|]. cbn [mapM]. intros syms M.
    destruct (ord_symbols k w d s) as [u|e|] eqn:U0; try discriminate. cbn [bind] in M. destruct (mapM _ vars) as [us|e|] eqn:M0; try discriminate. injection M as <-.
    destruct Hv as [->|Hv].
    - exists (A1 u). split; [left; reflexivity|]. cbn [arr_len]. apply ord_symbols_len in U0, Z0. lia.
    - destruct (IH Hv us eq_refl) as (a & Ha & Na). exists a. split; [right; exact Ha|exact Na]. }
  rewrite (stack_uneven arr_len (A1 []) (map A1 syms) (A1 z) F). intros v. discriminate.
Qed.
(** ... but with an embedding of one point the length of a third variable is never looked at: the result is 0 *)
Theorem C101_cmi_ordinal_length_exception : exists vars cond,
  ~ cmi_acceptable (map (@length Z) vars) (length cond) /\ cmi_ordinal (mkKind (@argsort_stable Z _) true) BE vars cond 1 1 = Ok 0.
Proof.
  exists [[1; 2; 3]; [3; 1; 2]; [1; 2]]%Z, [1; 1; 2]%Z. split; [|reflexivity].
  intros [_ F]. specialize (F 2%nat). cbn in F. discriminate (F (or_intror (or_intror (or_introl eq_refl)))).
Qed.
Print Assumptions C101_cmi_no_number_ordinal.
Print Assumptions C101_mi_refused_ordinal.

Example C101_example : ~ cmi_acceptable (map arr_len [A1 [1; 2; 3]; A1 [3; 1; 2]; A1 [1; 2]]%Z) (arr_len (A1 [1; 1; 2]%Z)) /\
  ~ mi_acceptable (map arr_len [A1 [1; 2; 3]; A1 [3; 1; 2]; A1 [1; 2; 2]]%Z) (Some 1%Z) /\
  mi_acceptable (map arr_len [A1 [1; 2; 3]; A1 [3; 1; 2]]%Z) (Some 1%Z).
Proof.
  cbn. split; [|split].
  - intros [_ F]. specialize (F 2%nat). cbn in F. discriminate (F (or_intror (or_intror (or_introl eq_refl)))).
  - intros (_ & _ & o & E & [->|L]); [discriminate E|discriminate L].
  - split; [cbn; lia|]. split; [|exists 1%Z; split; [reflexivity|right; reflexivity]]. intros n m [<-|[<-|[]]] [<-|[<-|[]]]; reflexivity.
Qed.
