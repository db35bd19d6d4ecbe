(** Proofs: memory.  Copying, constructors and the noise loops. *)
From Coq Require Import Reals List ZArith Arith Bool Lia Lra.
From Verif Require Import Res RSum Spec SpecBase MBase MTE MPct MNorm MEst MCont MKnn MFam MHeap SpecHeap PHeap.
Import ListNotations.
Local Open Scope R_scope.

Lemma seqp_ok {A B} (m : prog A) (f : A -> prog B) h h' a : m h = (h', Ok a) -> seqp m f h = f a h'.
Proof. intros E. unfold seqp. rewrite E. reflexivity. Qed.
Lemma seqp_raise {A B} (m : prog A) (f : A -> prog B) h h' e : m h = (h', Raise e) -> seqp m f h = (h', Raise e).
Proof. intros E. unfold seqp. rewrite E. reflexivity. Qed.
Lemma seqp_nf {A B} (m : prog A) (f : A -> prog B) h h' : m h = (h', NonFinite) -> seqp m f h = (h', NonFinite).
Proof. intros E. unfold seqp. rewrite E. reflexivity. Qed.
Lemma seqp_lift {A B} (r : res A) (f : A -> prog B) h :
  seqp (lift r) f h = match r with Ok a => f a h | Raise e => (h, Raise e) | NonFinite => (h, NonFinite) end.
Proof. destruct r; reflexivity. Qed.

(** programs that do not change memory at all *)
Definition quiet {A} (m : prog A) : Prop := forall h, fst (m h) = h.
Lemma quiet_lift {A} (r : res A) : quiet (lift r). Proof. intros h. reflexivity. Qed.
Lemma quiet_load a : quiet (load a). Proof. intros h. reflexivity. Qed.
Lemma quiet_seq {A B} (m : prog A) (f : A -> prog B) : quiet m -> (forall a, quiet (f a)) -> quiet (seqp m f).
Proof. intros Q F h. unfold seqp. specialize (Q h). destruct (m h) as [h' [a|e|]]; cbn in *; subst; auto. apply F. Qed.
Lemma quiet_forp {A B} (f : A -> prog B) l : (forall a, quiet (f a)) -> quiet (forp f l).
Proof. intros F. induction l; cbn; [apply quiet_lift|]. apply quiet_seq; [apply F|intros b]. apply quiet_seq; [exact IHl|intros c]. apply quiet_lift. Qed.
Lemma quiet_loop {A} (f : nat -> A -> prog nat) l pos : (forall p a, quiet (f p a)) -> quiet (loop f l pos).
Proof. intros F. revert pos. induction l as [|x l IH]; intros pos; cbn; [apply quiet_lift|]. apply quiet_seq; [apply F|intros b; apply IH]. Qed.
Lemma quiet_iadd lvl z pos b ps : lvl < 0 -> quiet (iadd_noise lvl z pos b ps).
Proof. intros N h. unfold iadd_noise. destruct (Rlt_dec lvl 0); [reflexivity|contradiction]. Qed.
Lemma quiet_all lvl z pos a : lvl < 0 -> quiet (iadd_all lvl z pos a).
Proof. intros N. apply quiet_iadd. exact N. Qed.
Lemma quiet_row lvl z pos a j : lvl < 0 -> quiet (iadd_row lvl z pos a j).
Proof. intros N. unfold iadd_row. destruct a; destruct nth_error; try apply quiet_lift; apply quiet_iadd; exact N. Qed.
Lemma quiet_if {A} {P Q : Prop} (b : {P} + {Q}) (m n : prog A) : quiet m -> quiet n -> quiet (if b then m else n).
Proof. intros. destruct b; assumption. Qed.

(** reading back *)
Lemma forp_load l h : forp load l h = (h, Ok (map (contents h) l)).
Proof.
  induction l as [|a l IH]; [reflexivity|]. cbn [forp map]. rewrite (seqp_ok _ _ h h (contents h a) eq_refl).
  rewrite (seqp_ok _ _ h h _ IH). reflexivity.
Qed.
Lemma st_contents h0 h l vs : st h0 h l vs -> map (contents h) l = vs.
Proof. intros (_ & F & _). induction F; cbn; [reflexivity|]. f_equal; [apply H|assumption]. Qed.

(** copying *)
Lemma copy_spec h0 h l vs a : st h0 h l vs -> exists h' b, copy a h = (h', Ok b) /\ ext h h' /\ st h0 h' (l ++ [b]) (vs ++ [contents h a]).
Proof. intros S. destruct (st_alloc h0 h l vs (contents h a) S) as (h' & b & E & X & S'). exists h', b. split; [|auto]. exact E. Qed.
Lemma fcopy_spec h0 h l vs a : st h0 h l vs ->
  exists h' b, (do w <- astype_float a; copy w) h = (h', Ok b) /\ ext h h' /\ st h0 h' (l ++ [b]) (vs ++ [contents h a]).
Proof.
  intros S. destruct (alloc_spec (contents h a) h) as (buf & w & E & NB & O).
  pose proof (st_ext _ _ _ _ _ S (ext_app h [buf])) as S1.
  destruct (copy_spec h0 (h ++ [buf]) l vs w S1) as (h' & b & E' & X & S'). exists h', b.
  assert (E1 : astype_float a h = (h ++ [buf], Ok w)) by exact E. rewrite (seqp_ok _ _ _ _ _ E1). split; [exact E'|]. split; [eapply ext_trans; [apply ext_app|exact X]|].
  destruct O as (_ & _ & _ & _ & O). rewrite O in S'. exact S'.
Qed.
Lemma forp_spec (f : nd -> prog nd) :
  (forall h0 h l vs a, st h0 h l vs -> exists h' b, f a h = (h', Ok b) /\ ext h h' /\ st h0 h' (l ++ [b]) (vs ++ [contents h a])) ->
  forall xs h0 h l vs, st h0 h l vs -> Forall (nd_ok h) xs ->
  exists h' l', forp f xs h = (h', Ok l') /\ ext h h' /\ length l' = length xs /\ st h0 h' (l ++ l') (vs ++ map (contents h) xs).
Proof.
  intros FS. induction xs as [|a xs IH]; intros h0 h l vs S OK.
  - exists h, []. cbn. rewrite !app_nil_r. split; [reflexivity|]. split; [apply ext_refl|auto].
  - inversion OK as [|? ? Ka Kx]; subst. destruct (FS h0 h l vs a S) as (h1 & b & E1 & X1 & S1).
    destruct (IH h0 h1 (l ++ [b]) (vs ++ [contents h a]) S1) as (h2 & l2 & E2 & X2 & L2 & S2).
    { eapply Forall_impl; [|exact Kx]. intros y Hy. eapply nd_ok_ext; eassumption. }
    exists h2, (b :: l2). cbn [forp]. rewrite (seqp_ok _ _ _ _ _ E1), (seqp_ok _ _ _ _ _ E2). split; [reflexivity|].
    split; [eapply ext_trans; eassumption|]. split; [cbn; congruence|]. rewrite <- !app_assoc in S2. cbn [app] in S2. cbn [map].
    erewrite (map_ext_in (contents h) (contents h1)); [exact S2|]. intros y Hy. symmetry. apply contents_ext; [|exact X1].
    rewrite Forall_forall in Kx. auto.
Qed.

(** ** Views *)
Lemma contents_2d h a : contents h (v_2d a) = F2 (rows2d (contents h a)).
Proof. destruct a; cbn; [|reflexivity]. rewrite !map_map. reflexivity. Qed.
Lemma v_2d_ok h a : nd_ok h a -> nd_ok h (v_2d a). Proof. destruct a; exact (fun x => x). Qed.
Lemma contents_skip h k a : contents h (v_skip k a) = fskip k (contents h a).
Proof. destruct a; cbn; rewrite skipn_map; reflexivity. Qed.
Lemma contents_drop h k a : contents h (v_drop_last k a) = fdrop_last k (contents h a).
Proof. destruct a; cbn; rewrite map_length, firstn_map; reflexivity. Qed.
Lemma rows2d_upto h n a : rows2d (contents h (v_upto n a)) = fupto n (rows2d (contents h a)).
Proof. destruct a; cbn; unfold fupto; rewrite !map_length, !firstn_map; reflexivity. Qed.
Lemma rows2d_upto_or h n a : rows2d (contents h (v_upto_or n a)) = fupto_or n (rows2d (contents h a)).
Proof. unfold fupto_or. destruct a; cbn; unfold fupto_or, fupto; destruct (n =? 0)%Z; rewrite ?map_length, ?firstn_map; reflexivity. Qed.
Lemma rows2d_from h n a : rows2d (contents h (v_from n a)) = ffrom n (rows2d (contents h a)).
Proof. destruct a; cbn; unfold ffrom; rewrite !map_length, !skipn_map; reflexivity. Qed.
Lemma nd_len_rows h a : nd_len a = length (rows2d (contents h a)).
Proof. destruct a; cbn; rewrite !map_length; reflexivity. Qed.
Lemma is_2d_contents h a : is_2d a = match contents h a with F2 _ => true | F1 _ => false end.
Proof. destruct a; reflexivity. Qed.

(** ** Arguments *)
Lemma value_ext h h' x : valid h x -> ext h h' -> value_of h' x = value_of h x.
Proof. destruct x as [a|v]; cbn; [apply contents_ext|reflexivity]. Qed.
Lemma valid_ext h h' x : valid h x -> ext h h' -> valid h' x.
Proof. destruct x as [a|v]; cbn; [apply nd_ok_ext|auto]. Qed.
Lemma asarray_spec h x : valid h x -> exists h' a, asarray x h = (h', Ok a) /\ ext h h' /\ nd_ok h' a /\ contents h' a = value_of h x.
Proof.
  destruct x as [a|v]; cbn; intros V.
  - exists h, a. repeat split; auto. apply ext_refl.
  - destruct (alloc_spec v h) as (buf & a & E & NB & O). exists (h ++ [buf]), a. split; [exact E|]. split; [apply ext_app|]. split; apply O.
Qed.
Lemma forp_asarray xs h : Forall (valid h) xs ->
  exists h' l, forp asarray xs h = (h', Ok l) /\ ext h h' /\ Forall (nd_ok h') l /\ map (contents h') l = map (value_of h) xs.
Proof.
  revert h. induction xs as [|x xs IH]; intros h V.
  - exists h, []. split; [reflexivity|]. split; [apply ext_refl|]. split; [constructor|reflexivity].
  - inversion V as [|? ? Vx Vs]; subst. destruct (asarray_spec h x Vx) as (h1 & a & E1 & X1 & O1 & C1).
    destruct (IH h1) as (h2 & l & E2 & X2 & O2 & C2). { eapply Forall_impl; [|exact Vs]. intros y Hy. eapply valid_ext; eassumption. }
    exists h2, (a :: l). cbn [forp]. rewrite (seqp_ok _ _ _ _ _ E1), (seqp_ok _ _ _ _ _ E2). split; [reflexivity|].
    split; [eapply ext_trans; eassumption|]. split; [constructor; [eapply nd_ok_ext; eassumption|exact O2]|]. cbn [map]. f_equal.
    + rewrite (contents_ext _ _ _ O1 X2). exact C1.
    + rewrite C2. apply map_ext_in. intros y Hy. apply value_ext; [|exact X1]. rewrite Forall_forall in Vs. auto.
Qed.

(** ** Constructors.  [meets h p r Q]: [p] ends in an extended memory; a value satisfies [Q], an exception is that of [r] *)
Definition meets {A B} (h : heap) (m : prog A) (r : res B) (Q : heap -> A -> B -> Prop) : Prop :=
  exists h' x, m h = (h', x) /\ ext h h' /\
    match x, r with
    | Ok a, Ok b => Q h' a b
    | Raise e, Raise e' => e = e'
    | NonFinite, NonFinite => True
    | _, _ => False
    end.
Lemma meets_ok {A B} h (m : prog A) (b : B) (Q : heap -> A -> B -> Prop) h' a : m h = (h', Ok a) -> ext h h' -> Q h' a b -> meets h m (Ok b) Q.
Proof. intros. exists h', (Ok a). auto. Qed.
Lemma meets_raise {A B} h (m : prog A) (Q : heap -> A -> B -> Prop) h' e : m h = (h', Raise e) -> ext h h' -> meets h m (Raise e) Q.
Proof. intros. exists h', (Raise e). auto. Qed.
Lemma meets_bind {A B C D} h (m : prog A) (r : res C) (Q : heap -> A -> C -> Prop) (f : A -> prog B) (g : C -> res D) Q' :
  meets h m r Q -> (forall h' a c, ext h h' -> Q h' a c -> meets h' (f a) (g c) Q') -> meets h (seqp m f) (let* c := r in g c) Q'.
Proof.
  intros (h' & x & E & X & K) F. destruct x as [a|e|], r as [c|e'|]; cbn in K; try contradiction.
  - destruct (F h' a c X K) as (h2 & y & E2 & X2 & K2). exists h2, y. rewrite (seqp_ok _ _ _ _ _ E). split; [exact E2|].
    split; [eapply ext_trans; eassumption|exact K2].
  - subst e'. exists h', (Raise e). rewrite (seqp_raise _ _ _ _ _ E). cbn. auto.
  - exists h', NonFinite. rewrite (seqp_nf _ _ _ _ E). split; [reflexivity|]. split; [exact X|constructor].
Qed.
Lemma meets_step {A B C} h (m : prog A) (f : A -> prog B) (r : res C) Q h1 a :
  m h = (h1, Ok a) -> ext h h1 -> meets h1 (f a) r Q -> meets h (seqp m f) r Q.
Proof.
  intros E X (h2 & y & E2 & X2 & K2). exists h2, y. rewrite (seqp_ok _ _ _ _ _ E). split; [exact E2|]. split; [eapply ext_trans; eassumption|exact K2].
Qed.
Lemma meets_lift {A} h (r : res A) (Q : heap -> A -> A -> Prop) : (forall a, Q h a a) -> meets h (lift r) r Q.
Proof. intros K. exists h, r. split; [reflexivity|]. split; [apply ext_refl|]. destruct r; auto. Qed.
Lemma meets_lift_raise {A B} h e (Q : heap -> A -> B -> Prop) : meets h (lift (Raise e)) (Raise e) Q.
Proof. apply meets_raise with h; [reflexivity|apply ext_refl]. Qed.
Lemma meets_lift_eq {A} h (r : res A) : meets h (lift r) r (fun _ a b => a = b).
Proof. apply meets_lift. reflexivity. Qed.

Lemma p_norm_spec h a : nd_ok h a -> meets h (p_norm a) (norm_any (contents h a)) (fun h' b w => nd_ok h' b /\ contents h' b = w).
Proof.
  intros _. unfold p_norm. unfold meets. rewrite (seqp_ok _ _ h h (contents h a) eq_refl), seqp_lift.
  destruct (norm_any (contents h a)) as [w|e|].
  - destruct (alloc_spec w h) as (buf & b & E & NB & O). exists (h ++ [buf]), (Ok b). split; [exact E|]. split; [apply ext_app|]. split; apply O.
  - exists h, (Raise e). split; [reflexivity|]. split; [apply ext_refl|reflexivity].
  - exists h, NonFinite. split; [reflexivity|]. split; [apply ext_refl|constructor].
Qed.
Lemma meets_imp {A B} h (m : prog A) (r : res B) (Q Q' : heap -> A -> B -> Prop) :
  meets h m r Q -> (forall h' a b, ext h h' -> Q h' a b -> Q' h' a b) -> meets h m r Q'.
Proof. intros (h' & x & E & X & K) F. exists h', x. split; [exact E|]. split; [exact X|]. destruct x, r; auto. Qed.
Lemma forp_norm xs h : Forall (nd_ok h) xs ->
  meets h (forp p_norm xs) (mapM norm_any (map (contents h) xs)) (fun h' l vs => Forall (nd_ok h') l /\ map (contents h') l = vs).
Proof.
  revert h. induction xs as [|x xs IH]; intros h V.
  - apply meets_ok with h []; [reflexivity|apply ext_refl|]. split; [constructor|reflexivity].
  - inversion V as [|? ? Vx Vs]; subst. cbn [forp map mapM].
    eapply meets_bind; [apply p_norm_spec; exact Vx|]. cbn beta. intros h1 a w X1 [O1 C1].
    assert (EQ : map (contents h) xs = map (contents h1) xs).
    { apply map_ext_in. intros y Hy. symmetry. apply contents_ext; [|exact X1]. rewrite Forall_forall in Vs. auto. }
    rewrite EQ. eapply meets_bind; [apply IH; eapply Forall_impl; [|exact Vs]; intros y Hy; eapply nd_ok_ext; eassumption|].
    cbn beta. intros h2 l vs X2 [O2 C2]. apply meets_ok with h2 (a :: l); [reflexivity|apply ext_refl|].
    split; [constructor; [eapply nd_ok_ext; eassumption|exact O2]|]. cbn [map]. f_equal; [|exact C2]. rewrite (contents_ext _ _ _ O1 X2). exact C1.
Qed.

Lemma forallb_len h l : forallb (fun a => Nat.eqb (nd_len a) (nd_len (hd (N1 0 []) l))) l =
  forallb (fun a => Nat.eqb (flen a) (flen (hd (F1 []) (map (contents h) l)))) (map (contents h) l).
Proof.
  assert (EH : nd_len (hd (N1 0 []) l) = flen (hd (F1 []) (map (contents h) l))) by (destruct l; [reflexivity|cbn; apply nd_len_contents]).
  rewrite EH. clear EH. generalize (flen (hd (F1 []) (map (contents h) l))). intros n. induction l as [|a l IH]; [reflexivity|]. cbn. rewrite IH, (nd_len_contents h). reflexivity.
Qed.
Lemma existsb_2d h l : existsb is_2d l = existsb (fun a => match a with F2 _ => true | F1 _ => false end) (map (contents h) l).
Proof. induction l as [|a l IH]; [reflexivity|]. cbn. rewrite IH, (is_2d_contents h). reflexivity. Qed.
Lemma norm_any_norm1 vs : existsb (fun a => match a with F2 _ => true | F1 _ => false end) vs = false -> mapM norm_any vs = mapM norm1 vs.
Proof.
  induction vs as [|v vs IH]; [reflexivity|]. cbn [existsb mapM]. intros H. apply orb_false_iff in H. destruct H as [H1 H2]. rewrite IH by exact H2.
  destruct v; [reflexivity|discriminate].
Qed.
Lemma nth_contents h l i : nth i (map (contents h) l) (F1 []) = contents h (nth i l (N1 0 [])).
Proof. change (F1 []) with (contents h (N1 0 [])). apply map_nth. Qed.

Definition rows_in (h' : heap) (l : list nd) (rows : list (list pt)) : Prop :=
  Forall (nd_ok h') l /\ map (fun a => rows2d (contents h' a)) l = rows.

Lemma p_mi_init_spec o n xs h : Forall (valid h) xs -> meets h (p_mi_init o n xs) (fmi_init o n (map (value_of h) xs)) rows_in.
Proof.
  intros V. unfold p_mi_init, fmi_init. rewrite map_length. destruct (Nat.ltb (length xs) 2) eqn:L2; [apply meets_lift_raise|].
  destruct (Nat.ltb 2 (length xs) && _); [apply meets_lift_raise|].
  destruct (forp_asarray xs h V) as (h1 & l & E1 & X1 & O1 & C1).
  assert (LL : length l = length xs) by (apply (f_equal (@length farr)) in C1; rewrite !map_length in C1; exact C1).
  eapply meets_step; [exact E1|exact X1|]. rewrite <- C1, (forallb_len h1).
  destruct (forallb _ _); cbn [negb]; [|apply meets_lift_raise]. destruct o as [o|]; [|apply meets_lift_raise].
  set (vl := if Z.ltb 0 o then _ else _).
  set (vv := if Z.ltb 0 o then _ else _).
  assert (EV : map (contents h1) vl = vv).
  { unfold vl, vv. rewrite !nth_contents. destruct (Z.ltb 0 o); [cbn; rewrite contents_drop, contents_skip; reflexivity|].
    destruct (Z.ltb o 0); [cbn; rewrite contents_drop, contents_skip; reflexivity|reflexivity]. }
  assert (OV : Forall (nd_ok h1) vl).
  { apply Nat.ltb_ge in L2. assert (K0 : nd_ok h1 (nth 0 l (N1 0 [])) /\ nd_ok h1 (nth 1 l (N1 0 []))).
    { rewrite Forall_forall in O1. split; apply O1; apply nth_In; lia. }
    destruct K0 as [K0 K1]. assert (VS : forall k a, nd_ok h1 a -> nd_ok h1 (v_skip k a)) by (intros k [? ?|? ?] K; exact K).
    assert (VD : forall k a, nd_ok h1 a -> nd_ok h1 (v_drop_last k a)) by (intros k [? ?|? ?] K; exact K).
    unfold vl. destruct (Z.ltb 0 o); [repeat constructor; auto|]. destruct (Z.ltb o 0); [repeat constructor; auto|exact O1]. }
  clearbody vl vv. subst vv. destruct n.
  - rewrite (existsb_2d h1). destruct (existsb _ (map (contents h1) vl)) eqn:E2; [exists h1, (Raise ValueError); split; [reflexivity|]; split; [apply ext_refl|reflexivity]|].
    rewrite <- (norm_any_norm1 _ E2). eapply meets_bind; [apply forp_norm; exact OV|]. cbn beta. intros h2 l2 vs2 X2 [O2 C2].
    apply meets_ok with h2 l2; [reflexivity|apply ext_refl|]. split; [exact O2|]. rewrite <- C2, map_map. reflexivity.
  - apply meets_ok with h1 vl; [reflexivity|apply ext_refl|]. split; [exact OV|]. rewrite map_map. reflexivity.
Qed.

Lemma p_cmi_init_spec o n xs c h : Forall (valid h) xs -> valid h c ->
  meets h (p_cmi_init o n xs c)
    (let* _ := match o with None | Some 0%Z => Ok tt | _ => Raise ValueError end in fcmi_init n (map (value_of h) xs) (value_of h c))
    (fun h' l rows => rows_in h' (fst l) (fst rows) /\ nd_ok h' (snd l) /\ rows2d (contents h' (snd l)) = snd rows).
Proof.
  intros V VC. unfold p_cmi_init. eapply meets_bind; [apply meets_lift_eq|]. cbn beta. intros h' u u' X' <-.
  assert (V' : Forall (valid h') xs) by (eapply Forall_impl; [|exact V]; intros y Hy; eapply valid_ext; eassumption).
  assert (VC' : valid h' c) by (eapply valid_ext; eassumption).
  assert (EX : map (value_of h) xs = map (value_of h') xs).
  { apply map_ext_in. intros y Hy. symmetry. apply value_ext; [|exact X']. rewrite Forall_forall in V. auto. }
  rewrite EX, <- (value_ext h h' c VC X'). clear V VC EX X' u. revert V' VC'. generalize h'. clear h h'. intros h V VC.
  destruct xs as [|x [|y xs]]; [apply meets_lift_raise|apply meets_lift_raise|].
  set (args := x :: y :: xs) in *.
  destruct (forp_asarray args h V) as (h1 & l & E1 & X1 & O1 & C1).
  destruct (asarray_spec h1 c (valid_ext _ _ _ VC X1)) as (h2 & c2 & E2 & X2 & O2 & C2).
  rewrite (value_ext h h1 c VC X1) in C2.
  assert (C1' : map (contents h2) l = map (value_of h) args).
  { rewrite <- C1. apply map_ext_in. intros z Hz. apply contents_ext; [|exact X2]. rewrite Forall_forall in O1. auto. }
  assert (O1' : Forall (nd_ok h2) l) by (eapply Forall_impl; [|exact O1]; intros z Hz; eapply nd_ok_ext; eassumption).
  unfold meets. rewrite (seqp_ok _ _ _ _ _ E1), (seqp_ok _ _ _ _ _ E2).
  enough (G : meets h2 (let x := nth 0 l (N1 0 []) in let y := nth 1 l (N1 0 []) in
      if negb (Nat.eqb (nd_len x) (nd_len y)) || negb (Nat.eqb (nd_len x) (nd_len c2)) then lift (Raise ValueError)
      else if n then
        if existsb is_2d [x; y; c2] then lift (Raise ValueError)
        else do vs <- forp p_norm l; do c' <- p_norm c2; lift (Ok (vs, c'))
      else lift (Ok (l, c2))) (fcmi_init n (map (value_of h) args) (value_of h c))
      (fun h' l rows => rows_in h' (fst l) (fst rows) /\ nd_ok h' (snd l) /\ rows2d (contents h' (snd l)) = snd rows)).
  { destruct G as (h3 & r & E3 & X3 & K3). exists h3, r. split; [exact E3|]. split; [|exact K3].
    eapply ext_trans; [exact X1|]. eapply ext_trans; eassumption. }
  rewrite <- C1', <- C2. destruct l as [|a [|b l]]; [discriminate C1|discriminate C1|]. cbn [nth map fcmi_init].
  rewrite !(nd_len_contents h2). destruct (_ || _); [apply meets_lift_raise|]. destruct n.
  - change [contents h2 a; contents h2 b; contents h2 c2] with (map (contents h2) [a; b; c2]). rewrite (existsb_2d h2).
    destruct (existsb _ _); [apply meets_lift_raise|].
    change (contents h2 a :: contents h2 b :: map (contents h2) l) with (map (contents h2) (a :: b :: l)).
    eapply meets_bind; [apply forp_norm; exact O1'|]. cbn beta. intros h3 l3 vs3 X3 [O3 C3].
    rewrite <- (contents_ext h2 h3 c2 O2 X3). eapply meets_bind; [apply p_norm_spec; eapply nd_ok_ext; eassumption|]. cbn beta. intros h4 c4 w X4 [O4 C4].
    apply meets_ok with h4 (l3, c4); [reflexivity|apply ext_refl|]. cbn [fst snd]. split; [|split; [exact O4|rewrite C4; reflexivity]].
    split; [eapply Forall_impl; [|exact O3]; intros z Hz; eapply nd_ok_ext; eassumption|].
    rewrite <- C3, map_map. apply map_ext_in. intros z Hz. f_equal. apply contents_ext; [|exact X4]. rewrite Forall_forall in O3. auto.
  - apply meets_ok with h2 (a :: b :: l, c2); [reflexivity|apply ext_refl|]. cbn [fst snd]. split; [|auto]. split; [exact O1'|].
    cbn [map]. rewrite map_map. reflexivity.
Qed.

Lemma p_te_init_spec s d p o st_ h : valid h s -> valid h d ->
  meets h (p_te_init s d p o st_) (fte_init (rows2d (value_of h s)) (rows2d (value_of h d)) p o st_)
    (fun h' sd rows => nd_ok h' (fst sd) /\ nd_ok h' (snd sd) /\ rows2d (contents h' (fst sd)) = fst rows /\ rows2d (contents h' (snd sd)) = snd rows).
Proof.
  intros VS VD. unfold p_te_init, fte_init. eapply meets_bind; [apply meets_lift_eq|]. cbn beta. intros h0 q q' X0 <-.
  rewrite <- (value_ext h h0 s VS X0), <- (value_ext h h0 d VD X0). apply (fun v => valid_ext _ _ _ v X0) in VS. apply (fun v => valid_ext _ _ _ v X0) in VD.
  clear X0. destruct (asarray_spec h0 s VS) as (h1 & a & E1 & X1 & O1 & C1).
  destruct (asarray_spec h1 d (valid_ext _ _ _ VD X1)) as (h2 & b & E2 & X2 & O2 & C2). rewrite (value_ext h0 h1 d VD X1) in C2.
  apply (fun e => eq_trans (contents_ext _ _ _ O1 e) C1) in X2 as C1'. pose proof (nd_ok_ext _ _ _ O1 X2) as O1'.
  rewrite <- C1', <- C2. unfold meets. rewrite (seqp_ok _ _ _ _ _ E1), (seqp_ok _ _ _ _ _ E2). rewrite !(nd_len_rows h2).
  assert (X : ext h0 h2) by (eapply ext_trans; eassumption).
  assert (VF : forall k a, nd_ok h2 a -> nd_ok h2 (v_from k a)) by (intros k [? ?|? ?] K; exact K).
  assert (VU : forall k a, nd_ok h2 a -> nd_ok h2 (v_upto_or k a)) by (intros k [? ?|? ?] K; exact K).
  destruct (negb _); [exists h2, (Raise ValueError); auto|].
  destruct q as [[p'|]|]; [|exists h2, (Raise ValueError); auto|exists h2, (Raise ValueError); auto].
  destruct (Z.eqb p' 0); [exists h2, (Ok (a, b)); auto 10|]. destruct st_ as [s'|]; [|exists h2, (Raise TypeError); auto].
  destruct (Z.ltb 0 p'); eexists h2, (Ok (_, _)); (split; [reflexivity|]); (split; [exact X|]); cbn [fst snd];
    rewrite rows2d_upto_or, rows2d_from; auto.
Qed.

Lemma p_cte_init_spec s d c p o h : valid h s -> valid h d -> valid h c ->
  meets h (p_cte_init s d c p o) (fcte_init (rows2d (value_of h s)) (rows2d (value_of h d)) (rows2d (value_of h c)) p o)
    (fun h' sdc _ => let '(a, b, e) := sdc in nd_ok h' a /\ nd_ok h' b /\ nd_ok h' e /\
       contents h' a = value_of h s /\ contents h' b = value_of h d /\ contents h' e = value_of h c).
Proof.
  intros VS VD VC. unfold p_cte_init, fcte_init. destruct (asarray_spec h s VS) as (h1 & a & E1 & X1 & O1 & C1).
  destruct (asarray_spec h1 d (valid_ext _ _ _ VD X1)) as (h2 & b & E2 & X2 & O2 & C2). rewrite (value_ext h h1 d VD X1) in C2.
  assert (X12 : ext h h2) by (eapply ext_trans; eassumption).
  destruct (asarray_spec h2 c (valid_ext _ _ _ VC X12)) as (h3 & e & E3 & X3 & O3 & C3). rewrite (value_ext h h2 c VC X12) in C3.
  assert (X23 : ext h1 h3) by (eapply ext_trans; eassumption). assert (X : ext h h3) by (eapply ext_trans; eassumption).
  pose proof (eq_trans (contents_ext _ _ _ O1 X23) C1) as C1'. pose proof (nd_ok_ext _ _ _ O1 X23) as O1'.
  pose proof (eq_trans (contents_ext _ _ _ O2 X3) C2) as C2'. pose proof (nd_ok_ext _ _ _ O2 X3) as O2'.
  unfold meets. rewrite (seqp_ok _ _ _ _ _ E1), (seqp_ok _ _ _ _ _ E2), (seqp_ok _ _ _ _ _ E3). rewrite <- C1', <- C2', <- C3, !(nd_len_rows h3).
  destruct (_ || _); [exists h3, (Raise ValueError); auto|].
  destruct p as [[p'|]|]; [|exists h3, (Raise ValueError); auto|exists h3, (Raise ValueError); auto].
  destruct (_ || _); [exists h3, (Raise ValueError); auto|]. exists h3, (Ok (a, b, e)). auto 12.
Qed.
