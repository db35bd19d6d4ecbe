(** Property theorems completing C66 and C70: whatever the measure, the data and the other arguments - if the call succeeds
    for any parameters at all, then invalid kernel or KSG parameters make it raise. *)
From Coq Require Import Reals Lra Lia List ZArith Arith Bool.
From Verif Require Import Res RSum Spec SpecBase SpecGamma MBase MTE MPct MNorm MEst MCont MKern MKnn PropsLen PropsKern6.
Import ListNotations.
Local Open Scope R_scope.
Local Notation length := List.length.

(** [M] is a measure applied to fixed data, as a function of the estimator's parameters: it raises [e] for the parameters
    [a] whenever it returns a number for any parameters [a'] whatsoever - in particular it never returns one for [a] *)
Definition rejects {P} (M : P -> res R) (a : P) (e : exn) : Prop := forall a' v, M a' = Ok v -> M a = Raise e.

Lemma rejects_no_value {P} (M : P -> res R) a e v : rejects M a e -> M a <> Ok v.
Proof. intros H E. rewrite (H a v E) in E. discriminate E. Qed.

(** two computations that succeed or fail together *)
Inductive alike {A} : res A -> res A -> Prop :=
| al_ok x y : alike (Ok x) (Ok y)
| al_raise e : alike (Raise e) (Raise e)
| al_nan : alike NonFinite NonFinite.

Lemma bind_ok {A B} (r : res A) (f : A -> res B) v : bind r f = Ok v -> exists x, r = Ok x /\ f x = Ok v.
Proof. destruct r; cbn; intros E; try discriminate. eauto. Qed.
Lemma alike_ok {A} (r r' : res A) x : alike r r' -> r = Ok x -> exists y, r' = Ok y.
Proof. intros H E. destruct H; try discriminate. eauto. Qed.
Lemma alike_bind {A B} (r r' : res A) (f g : A -> res B) : alike r r' -> (forall x y, r = Ok x -> r' = Ok y -> alike (f x) (g y)) -> alike (bind r f) (bind r' g).
Proof. intros H F. destruct H; cbn; [apply F; reflexivity|constructor|constructor]. Qed.
Lemma alike_refl {A} (r : res A) : alike r r. Proof. destruct r; constructor. Qed.
Lemma alike_mapM {A B} (f g : A -> res B) l : (forall x, alike (f x) (g x)) -> alike (mapM f l) (mapM g l).
Proof.
  intros F. induction l as [|x l IH]; [constructor|]. cbn [mapM]. apply alike_bind; [apply F|]. intros y z _ _. apply alike_bind; [exact IH|]. intros. constructor.
Qed.

Lemma fgather_alike (u v : list pt) idx : length u = length v -> alike (fgather u idx) (fgather v idx).
Proof.
  intros L. unfold fgather, rmap.
  assert (G : alike (mapM (fun i => match nth_error u i with Some r => Ok r | None => Raise IndexError end) idx)
                    (mapM (fun i => match nth_error v i with Some r => Ok r | None => Raise IndexError end) idx)).
  { apply alike_mapM. intros i. destruct (nth_error u i) eqn:E1, (nth_error v i) eqn:E2; try constructor.
    - apply nth_error_None in E2. assert (H : nth_error u i <> None) by congruence. apply nth_error_Some in H. lia.
    - apply nth_error_None in E1. assert (H : nth_error v i <> None) by congruence. apply nth_error_Some in H. lia. }
  destruct G; constructor.
Qed.

Lemma fslices_alike s s' d d' l k st m rnd : length s = length s' -> length d = length d' ->
  alike (fslices s d l k st m rnd) (fslices s' d' l k st m rnd).
Proof.
  intros Ls Ld. unfold fslices. rewrite Ld. destruct rnd; try constructor.
  all: apply alike_bind; [apply alike_mapM; intros; apply fgather_alike, Ls|]; intros ? ? _ _;
    apply alike_bind; [apply alike_mapM; intros; apply fgather_alike, Ld|]; intros ? ? _ _;
    apply alike_bind; [apply alike_mapM; intros; apply fgather_alike, Ld|]; intros ? ? _ _; constructor.
Qed.

Lemma fte_spaces_alike s s' d d' l k st rnd : length s = length s' -> length d = length d' ->
  alike (fte_spaces s d l k st rnd) (fte_spaces s' d' l k st rnd).
Proof.
  intros Ls Ld. unfold fte_spaces. destruct (pos_int l), (pos_int k), (pos_int st); try constructor. rewrite Ls. destruct (Nat.leb _ _); [constructor|].
  apply alike_bind; [apply fslices_alike; assumption|]. intros [[[? ?] ?] ?] [[[? ?] ?] ?] _ _. constructor.
Qed.

Lemma fslices_bases s d l k st m rnd df dh sh bs : fslices s d l k st m rnd = Ok (df, dh, sh, bs) -> bs = arange m (length d) st.
Proof.
  unfold fslices. destruct rnd; try discriminate; intros E; apply bind_ok in E; destruct E as (? & _ & E); apply bind_ok in E; destruct E as (? & _ & E);
    apply bind_ok in E; destruct E as (? & _ & E); injection E as _ _ _ <-; reflexivity.
Qed.

Lemma fcte_spaces_alike s s' d d' c c' l k m st : length s = length s' -> length d = length d' -> length c = length c' ->
  alike (fcte_spaces s d c l k m st) (fcte_spaces s' d' c' l k m st).
Proof.
  intros Ls Ld Lc. unfold fcte_spaces. destruct (pos_int l), (pos_int k), (pos_int m), (pos_int st); try constructor. rewrite Ls. destruct (Nat.leb _ _); [constructor|].
  apply alike_bind; [apply fslices_alike; assumption|]. intros [[[df dh] sh] bs] [[[df' dh'] sh'] bs'] E E'.
  apply fslices_bases in E, E'. subst. rewrite Ld. apply alike_bind; [apply alike_mapM; intros; apply fgather_alike, Lc|]. intros. constructor.
Qed.

Lemma cstack_alike u v : map (@length pt) u = map (@length pt) v -> alike (cstack u) (cstack v).
Proof.
  intros L. unfold cstack. destruct u as [|x u], v as [|y v]; try discriminate L; [constructor|]. injection L as L0 L.
  assert (E : forallb (fun c => Nat.eqb (length c) (length x)) (x :: u) = forallb (fun c => Nat.eqb (length c) (length y)) (y :: v)).
  { rewrite L0. cbn [forallb]. rewrite L0. f_equal. clear x L0. revert v L. induction u as [|a u IH]; intros [|b v] L; try discriminate L; [reflexivity|].
    injection L as L1 L2. cbn [forallb]. rewrite L1, (IH v L2). reflexivity. }
  rewrite E. destruct (forallb _ (y :: v)); constructor.
Qed.

(** ** Kernel estimators (C66) *)
(** invalid parameters: the bandwidth is not a positive number, the kernel name is unknown, or the box kernel is given an
    invalid number of workers (anything but -1 and the positive numbers) *)
Definition invalid_kernel (a : kargs) : Prop :=
  bad_params a \/ (k_kern a = KBox /\ ((k_workers a < -1)%Z \/ k_workers a = 0%Z)).

Lemma kde_invalid E a data q : invalid_kernel a -> (forall l, q = Some l -> width data = width l) ->
  kde E data (k_bw a) q (k_kern a) (n_workers E a) = Raise ValueError.
Proof.
  intros [B|[K W]] Hq; [apply kde_bad; assumption|]. unfold kde, n_workers. destruct (k_bw a) as [h|]; [|reflexivity]. destruct (Rle_dec h 0); [reflexivity|].
  assert (EQ : (match q with None => Ok data | Some a0 => if Nat.eqb (width data) (width a0) then Ok a0 else Raise ValueError end) = Ok (match q with None => data | Some l => l end)).
  { destruct q as [l|]; [rewrite (Hq l eq_refl), Nat.eqb_refl|]; reflexivity. }
  rewrite EQ. cbn [bind]. rewrite K. destruct (Z.eqb_spec (k_workers a) (-1)) as [E1|N1]; [lia|].
  destruct (Z.leb_spec (k_workers a) 0); [|lia]. destruct (Z.eqb_spec (k_workers a) (-1)); [lia|]. reflexivity.
Qed.

Lemma kdens_invalid E a data : invalid_kernel a -> kdens E a data = Raise ValueError.
Proof. intros B. unfold kdens. apply kde_invalid; [exact B|discriminate]. Qed.

Lemma kde_ok_width E data bw q k w l v : kde E data bw q k w = Ok v -> q = Some l -> width data = width l.
Proof.
  intros E0 ->. unfold kde in E0. destruct bw; [|discriminate]. destruct (Rle_dec h 0); [discriminate|].
  destruct (Nat.eqb_spec (width data) (width l)); [assumption|discriminate].
Qed.

(** every kernel measure, every data set, every embedding: "this call works for some parameters" implies "these invalid ones
    raise ValueError" *)
Theorem C66_every_measure E a : invalid_kernel a ->
  (forall i, rejects (fun p => kernel_entropy E p i) a ValueError) /\
  (forall x y, rejects (fun p => kernel_cross_entropy E p x y) a ValueError) /\
  (forall x y, rejects (fun p => kernel_kld E p x y) a ValueError) /\
  (forall data, rejects (fun p => kernel_jsd E p data) a ValueError) /\
  (forall off nrm vars, rejects (fun p => kernel_mi E p off nrm vars) a ValueError) /\
  (forall off nrm vars cond, rejects (fun p => kernel_cmi E p off nrm vars cond) a ValueError) /\
  (forall s d ta rnd, rejects (fun p => kernel_te E p s d ta rnd) a ValueError) /\
  (forall s d c ta, rejects (fun p => kernel_cte E p s d c ta) a ValueError).
Proof.
  intros B.
  assert (EN : forall i, rejects (fun p => kernel_entropy E p i) a ValueError).
  { intros i a' v E0. unfold kernel_entropy, kernel_entropy_local in *. apply bind_ok in E0. destruct E0 as (ls & E0 & _). apply bind_ok in E0. destruct E0 as (rows & -> & _).
    cbn [bind]. rewrite kdens_invalid by exact B. reflexivity. }
  assert (XE : forall x y, rejects (fun p => kernel_cross_entropy E p x y) a ValueError).
  { intros x y a' v E0. unfold kernel_cross_entropy in *. apply bind_ok in E0. destruct E0 as (d & E0 & _).
    rewrite kde_invalid; [reflexivity|exact B|]. intros l El. eapply kde_ok_width; eassumption. }
  split; [exact EN|]. split; [exact XE|]. split.
  { intros x y a' v E0. unfold kernel_kld in *. apply bind_ok in E0. destruct E0 as (h & E0 & _). rewrite (XE x y a' h E0). reflexivity. }
  split.
  { intros data a' v E0. unfold kernel_jsd in *. apply bind_ok in E0. destruct E0 as (mix & -> & E0). cbn [bind]. apply bind_ok in E0. destruct E0 as (h & E0 & _).
    rewrite (EN (FArr mix) a' h E0). reflexivity. }
  split.
  { intros off nrm vars a' v E0. unfold kernel_mi, kernel_mi_local, kernel_mi_form in *. apply bind_ok in E0. destruct E0 as (ls & E0 & _). apply bind_ok in E0.
    destruct E0 as (vs & -> & E0). cbn [bind]. apply bind_ok in E0. destruct E0 as (j & -> & _). cbn [bind]. rewrite kdens_invalid by exact B. reflexivity. }
  split.
  { intros off nrm vars cond a' v E0. unfold kernel_cmi, kernel_cmi_local, kernel_cmi_form in *. apply bind_ok in E0. destruct E0 as (ls & E0 & _). apply bind_ok in E0.
    destruct E0 as (u & -> & E0). cbn [bind]. apply bind_ok in E0. destruct E0 as (vc & -> & E0). cbn [bind]. apply bind_ok in E0. destruct E0 as (j & -> & _).
    cbn [bind]. rewrite kdens_invalid by exact B. reflexivity. }
  split.
  { intros s d ta rnd a' v E0. unfold kernel_te, kernel_te_local, kernel_te_form in *. apply bind_ok in E0. destruct E0 as (ls & E0 & _). apply bind_ok in E0.
    destruct E0 as (sd & -> & E0). cbn [bind]. apply bind_ok in E0. destruct E0 as ([[[j dp] m1] m2] & -> & _). cbn [bind]. rewrite kdens_invalid by exact B. reflexivity. }
  { intros s d c ta a' v E0. unfold kernel_cte, kernel_cte_local, kernel_te_form in *. apply bind_ok in E0. destruct E0 as (ls & E0 & _). apply bind_ok in E0.
    destruct E0 as (sd & -> & E0). cbn [bind]. apply bind_ok in E0. destruct E0 as ([[[j dp] m1] m2] & -> & _). cbn [bind]. rewrite kdens_invalid by exact B. reflexivity. }
Qed.
Print Assumptions C66_every_measure.

(** ** KSG estimators (C70) *)
(** what makes the parameters invalid, and the exception the user sees; of several defects the first in this order counts:
    variant, noise level, type of k, Minkowski parameter or negative k, k = 0 *)
Definition ksg_error (a : nargs) : option exn :=
  if negb (Z.eqb (n_id a) 1 || Z.eqb (n_id a) 2) then Some ValueError
  else if Rlt_dec (n_noise a) 0 then Some ValueError
  else match n_k a with
       | NFloat => Some TypeError
       | NInt k =>
           if match n_p a with MInf => false | MP p => if Rlt_dec p 1 then true else false end then Some ValueError
           else if Z.ltb k 0 then Some ValueError
           else if Z.eqb k 0 then Some IndexError
           else None
       end.

Lemma kth_bad m tree k e : (forall p, m = MP p -> 1 <= p) /\ (0 <= k)%Z /\ e = IndexError /\ k = 0%Z \/
  ((exists p, m = MP p /\ p < 1) \/ (k < 0)%Z) /\ e = ValueError -> kth_query m tree (k + 1) = Raise e.
Proof.
  unfold kth_query, mink_ok. intros [(HP & _ & -> & ->)|([(p & -> & Hp)|Hk] & ->)].
  - destruct m as [|p]; [reflexivity|]. destruct (Rle_dec 1 p) as [_|N]; [reflexivity|]. exfalso. apply N, HP. reflexivity.
  - destruct (Rle_dec 1 p); [lra|]. reflexivity.
  - destruct (negb _); [reflexivity|]. destruct (Z.ltb_spec (k + 1) 1); [reflexivity|lia].
Qed.

(** the three places where invalid parameters show *)
Lemma ksg_error_cases a e : ksg_error a = Some e ->
  (id_ok a = false /\ e = ValueError) \/
  (id_ok a = true /\ n_noise a < 0 /\ e = ValueError) \/
  (id_ok a = true /\ 0 <= n_noise a /\ n_k a = NFloat /\ e = TypeError) \/
  (id_ok a = true /\ 0 <= n_noise a /\ exists k, n_k a = NInt k /\ forall tree, kth_query (n_p a) tree (k + 1) = Raise e).
Proof.
  unfold ksg_error, id_ok. destruct (Z.eqb (n_id a) 1 || Z.eqb (n_id a) 2); cbn [negb]; [|intros E; injection E as <-; left; split; reflexivity].
  destruct (Rlt_dec (n_noise a) 0) as [L|L]; [intros E; injection E as <-; right; left; split; [reflexivity|split; [exact L|reflexivity]]|]. apply Rnot_lt_le in L.
  destruct (n_k a) as [k|] eqn:K; [|intros E; injection E as <-; right; right; left; split; [reflexivity|split; [exact L|split; reflexivity]]].
  intros E. right. right. right. split; [reflexivity|]. split; [exact L|]. exists k. split; [reflexivity|]. intros tree. apply kth_bad.
  destruct (n_p a) as [|p].
  - destruct (Z.ltb_spec k 0); [injection E as <-; auto|]. destruct (Z.eqb_spec k 0); [|discriminate]. injection E as <-. left. repeat split; auto. discriminate.
  - destruct (Rlt_dec p 1); [injection E as <-; right; split; [left; eauto|reflexivity]|].
    destruct (Z.ltb_spec k 0); [injection E as <-; auto|]. destruct (Z.eqb_spec k 0); [|discriminate]. injection E as <-. left. repeat split; auto. intros q Q. injection Q as <-. lra.
Qed.

Lemma with_noise_ok lvl z vs : 0 <= lvl -> exists w, with_noise lvl z vs = Ok w /\ map (@length pt) w = map (@length pt) vs.
Proof.
  intros L. unfold with_noise. destruct (Req_EM_T lvl 0); [eauto|]. destruct (Rlt_dec lvl 0); [lra|]. eexists. split; [reflexivity|apply noise_vars_len].
Qed.
Lemma with_noise_neg lvl z vs : lvl < 0 -> with_noise lvl z vs = Raise ValueError.
Proof. intros L. unfold with_noise. destruct (Req_EM_T lvl 0); [lra|]. destruct (Rlt_dec lvl 0); [reflexivity|lra]. Qed.
Lemma with_noise_len lvl z vs w : with_noise lvl z vs = Ok w -> map (@length pt) w = map (@length pt) vs.
Proof.
  unfold with_noise. destruct (Req_EM_T lvl 0); [intros E; injection E as <-; reflexivity|]. destruct (Rlt_dec lvl 0); [discriminate|]. intros E; injection E as <-. apply noise_vars_len.
Qed.

Lemma ksg_mi_rejects E a e off nrm vars : ksg_error a = Some e -> rejects (fun p => ksg_mi E p off nrm vars) a e.
Proof.
  intros B a' v E0. unfold ksg_mi, ksg_mi_local in *. apply bind_ok in E0. destruct E0 as (ls & E0 & _). apply bind_ok in E0. destruct E0 as (vs & -> & E0). cbn [bind].
  destruct (id_ok a'); [|discriminate]. cbn [negb] in E0. apply bind_ok in E0. destruct E0 as (w' & W' & E0). apply bind_ok in E0. destruct E0 as (k' & _ & E0).
  unfold ksg_mi_form in E0. apply bind_ok in E0. destruct E0 as (j' & J' & _).
  destruct (ksg_error_cases a e B) as [(-> & ->)|[(-> & N & ->)|[(-> & N & K & ->)|(-> & N & k & K & Q)]]]; cbn [negb].
  - reflexivity.
  - rewrite with_noise_neg by exact N. reflexivity.
  - destruct (with_noise_ok (n_noise a) (draw E) vs N) as (w & -> & _). cbn [bind]. unfold int_k. rewrite K. reflexivity.
  - destruct (with_noise_ok (n_noise a) (draw E) vs N) as (w & -> & L). cbn [bind]. unfold int_k. rewrite K. cbn [bind]. unfold ksg_mi_form.
    destruct (alike_ok (cstack w') (cstack w) j') as (j & ->); [apply cstack_alike; rewrite (with_noise_len _ _ _ _ W'); symmetry; exact L|exact J'|].
    cbn [bind]. rewrite Q. reflexivity.
Qed.

Lemma cmi_noise_lens lvl z data cond dc : cmi_with_noise lvl z data cond = Ok dc -> map (@length pt) (fst dc) = map (@length pt) data /\ length (snd dc) = length cond.
Proof.
  unfold cmi_with_noise. destruct (Req_EM_T lvl 0); [intros E; injection E as <-; auto|]. destruct (Rlt_dec lvl 0); [discriminate|].
  destruct (existsb _ _); [discriminate|]. intros E; injection E as <-. apply cmi_noise_len.
Qed.

Lemma cstack_even u j : cstack u = Ok j -> forall x, In x u -> length x = length (hd [] u).
Proof.
  unfold cstack. destruct u as [|a u]; [discriminate|]. destruct (forallb _ _) eqn:F; [|discriminate]. intros _ x Hx. rewrite forallb_forall in F. apply Nat.eqb_eq, F, Hx.
Qed.

Lemma lens_nth (u v : list (list pt)) i : map (@length pt) u = map (@length pt) v -> length (nth i u []) = length (nth i v []).
Proof.
  intros L. change (length (@nil pt)) with 0%nat. rewrite <- (map_nth (@length pt) u [] i), <- (map_nth (@length pt) v [] i), L. reflexivity.
Qed.

Lemma ksg_cmi_rejects E a e off nrm vars cond : ksg_error a = Some e -> rejects (fun p => ksg_cmi E p off nrm vars cond) a e.
Proof.
  intros B a' v E0. unfold ksg_cmi, ksg_cmi_local in *. apply bind_ok in E0. destruct E0 as (ls & E0 & _). apply bind_ok in E0. destruct E0 as (u & -> & E0). cbn [bind].
  apply bind_ok in E0. destruct E0 as ([vs c] & -> & E0). cbn [bind fst snd] in *.
  destruct (id_ok a'); [|discriminate]. cbn [negb] in E0. apply bind_ok in E0. destruct E0 as ([w' c'] & W' & E0). apply bind_ok in E0. destruct E0 as (k' & _ & E0).
  unfold ksg_cmi_form in E0. cbn [fst snd] in E0. apply bind_ok in E0. destruct E0 as (j' & J' & _).
  destruct (cmi_noise_lens _ _ _ _ _ W') as [LW LC]. cbn [fst snd] in LW, LC.
  assert (NOK : 0 <= n_noise a -> exists w c2, cmi_with_noise (n_noise a) (draw E) vs c = Ok (w, c2) /\ map (@length pt) w = map (@length pt) vs /\ length c2 = length c).
  { intros N. assert (X : exists dc, cmi_with_noise (n_noise a) (draw E) vs c = Ok dc).
    { unfold cmi_with_noise. destruct (Req_EM_T _ 0); [eauto|]. destruct (Rlt_dec _ 0); [lra|].
      destruct (existsb _ vs) eqn:X; [|eauto]. exfalso. apply existsb_exists in X. destruct X as (x & Hx & Lx). apply Nat.ltb_lt in Lx.
      apply (In_nth _ _ []) in Hx. destruct Hx as (i & Hi & <-).
      assert (Hi' : (i < length w')%nat) by (rewrite <- (map_length (@length pt)), LW, map_length; exact Hi).
      pose proof (cstack_even _ _ J' (nth i w' []) (in_or_app _ _ _ (or_introl (nth_In _ _ Hi')))) as Q.
      rewrite (lens_nth w' vs i LW) in Q. destruct w' as [|x0 w']; [simpl in Hi'; lia|]. destruct vs as [|y0 vs]; [simpl in Hi; lia|].
      cbn [hd app] in Q, Lx. injection LW as L0 _. lia. }
    destruct X as ([w c2] & X). exists w, c2. split; [exact X|]. exact (cmi_noise_lens _ _ _ _ _ X). }
  destruct (ksg_error_cases a e B) as [(-> & ->)|[(-> & N & ->)|[(-> & N & K & ->)|(-> & N & k & K & Q)]]]; cbn [negb].
  - reflexivity.
  - unfold cmi_with_noise. destruct (Req_EM_T _ 0); [lra|]. destruct (Rlt_dec _ 0); [reflexivity|lra].
  - destruct (NOK N) as (w & c2 & -> & _). cbn [bind]. unfold int_k. rewrite K. reflexivity.
  - destruct (NOK N) as (w & c2 & -> & L & L2). cbn [bind fst snd]. unfold int_k. rewrite K. cbn [bind]. unfold ksg_cmi_form.
    destruct (alike_ok (cstack (w' ++ [c'])) (cstack (w ++ [c2])) j') as (j & ->); [apply cstack_alike; rewrite !map_app, LW, L; cbn [map]; rewrite LC, L2; reflexivity|exact J'|].
    cbn [bind]. rewrite Q. reflexivity.
Qed.

Lemma ksg_te_rejects E a e s d ta rnd : ksg_error a = Some e -> rejects (fun p => ksg_te E p s d ta rnd) a e.
Proof.
  intros B a' v E0. unfold ksg_te, ksg_te_local in *. apply bind_ok in E0. destruct E0 as (ls & E0 & _). apply bind_ok in E0. destruct E0 as ([sv dv] & -> & E0). cbn [bind fst snd] in *.
  destruct (id_ok a'); [|discriminate]. cbn [negb] in E0. apply bind_ok in E0. destruct E0 as (w' & W' & E0). apply bind_ok in E0. destruct E0 as ([[[j dp] m1] m2] & S' & _).
  pose proof (with_noise_len _ _ _ _ W') as LW.
  destruct (ksg_error_cases a e B) as [(-> & ->)|[(-> & N & ->)|R]]; cbn [negb].
  - reflexivity.
  - rewrite with_noise_neg by exact N. reflexivity.
  - assert (N : id_ok a = true /\ 0 <= n_noise a) by (destruct R as [(? & ? & _)|(? & ? & _)]; auto). destruct N as [I0 N]. rewrite I0. cbn [negb].
    destruct (with_noise_ok (n_noise a) (draw E) [dv; sv] N) as (w & -> & L). cbn [bind].
    assert (LL : map (@length pt) w' = map (@length pt) w) by congruence.
    pose proof (fte_spaces_alike (nth 1 w' []) (nth 1 w []) (nth 0 w' []) (nth 0 w []) (a_src ta) (a_dest ta) (a_step ta) rnd (lens_nth w' w 1 LL) (lens_nth w' w 0 LL)) as AL.
    destruct (alike_ok _ _ _ AL S') as ([[[j2 dp2] m12] m22] & ->). cbn [bind]. unfold int_k.
    destruct R as [(_ & _ & K & ->)|(_ & _ & k & K & Q)]; rewrite K; [reflexivity|]. cbn [bind]. unfold ksg_te_form. rewrite Q. reflexivity.
Qed.

Lemma ksg_cte_rejects E a e s d c ta : ksg_error a = Some e -> rejects (fun p => ksg_cte E p s d c ta) a e.
Proof.
  intros B a' v E0. unfold ksg_cte, ksg_cte_local in *. apply bind_ok in E0. destruct E0 as (ls & E0 & _). apply bind_ok in E0. destruct E0 as (sd & -> & E0). cbn [bind] in *.
  destruct (id_ok a'); [|discriminate]. cbn [negb] in E0. apply bind_ok in E0. destruct E0 as (w' & W' & E0). apply bind_ok in E0. destruct E0 as ([[[j dp] m1] m2] & S' & _).
  pose proof (with_noise_len _ _ _ _ W') as LW.
  destruct (ksg_error_cases a e B) as [(-> & ->)|[(-> & N & ->)|R]]; cbn [negb].
  - reflexivity.
  - rewrite with_noise_neg by exact N. reflexivity.
  - assert (N : id_ok a = true /\ 0 <= n_noise a) by (destruct R as [(? & ? & _)|(? & ? & _)]; auto). destruct N as [I0 N]. rewrite I0. cbn [negb].
    destruct (with_noise_ok (n_noise a) (draw E) [rows2d d; rows2d s; rows2d c] N) as (w & -> & L). cbn [bind].
    assert (LL : map (@length pt) w' = map (@length pt) w) by congruence.
    pose proof (fcte_spaces_alike (nth 1 w' []) (nth 1 w []) (nth 0 w' []) (nth 0 w []) (nth 2 w' []) (nth 2 w []) (a_src ta) (a_dest ta) (a_cond ta) (a_step ta)
      (lens_nth w' w 1 LL) (lens_nth w' w 0 LL) (lens_nth w' w 2 LL)) as AL.
    destruct (alike_ok _ _ _ AL S') as ([[[j2 dp2] m12] m22] & ->). cbn [bind]. unfold int_k.
    destruct R as [(_ & _ & K & ->)|(_ & _ & k & K & Q)]; rewrite K; [reflexivity|]. cbn [bind]. unfold ksg_te_form. rewrite Q. reflexivity.
Qed.

(** all four KSG measures, any data, offsets, embeddings, normalisation and random draws *)
Theorem C70_every_measure E a e : ksg_error a = Some e ->
  (forall off nrm vars, rejects (fun p => ksg_mi E p off nrm vars) a e) /\
  (forall off nrm vars cond, rejects (fun p => ksg_cmi E p off nrm vars cond) a e) /\
  (forall s d ta rnd, rejects (fun p => ksg_te E p s d ta rnd) a e) /\
  (forall s d c ta, rejects (fun p => ksg_cte E p s d c ta) a e).
Proof.
  intros B. split; [|split; [|split]]; intros; [apply ksg_mi_rejects|apply ksg_cmi_rejects|apply ksg_te_rejects|apply ksg_cte_rejects]; exact B.
Qed.
Print Assumptions C70_every_measure.

Example C70_error_example :
  ksg_error (mkNargs (NInt 4) 3 0 MInf BE) = Some ValueError /\ ksg_error (mkNargs (NInt 0) 1 0 MInf BE) = Some IndexError /\
  ksg_error (mkNargs (NInt 4) 1 0 MInf BE) = None /\ invalid_kernel (mkKargs (BwNum 1) KBox 0 BE).
Proof.
  assert (N : ~ (0 < 0)) by lra. unfold ksg_error. cbn [n_id n_noise n_k n_p Z.eqb Pos.eqb orb negb Z.ltb Z.compare].
  destruct (Rlt_dec 0 0) as [X|_]; [contradiction|]. repeat split. right. split; [reflexivity|right; reflexivity].
Qed.
