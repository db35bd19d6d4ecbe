(** C111, continued: shared memory, sequences of calls, and estimator objects that read their arrays later. *)
From Coq Require Import Reals List ZArith Arith Bool Lia Lra.
From Verif Require Import Res RSum Spec SpecBase MBase MTE MPct MNorm MEst MCont MKnn MFam MHeap SpecHeap PHeap PHeap2 PHeap3 PHeap4 PHeap5 PropsHeap.
Import ListNotations.
Local Open Scope R_scope.

(** ** Shared memory is invisible: arguments with the same numbers give the same result, in whatever memory they lie *)
Theorem C111_numbers_mi (E : nenv) (a : nargs) (offset : option Z) (normalize : bool) (args args' : list pyarg) (h h' : heap) :
  Forall (valid h) args -> Forall (valid h') args' -> map (value_of h) args = map (value_of h') args' -> 0 <= n_noise a ->
  snd (p_ksg_mi E a offset normalize args h) = snd (p_ksg_mi E a offset normalize args' h').
Proof.
  intros V V' EQ N. rewrite (proj2 (C111_ksg_mi E a offset normalize args h V) N), (proj2 (C111_ksg_mi E a offset normalize args' h' V') N), EQ. reflexivity.
Qed.
Theorem C111_numbers_cmi (E : nenv) (a : nargs) (offset : option Z) (normalize : bool) (args args' : list pyarg) (c c' : pyarg) (h h' : heap) :
  Forall (valid h) args -> valid h c -> Forall (valid h') args' -> valid h' c' ->
  map (value_of h) args = map (value_of h') args' -> value_of h c = value_of h' c' -> 0 <= n_noise a ->
  snd (p_ksg_cmi E a offset normalize args c h) = snd (p_ksg_cmi E a offset normalize args' c' h').
Proof.
  intros V VC V' VC' EQ EC N.
  rewrite (proj2 (C111_ksg_cmi E a offset normalize args c h V VC) N), (proj2 (C111_ksg_cmi E a offset normalize args' c' h' V' VC') N), EQ, EC. reflexivity.
Qed.
Theorem C111_numbers_te (E : nenv) (k : nargs) (s s' d d' : pyarg) (a : te_args) (rnd : rand) (h h' : heap) :
  valid h s -> valid h d -> valid h' s' -> valid h' d' -> value_of h s = value_of h' s' -> value_of h d = value_of h' d' -> 0 <= n_noise k ->
  snd (p_ksg_te E k s d a rnd h) = snd (p_ksg_te E k s' d' a rnd h').
Proof.
  intros V1 V2 V3 V4 ES ED N. rewrite (proj2 (C111_ksg_te E k s d a rnd h V1 V2) N), (proj2 (C111_ksg_te E k s' d' a rnd h' V3 V4) N), ES, ED. reflexivity.
Qed.
Theorem C111_numbers_cte (E : nenv) (k : nargs) (s s' d d' c c' : pyarg) (a : te_args) (h h' : heap) :
  valid h s -> valid h d -> valid h c -> valid h' s' -> valid h' d' -> valid h' c' ->
  value_of h s = value_of h' s' -> value_of h d = value_of h' d' -> value_of h c = value_of h' c' -> 0 <= n_noise k ->
  snd (p_ksg_cte E k s d c a h) = snd (p_ksg_cte E k s' d' c' a h').
Proof.
  intros V1 V2 V3 V4 V5 V6 ES ED EC N.
  rewrite (proj2 (C111_ksg_cte E k s d c a h V1 V2 V3) N), (proj2 (C111_ksg_cte E k s' d' c' a h' V4 V5 V6) N), ES, ED, EC. reflexivity.
Qed.
Theorem C111_numbers_fam (f : family) (E : nenv) (e : eargs) (noise : R) (isf : nd -> bool) (offset : option Z) (normalize : bool)
  (args args' : list pyarg) (s s' d d' c c' : pyarg) (a : te_args) (rnd : rand) (h h' : heap) :
  Forall (valid h) (s :: d :: c :: args) -> Forall (valid h') (s' :: d' :: c' :: args') ->
  map (value_of h) (s :: d :: c :: args) = map (value_of h') (s' :: d' :: c' :: args') -> 0 <= noise ->
  snd (p_fam_mi f E e noise offset normalize args h) = snd (p_fam_mi f E e noise offset normalize args' h') /\
  snd (p_fam_cmi f E e noise isf offset normalize args c h) = snd (p_fam_cmi f E e noise isf offset normalize args' c' h') /\
  snd (p_fam_te f E e noise s d a rnd h) = snd (p_fam_te f E e noise s' d' a rnd h') /\
  snd (p_fam_cte f E e noise s d c a h) = snd (p_fam_cte f E e noise s' d' c' a h').
Proof.
  intros V V' EQ N. inversion V as [|? ? VS V1]; subst. inversion V1 as [|? ? VD V2]; subst. inversion V2 as [|? ? VC VA]; subst.
  inversion V' as [|? ? VS' V1']; subst. inversion V1' as [|? ? VD' V2']; subst. inversion V2' as [|? ? VC' VA']; subst.
  cbn [map] in EQ. injection EQ as ES ED EC EA.
  rewrite (proj2 (C111_fam_mi f E e noise offset normalize args h VA) N), (proj2 (C111_fam_mi f E e noise offset normalize args' h' VA') N).
  rewrite (proj2 (C111_fam_cmi f E e noise isf offset normalize args c h VA VC) N), (proj2 (C111_fam_cmi f E e noise isf offset normalize args' c' h' VA' VC') N).
  rewrite (proj2 (C111_fam_te f E e noise s d a rnd h VS VD) N), (proj2 (C111_fam_te f E e noise s' d' a rnd h' VS' VD') N).
  rewrite (proj2 (C111_fam_cte f E e noise s d c a h VS VD VC) N), (proj2 (C111_fam_cte f E e noise s' d' c' a h' VS' VD' VC') N).
  rewrite ES, ED, EC, EA. auto.
Qed.

(** an array passed twice - the noise is drawn for each argument separately - is as good as the array and a copy of it *)
Theorem C111_passed_twice (E : nenv) (a : nargs) (offset : option Z) (normalize : bool) (x : nd) (h : heap) : valid h (PArr x) -> 0 <= n_noise a ->
  snd (p_ksg_mi E a offset normalize [PArr x; PArr x] h) =
  snd ((do y <- copy x; p_ksg_mi E a offset normalize [PArr x; PArr y]) h).
Proof.
  intros V N. destruct (copy_spec h h [] [] x (st_nil h)) as (h1 & y & E1 & X1 & S1). rewrite (seqp_ok _ _ _ _ _ E1).
  destruct S1 as (_ & F & _). inversion F as [|? ? ? ? O _]; subst. destruct O as (_ & O2 & _ & _ & O5).
  apply C111_numbers_mi; [repeat constructor; exact V| |cbn [map value_of]; rewrite O5, (contents_ext _ _ _ V X1); reflexivity|exact N].
  repeat constructor; [exact (nd_ok_ext _ _ _ V X1)|exact O2].
Qed.

(** ** Sequences of calls: a call that leaves the caller's memory alone leaves later results alone *)
Theorem C111_later_calls {A} (m : prog A) (E : nenv) (a : nargs) (offset : option Z) (normalize : bool) (args : list pyarg) (h : heap) :
  preserves m h -> Forall (valid h) args -> 0 <= n_noise a ->
  snd (p_ksg_mi E a offset normalize args (fst (m h))) = snd (p_ksg_mi E a offset normalize args h).
Proof.
  intros [n P] V N. rewrite P. pose proof (ext_app h n) as X. apply C111_numbers_mi; [|exact V| |exact N].
  - eapply Forall_impl; [|exact V]. intros x Hx. eapply valid_ext; eassumption.
  - apply map_ext_in. intros x Hx. apply value_ext; [|exact X]. rewrite Forall_forall in V. auto.
Qed.
Theorem C111_array_unchanged {A} (m : prog A) (h : heap) (x : pyarg) : preserves m h -> valid h x -> value_of (fst (m h)) x = value_of h x.
Proof. intros [n P] V. rewrite P. apply value_ext; [exact V|apply ext_app]. Qed.

(** ** Estimator objects.  Without normalisation, constructing an estimator copies nothing: the result is that of the numbers
    the arrays hold when it is first asked for.  With normalisation the constructor has taken its own copies. *)
Theorem C111_object_reads_late (E : nenv) (a : nargs) (l : list nd) (h : heap) :
  Forall (fun x => (nd_buf x < length h)%nat) l -> 0 <= n_noise a -> id_ok a = true ->
  (2 <= length l)%nat -> (forall x, In x l -> nd_len x = nd_len (hd (N1 0 []) l)) ->
  exists vs, p_mi_init (Some 0%Z) false (map PArr l) h = (h, Ok vs) /\
  forall h', Forall (fun x => (nd_buf x < length h')%nat) l ->
    snd (p_ksg_mi_calc E a (map v_2d vs) h') = ksg_mi_local E a (Some 0%Z) false (map (contents h') l).
Proof.
  intros V N ID L2 LEN. exists l.
  assert (FA : forall h', forp asarray (map PArr l) h' = (h', Ok l)).
  { clear. intros h'. induction l as [|x l IH]; [reflexivity|]. cbn [map forp]. rewrite (seqp_ok _ _ h' h' x eq_refl), (seqp_ok _ _ h' h' l IH). reflexivity. }
  assert (FL : forallb (fun x => Nat.eqb (nd_len x) (nd_len (hd (N1 0 []) l))) l = true) by (apply forallb_forall; intros x Hx; apply Nat.eqb_eq; auto).
  assert (INIT : forall h', p_mi_init (Some 0%Z) false (map PArr l) h' = (h', Ok l)).
  { intros h'. unfold p_mi_init. rewrite map_length. destruct (Nat.ltb_spec (length l) 2); [lia|]. cbn [Z.eqb negb]. rewrite andb_false_r.
    rewrite (seqp_ok _ _ h' h' l (FA h')), FL. reflexivity. }
  split; [apply INIT|]. intros h' V'.
  assert (VV : Forall (valid h') (map PArr l)) by (apply Forall_map; exact V').
  pose proof (proj2 (C111_ksg_mi E a (Some 0%Z) false (map PArr l) h' VV) N) as G. rewrite map_map in G. cbn [value_of] in G.
  etransitivity; [|exact G]. unfold p_ksg_mi. rewrite (seqp_ok _ _ h' h' l (INIT h')), ID. reflexivity.
Qed.

Theorem C111_normalized_snapshot (E : nenv) (a : nargs) (args : list pyarg) (h : heap) (vs : list nd) (h1 : heap) :
  Forall (valid h) args -> 0 <= n_noise a -> id_ok a = true ->
  p_mi_init (Some 0%Z) true args h = (h1, Ok vs) ->
  forall h2, length h2 = length h1 -> (forall b, (length h <= b)%nat -> nth b h2 [] = nth b h1 []) ->
    snd (p_ksg_mi_calc E a (map v_2d vs) h2) = ksg_mi_local E a (Some 0%Z) true (map (value_of h) args).
Proof.
  intros V N ID I h2 L2 SAME.
  (* the arrays kept by the object lie in buffers allocated by the constructor *)
  assert (FRESH : Forall (fun v => (length h <= nd_buf v)%nat) vs).
  { revert I. unfold p_mi_init. destruct (Nat.ltb (length args) 2); [discriminate|]. destruct (_ && _); [discriminate|].
    destruct (forp_asarray args h V) as (h0 & l & E0 & X0 & O0 & C0). rewrite (seqp_ok _ _ _ _ _ E0).
    destruct (negb _); [discriminate|]. cbn [Z.ltb Z.compare]. destruct (existsb is_2d l); [discriminate|].
    intros I. assert (NF : forall xs h3 h4 ws, forp p_norm xs h3 = (h4, Ok ws) -> (length h <= length h3)%nat -> Forall (fun v => (length h <= nd_buf v)%nat) ws).
    { induction xs as [|x xs IH]; intros h3 h4 ws F LE; cbn [forp] in F; [injection F as _ <-; constructor|].
      unfold seqp at 1 in F. destruct (p_norm x h3) as [h5 [y|e|]] eqn:EP; try discriminate.
      assert (LY : (length h3 <= nd_buf y /\ length h3 <= length h5)%nat).
      { unfold p_norm, seqp, load, lift in EP. destruct (norm_any (contents h3 x)) as [w|e|]; try discriminate.
        destruct (alloc_spec w h3) as (buf & b & EA & NB & _). rewrite EA in EP. injection EP as <- <-. rewrite NB, app_length. lia. }
      unfold seqp at 1 in F. destruct (forp p_norm xs h5) as [h6 [ys|e|]] eqn:EF; try discriminate. injection F as _ <-.
      constructor; [lia|]. eapply IH; [exact EF|lia]. }
    unfold seqp in I. destruct (forp p_norm l h0) as [h3 [ws|e|]] eqn:EF; try discriminate. injection I as _ <-.
    eapply NF; [exact EF|]. apply ext_len in X0. exact X0. }
  pose proof (p_mi_init_spec (Some 0%Z) true args h V) as (h1' & x & E1 & X1 & K1). rewrite I in E1. injection E1 as <- <-.
  destruct (fmi_init (Some 0%Z) true (map (value_of h) args)) as [rows|e|] eqn:FI; try contradiction. destruct K1 as [OK RW].
  assert (C2 : forall v, In v vs -> contents h2 v = contents h1 v).
  { intros v Hv. rewrite Forall_forall in FRESH. specialize (FRESH v Hv).
    destruct v as [b ps|b rs]; cbn in *; unfold cell; rewrite (SAME b FRESH); reflexivity. }
  assert (OK2 : Forall (nd_ok h2) vs) by (eapply Forall_impl; [|exact OK]; unfold nd_ok; intros v Hv; lia).
  destruct (meets_done _ _ _ (ksg_mi_calc_meets E a vs h2 N OK2)) as [_ G]. rewrite G. unfold ksg_mi_local. rewrite FI. cbn [bind]. rewrite ID. cbn [negb].
  rewrite <- RW. erewrite (map_ext_in (fun b => rows2d (contents h2 b))); [reflexivity|]. intros v Hv. cbn beta. rewrite (C2 v Hv). reflexivity.
Qed.

(** a memory with one matrix of three rows and two columns; the second argument is a column of it, the first the same column
    read backwards: one buffer, overlapping views *)
Theorem C111_example (E : nenv) :
  let h := [[1; 10; 2; 20; 4; 40]] in
  let x := N1 0 [4; 2; 0]%nat in let y := N1 0 [0; 2; 4]%nat in
  let a := mkNargs (NInt 1) 1 (1/10) MInf (BE) in
  Forall (valid h) [PArr x; PArr y] /\ contents h x = F1 [4; 2; 1] /\ contents h y = F1 [1; 2; 4] /\
  (exists new, fst (p_ksg_mi E a (Some 0%Z) false [PArr x; PArr y] h) = h ++ new) /\
  snd (p_ksg_mi E a (Some 0%Z) false [PArr x; PArr y] h) = ksg_mi_local E a (Some 0%Z) false [F1 [4; 2; 1]; F1 [1; 2; 4]].
Proof.
  cbn zeta. set (h := [[1; 10; 2; 20; 4; 40]]). set (x := N1 0 _). set (y := N1 0 _). set (a := mkNargs _ _ _ _ _).
  assert (V : Forall (valid h) [PArr x; PArr y]) by (repeat constructor).
  destruct (C111_ksg_mi E a (Some 0%Z) false _ h V) as [[n P] G].
  repeat split; [exact V|exists n; exact P|]. apply G. cbn. lra.
Qed.
