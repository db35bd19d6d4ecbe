(** Proofs: memory.  The noise loops and the calculations. *)
From Coq Require Import Reals List ZArith Arith Bool Lia Lra.
From Verif Require Import Res RSum Spec SpecBase MBase MTE MPct MNorm MEst MCont MKnn MFam MHeap SpecHeap PHeap PHeap2.
Import ListNotations.
Local Open Scope R_scope.

Lemma ext_preserves {A} (m : prog A) h h' r : m h = (h', r) -> ext h h' -> preserves m h.
Proof. intros E [n ->]. exists n. rewrite E. reflexivity. Qed.
Lemma meets_preserves {A B} h (m : prog A) (r : res B) Q : meets h m r Q -> preserves m h.
Proof. intros (h' & x & E & X & _). eapply ext_preserves; eassumption. Qed.
Lemma quiet_preserves {A} (m : prog A) h : quiet m -> preserves m h.
Proof. intros Q. exists []. rewrite app_nil_r. apply Q. Qed.
Lemma preserves_step {A B} (m : prog A) (f : A -> prog B) h h1 a : m h = (h1, Ok a) -> ext h h1 -> preserves (f a) h1 -> preserves (seqp m f) h.
Proof. intros E [n ->] [k K]. exists (n ++ k). rewrite (seqp_ok _ _ _ _ _ E), K, app_assoc. reflexivity. Qed.
Lemma preserves_bind {A B} (m : prog A) (f : A -> prog B) h :
  preserves m h -> (forall h' a, m h = (h', Ok a) -> ext h h' -> preserves (f a) h') -> preserves (seqp m f) h.
Proof.
  intros [n K] F. destruct (m h) as [h' [a|e|]] eqn:E; cbn in K; subst h'.
  - eapply preserves_step; [exact E|apply ext_app|]. apply F; [reflexivity|apply ext_app].
  - exists n. rewrite (seqp_raise _ _ _ _ _ E). reflexivity.
  - exists n. rewrite (seqp_nf _ _ _ _ E). reflexivity.
Qed.

(** ** Noise, row by row *)
Lemma loop_rows lvl z h0 l1 a l2 vs1 vs2 : 0 <= lvl -> length l1 = length vs1 -> forall rows done pos h,
  st h0 h (l1 ++ a :: l2) (vs1 ++ F2 (done ++ rows) :: vs2) ->
  exists h', loop (fun pos j => iadd_row lvl z pos a j) (seq (length done) (length rows)) pos h = (h', Ok (pos + size rows)%nat) /\
    st h0 h' (l1 ++ a :: l2) (vs1 ++ F2 (done ++ noise_rows lvl z pos rows) :: vs2).
Proof.
  intros HL L. induction rows as [|r rows IH]; intros done pos h S.
  - exists h. cbn. rewrite Nat.add_0_r. auto.
  - destruct (st_iadd_row lvl z pos h0 h l1 a l2 vs1 (done ++ r :: rows) vs2 (length done) HL S L) as (h1 & E1 & S1).
    { rewrite app_length. cbn. lia. }
    rewrite upd_app_r in S1 by lia. rewrite Nat.sub_diag in S1. cbn [MKnn.upd] in S1. rewrite nth_middle in E1.
    destruct (IH (done ++ [noise_row lvl z pos r]) (pos + length r)%nat h1) as (h2 & E2 & S2). { rewrite <- app_assoc. exact S1. }
    exists h2. cbn [length seq loop]. rewrite (seqp_ok _ _ _ _ _ E1). rewrite app_length in E2. cbn [length] in E2. rewrite Nat.add_1_r in E2.
    cbn [noise_rows]. split.
    + rewrite E2. do 2 f_equal. unfold size. cbn. lia.
    + rewrite <- app_assoc in S2. exact S2.
Qed.
Lemma loop_vars lvl z h0 : 0 <= lvl -> forall l l1 vs1 vs pos h, length l1 = length vs1 -> length l = length vs ->
  st h0 h (l1 ++ l) (vs1 ++ map F2 vs) ->
  exists h' p', loop (fun pos v => loop (fun pos j => iadd_row lvl z pos v j) (seq 0 (nd_len v)) pos) l pos h = (h', Ok p') /\
    st h0 h' (l1 ++ l) (vs1 ++ map F2 (noise_vars lvl z pos vs)).
Proof.
  intros HL. induction l as [|a l IH]; intros l1 vs1 [|v vs] pos h L1 L S; try discriminate L.
  - exists h, pos. cbn. auto.
  - cbn [map] in S. pose proof (st_get _ _ _ _ _ _ _ _ S L1) as (_ & _ & _ & _ & C).
    assert (NL : nd_len a = length v) by (rewrite (nd_len_contents h), C; reflexivity).
    destruct (loop_rows lvl z h0 l1 a l vs1 (map F2 vs) HL L1 v [] pos h S) as (h1 & E1 & S1). cbn [app length] in E1, S1.
    destruct (IH (l1 ++ [a]) (vs1 ++ [F2 (noise_rows lvl z pos v)]) vs (pos + size v)%nat h1) as (h2 & p2 & E2 & S2).
    { rewrite !app_length. cbn. lia. } { cbn in L. lia. } { rewrite <- !app_assoc. exact S1. }
    exists h2, p2. cbn [loop]. rewrite NL, (seqp_ok _ _ _ _ _ E1). split; [exact E2|]. rewrite <- !app_assoc in S2. exact S2.
Qed.

(** ** Noise on whole arrays *)
Lemma st_ext0 h0 h l vs : st h0 h l vs -> ext h0 h. Proof. intros S. apply S. Qed.

(** ** The loop of the conditional estimator *)
Lemma row_vars lvl z h0 j : 0 <= lvl -> forall l l1 l2 vs1 vs vs2 pos h, length l1 = length vs1 -> length l = length vs ->
  st h0 h (l1 ++ l ++ l2) (vs1 ++ map F2 vs ++ vs2) ->
  exists h' r, loop (fun pos v => iadd_row lvl z pos v j) l pos h = (h', r) /\ ext h0 h' /\
    if existsb (fun v => Nat.leb (length v) j) vs then r = Raise IndexError
    else r = Ok (snd (noise_row_vars lvl z j pos vs)) /\
         st h0 h' (l1 ++ l ++ l2) (vs1 ++ map F2 (fst (noise_row_vars lvl z j pos vs)) ++ vs2).
Proof.
  intros HL. induction l as [|a l IH]; intros l1 l2 vs1 [|v vs] vs2 pos h L1 L S; try discriminate L.
  - exists h, (Ok pos). cbn. split; [reflexivity|]. split; [apply S|]. auto.
  - cbn [map app] in S. pose proof (st_get _ _ _ _ _ _ _ _ S L1) as (_ & _ & _ & _ & C).
    cbn [existsb]. destruct (Nat.leb (length v) j) eqn:LJ; cbn [orb].
    + apply Nat.leb_le in LJ. exists h, (Raise IndexError). split; [|split; [apply S|reflexivity]]. cbn [loop].
      apply seqp_raise. destruct a as [b ps|b rs]; [discriminate C|]. cbn in C. injection C as C. unfold iadd_row.
      assert (NE : nth_error rs j = None) by (apply nth_error_None; apply (f_equal (@length pt)) in C; rewrite map_length in C; lia).
      rewrite NE. reflexivity.
    + apply Nat.leb_gt in LJ.
      destruct (st_iadd_row lvl z pos h0 h l1 a (l ++ l2) vs1 v (map F2 vs ++ vs2) j HL S L1 LJ) as (h1 & E1 & S1).
      destruct (IH (l1 ++ [a]) l2 (vs1 ++ [F2 (MKnn.upd j (noise_row lvl z pos) v)]) vs vs2 (pos + length (nth j v []))%nat h1) as (h2 & r & E2 & X2 & K2).
      { rewrite !app_length. cbn. lia. } { cbn in L. lia. } { rewrite <- !app_assoc. exact S1. }
      exists h2, r. cbn [loop]. rewrite (seqp_ok _ _ _ _ _ E1). split; [exact E2|]. split; [exact X2|].
      destruct (existsb _ vs); [exact K2|]. cbn [noise_row_vars]. destruct (noise_row_vars _ _ _ _ vs) as [vs' p']. cbn [fst snd] in *.
      destruct K2 as [-> S2]. split; [reflexivity|]. rewrite <- !app_assoc in S2. exact S2.
Qed.

Lemma noise_row_vars_lengths lvl z j vs : forall pos, map (@length pt) (fst (noise_row_vars lvl z j pos vs)) = map (@length pt) vs.
Proof.
  induction vs as [|v vs IH]; intros pos; [reflexivity|]. cbn [noise_row_vars]. specialize (IH (pos + length (nth j v []))%nat).
  destruct (noise_row_vars _ _ _ _ vs). cbn in *. rewrite upd_length. congruence.
Qed.
Lemma existsb_lengths n (vs ws : list (list pt)) : map (@length pt) vs = map (@length pt) ws ->
  existsb (fun v => Nat.leb (length v) n) vs = existsb (fun v => Nat.leb (length v) n) ws.
Proof. revert ws. induction vs as [|v vs IH]; intros [|w ws] E; try discriminate; [reflexivity|]. cbn in *. injection E as E1 E2. rewrite E1, (IH _ E2). reflexivity. Qed.

Lemma loop_cmi lvl z h0 l c : 0 <= lvl -> forall n i pos vs w h, length l = length vs ->
  st h0 h (l ++ [c]) (map F2 vs ++ [F2 w]) ->
  (forall v, In v vs -> (i <= length v)%nat) ->
  exists h' r, loop (fun pos j => do pos <- loop (fun pos v => iadd_row lvl z pos v j) l pos; iadd_all lvl z pos c) (seq i n) pos h = (h', r) /\ ext h0 h' /\
    if existsb (fun v => Nat.ltb (length v) (i + n)) vs then r = Raise IndexError
    else exists p', r = Ok p' /\
         st h0 h' (l ++ [c]) (map F2 (fst (cmi_noise lvl z (seq i n) pos vs w)) ++ [F2 (snd (cmi_noise lvl z (seq i n) pos vs w))]).
Proof.
  intros HL. induction n as [|n IH]; intros i pos vs w h L SS GE.
  - exists h, (Ok pos). cbn [seq loop]. split; [reflexivity|]. split; [apply SS|].
    assert (NE : existsb (fun v : list pt => Nat.ltb (length v) (i + 0)) vs = false).
    { apply not_true_is_false. intros T. apply existsb_exists in T. destruct T as (v & Hv & T). apply Nat.ltb_lt in T. specialize (GE v Hv). lia. }
    rewrite NE. exists pos. cbn. auto.
  - destruct (row_vars lvl z h0 i HL l [] [c] [] vs [F2 w] pos h eq_refl L SS) as (h1 & r1 & E1 & X1 & K1). cbn [app] in *.
    destruct (existsb (fun v => Nat.leb (length v) i) vs) eqn:EX.
    + subst r1. exists h1, (Raise IndexError). cbn [seq loop]. split; [|split; [exact X1|]].
      * apply seqp_raise. apply seqp_raise. exact E1.
      * apply existsb_exists in EX. destruct EX as (v & Hv & EX). apply Nat.leb_le in EX.
        assert (T : existsb (fun v : list pt => Nat.ltb (length v) (i + S n)) vs = true). { apply existsb_exists. exists v. split; [exact Hv|]. apply Nat.ltb_lt. lia. }
        rewrite T. reflexivity.
    + destruct K1 as [-> S1]. destruct (noise_row_vars lvl z i pos vs) as [vs' p'] eqn:EN. cbn [fst snd] in *.
      assert (LV : map (@length pt) vs' = map (@length pt) vs) by (pose proof (noise_row_vars_lengths lvl z i vs pos) as Q; rewrite EN in Q; exact Q).
      assert (LV' : length vs' = length vs) by (apply (f_equal (@length nat)) in LV; rewrite !map_length in LV; exact LV).
      destruct (st_iadd_all lvl z p' h0 h1 l c [] (map F2 vs') (F2 w) []) as (h2 & E2 & S2); [exact HL|exact S1|rewrite map_length; congruence|].
      cbn [noise_farr fsize] in *.
      destruct (IH (S i) (p' + size w)%nat vs' (noise_rows lvl z p' w) h2) as (h3 & r3 & E3 & X3 & K3); [congruence|exact S2| |].
      { intros v Hv. apply (in_map (@length pt)) in Hv. rewrite LV in Hv. apply in_map_iff in Hv. destruct Hv as (u & <- & Hu).
        destruct (Nat.le_gt_cases (length u) i) as [LE|GT]; [|lia]. exfalso.
        assert (T : existsb (fun v : list pt => Nat.leb (length v) i) vs = true). { apply existsb_exists. exists u. split; [exact Hu|]. apply Nat.leb_le. exact LE. }
        congruence. }
      exists h3, r3. split; [|split; [exact X3|]].
      * cbn [seq loop]. erewrite seqp_ok; [exact E3|]. rewrite (seqp_ok _ _ _ _ _ E1). exact E2.
      * replace (existsb (fun v => Nat.ltb (length v) (i + S n)) vs) with (existsb (fun v : list pt => Nat.ltb (length v) (S i + n)) vs').
        -- cbn [seq cmi_noise]. rewrite EN. exact K3.
        -- replace (S i + n)%nat with (S (i + n)) by lia. replace (i + S n)%nat with (S (i + n)) by lia.
           apply (existsb_lengths (i + n) vs' vs). exact LV.
Qed.
