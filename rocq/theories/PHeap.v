(** Proofs: memory.  Programs that write only to arrays they have allocated. *)
From Coq Require Import Reals List ZArith Arith Bool Lia Lra.
From Verif Require Import Res RSum Spec SpecBase MBase MTE MPct MNorm MEst MCont MKnn MFam MHeap.
Import ListNotations.
Local Open Scope R_scope.

Definition ext (h0 h : heap) : Prop := exists new, h = h0 ++ new.
Lemma ext_refl h : ext h h. Proof. exists []. rewrite app_nil_r. reflexivity. Qed.
Lemma ext_trans a b c : ext a b -> ext b c -> ext a c.
Proof. intros [x ->] [y ->]. exists (x ++ y). rewrite app_assoc. reflexivity. Qed.
Lemma ext_len a b : ext a b -> (length a <= length b)%nat.
Proof. intros [x ->]. rewrite app_length. lia. Qed.
Lemma ext_app h t : ext h (h ++ t). Proof. exists t. reflexivity. Qed.

Lemma upd_length {A} j (f : A -> A) l : length (MKnn.upd j f l) = length l.
Proof. revert j. induction l as [|x l IH]; intros [|j]; cbn; congruence. Qed.
Lemma upd_nth_same {A} j (f : A -> A) l d : (j < length l)%nat -> nth j (MKnn.upd j f l) d = f (nth j l d).
Proof. revert j. induction l as [|x l IH]; intros [|j] Hj; cbn in *; try lia; auto. apply IH. lia. Qed.
Lemma upd_nth_other {A} j k (f : A -> A) l d : j <> k -> nth k (MKnn.upd j f l) d = nth k l d.
Proof. revert j k. induction l as [|x l IH]; intros [|j] [|k] Hj; cbn in *; try lia; auto. Qed.
Lemma upd_app_r {A} j (f : A -> A) l r : (length l <= j)%nat -> MKnn.upd j f (l ++ r) = l ++ MKnn.upd (j - length l) f r.
Proof. revert j. induction l as [|x l IH]; intros j Hj; cbn in *; [rewrite Nat.sub_0_r; reflexivity|]. destruct j; [lia|]. cbn. f_equal. apply IH. lia. Qed.
Lemma ext_upd h0 h b f : ext h0 h -> (length h0 <= b)%nat -> ext h0 (MKnn.upd b f h).
Proof. intros [n ->] Hb. rewrite upd_app_r by exact Hb. eexists. reflexivity. Qed.

Lemma put_length buf ps vs : length (put buf ps vs) = length buf.
Proof. revert buf vs. induction ps as [|p ps IH]; intros buf [|v vs]; cbn; auto. rewrite IH. apply upd_length. Qed.
Lemma put_other buf ps vs q : ~ In q ps -> nth q (put buf ps vs) 0 = nth q buf 0.
Proof.
  revert buf vs. induction ps as [|p ps IH]; intros buf [|v vs] NI; cbn; auto. cbn in NI. rewrite IH by tauto.
  apply upd_nth_other. intros ->. tauto.
Qed.
Lemma put_same buf ps vs : NoDup ps -> (forall p, In p ps -> (p < length buf)%nat) -> length vs = length ps ->
  map (fun p => nth p (put buf ps vs) 0) ps = vs.
Proof.
  revert buf vs. induction ps as [|p ps IH]; intros buf [|v vs] ND R L; cbn in *; try discriminate; auto.
  inversion ND; subst. f_equal.
  - rewrite put_other by assumption. rewrite upd_nth_same by (apply R; left; reflexivity). reflexivity.
  - apply IH; [assumption| |congruence]. intros q Hq. rewrite upd_length. apply R. right. exact Hq.
Qed.

Lemma noise_row_map lvl z pos (ps : list nat) (g : nat -> R) : noise_row lvl z pos (map g ps) = map (fun ip : nat * nat => g (snd ip) + lvl * z (pos + fst ip)%nat) (combine (seq 0 (length ps)) ps).
Proof.
  revert pos. induction ps as [|p ps IH]; intros pos; [reflexivity|]. cbn [map noise_row length seq combine fst snd]. rewrite Nat.add_0_r. f_equal.
  rewrite IH. rewrite <- (seq_shift (length ps) 0). clear IH.
  assert (E : forall (l : list nat) (m : list nat), combine (map S l) m = map (fun ip : nat * nat => (S (fst ip), snd ip)) (combine l m)).
  { induction l; intros [|y m]; cbn; f_equal; auto. }
  rewrite E, map_map. apply map_ext. intros [i q]. cbn. do 3 f_equal. lia.
Qed.
Lemma noise_row_length lvl z pos p : length (noise_row lvl z pos p) = length p.
Proof. revert pos. induction p; intros pos; cbn; auto. Qed.
Lemma noise_row_app lvl z pos p q : noise_row lvl z pos (p ++ q) = noise_row lvl z pos p ++ noise_row lvl z (pos + length p) q.
Proof. revert pos. induction p as [|x p IH]; intros pos; cbn; [rewrite Nat.add_0_r; reflexivity|]. f_equal. rewrite IH. do 2 f_equal. lia. Qed.
Lemma noise_rows_concat lvl z pos v : concat (noise_rows lvl z pos v) = noise_row lvl z pos (concat v).
Proof. revert pos. induction v as [|p v IH]; intros pos; cbn; [reflexivity|]. rewrite noise_row_app, IH. reflexivity. Qed.
Lemma noise_rows_lengths lvl z pos v : map (@length R) (noise_rows lvl z pos v) = map (@length R) v.
Proof. revert pos. induction v as [|p v IH]; intros pos; cbn; [reflexivity|]. rewrite noise_row_length, IH. reflexivity. Qed.

(** a list of rows is determined by the row lengths and the concatenation *)
Lemma rows_eq (v w : list pt) : map (@length R) v = map (@length R) w -> concat v = concat w -> v = w.
Proof.
  revert w. induction v as [|p v IH]; intros [|q w] L C; cbn in *; try discriminate; auto.
  injection L as L1 L2. assert (p = q).
  { apply (f_equal (firstn (length p))) in C. rewrite firstn_app, Nat.sub_diag, firstn_all, firstn_O, app_nil_r in C.
    rewrite L1, firstn_app, Nat.sub_diag, firstn_all, firstn_O, app_nil_r in C. exact C. }
  subst q. f_equal. apply IH; [exact L2|]. apply app_inv_head in C. exact C.
Qed.

(** ** Arrays *)
Definition nd_ok (h : heap) (a : nd) : Prop := (nd_buf a < length h)%nat.
Definition own (n : nat) (h : heap) (a : nd) (v : farr) : Prop :=
  (n <= nd_buf a)%nat /\ nd_ok h a /\ NoDup (nd_cells a) /\ (forall p, In p (nd_cells a) -> (p < length (nth (nd_buf a) h []))%nat) /\
  contents h a = v.

Lemma cell_app h t b p : (b < length h)%nat -> cell (h ++ t) b p = cell h b p.
Proof. intros H. unfold cell. rewrite app_nth1 by exact H. reflexivity. Qed.
Lemma contents_app h t a : nd_ok h a -> contents (h ++ t) a = contents h a.
Proof.
  intros H. destruct a as [b ps|b rs]; unfold nd_ok in H; cbn in *; f_equal.
  - apply map_ext. intros p. apply cell_app. exact H.
  - apply map_ext. intros r. apply map_ext. intros p. apply cell_app. exact H.
Qed.
Lemma contents_ext h h' a : nd_ok h a -> ext h h' -> contents h' a = contents h a.
Proof. intros H [t ->]. apply contents_app. exact H. Qed.
Lemma nd_ok_ext h h' a : nd_ok h a -> ext h h' -> nd_ok h' a.
Proof. intros H E. apply ext_len in E. unfold nd_ok in *. lia. Qed.
Lemma own_app n h t a v : own n h a v -> own n (h ++ t) a v.
Proof.
  intros (A & B & C & D & F). repeat split; auto.
  - unfold nd_ok in *. rewrite app_length. lia.
  - intros p Hp. rewrite app_nth1 by exact B. auto.
  - rewrite contents_app by exact B. exact F.
Qed.
Lemma contents_flat h a : match contents h a with F1 xs => xs | F2 rs => concat rs end = map (cell h (nd_buf a)) (nd_cells a).
Proof. destruct a as [b ps|b rs]; cbn; [reflexivity|]. rewrite concat_map. reflexivity. Qed.
Lemma nd_len_contents h a : nd_len a = flen (contents h a).
Proof. destruct a; cbn; rewrite map_length; reflexivity. Qed.

Lemma layout_concat off ns : concat (layout off ns) = seq off (fold_right Nat.add 0%nat ns).
Proof. revert off. induction ns as [|n ns IH]; intros off; cbn; [reflexivity|]. rewrite IH, seq_app. reflexivity. Qed.
Lemma concat_length (v : list pt) : length (concat v) = fold_right Nat.add 0%nat (map (@length R) v).
Proof. induction v; cbn; [reflexivity|]. rewrite app_length. congruence. Qed.
Lemma layout_lengths off ns : map (@length nat) (layout off ns) = ns.
Proof. revert off. induction ns as [|n ns IH]; intros off; cbn; [reflexivity|]. rewrite seq_length, IH. reflexivity. Qed.
Lemma map_nth_all (xs : list R) : map (fun p => nth p xs 0) (seq 0 (length xs)) = xs.
Proof.
  apply nth_ext with (d := 0) (d' := 0); [rewrite map_length, seq_length; reflexivity|]. intros i Hi. rewrite map_length, seq_length in Hi.
  rewrite (nth_indep _ 0 (nth 0 xs 0)) by (rewrite map_length, seq_length; exact Hi). rewrite (map_nth (fun p => nth p xs 0)), seq_nth by exact Hi. reflexivity.
Qed.

Lemma alloc_spec v h : exists buf a, alloc v h = (h ++ [buf], Ok a) /\ nd_buf a = length h /\ own (length h) (h ++ [buf]) a v.
Proof.
  destruct v as [xs|rs]; cbn.
  - exists xs, (N1 (length h) (seq 0 (length xs))). split; [reflexivity|]. split; [reflexivity|]. unfold own, nd_ok. cbn.
    rewrite app_length. cbn. rewrite nth_middle.
    repeat split; try lia; [apply seq_NoDup|intros p Hp; apply in_seq in Hp; lia|]. f_equal. unfold cell. rewrite nth_middle. apply map_nth_all.
  - exists (concat rs), (N2 (length h) (layout 0 (map (@length R) rs))). split; [reflexivity|]. split; [reflexivity|]. unfold own, nd_ok. cbn.
    rewrite app_length, nth_middle, layout_concat. cbn.
    repeat split; try lia; [apply seq_NoDup|intros p Hp; apply in_seq in Hp; rewrite concat_length; lia|]. f_equal. unfold cell. rewrite nth_middle.
    apply rows_eq.
    + rewrite map_map. transitivity (map (@length nat) (layout 0 (map (@length R) rs))); [apply map_ext; intros; apply map_length|apply layout_lengths].
    + rewrite <- concat_map, layout_concat, <- concat_length. apply map_nth_all.
Qed.

(** ** Writing noise *)
Definition noise_farr (lvl : R) (z : nat -> R) (pos : nat) (v : farr) : farr :=
  match v with F1 xs => F1 (noise_row lvl z pos xs) | F2 rs => F2 (noise_rows lvl z pos rs) end.
Definition fsize (v : farr) : nat := match v with F1 xs => length xs | F2 rs => size rs end.
Lemma rows2d_noise lvl z pos v : rows2d (noise_farr lvl z pos v) = noise_rows lvl z pos (rows2d v).
Proof.
  destruct v as [xs|rs]; cbn; [|reflexivity]. revert pos. induction xs as [|x xs IH]; intros pos; cbn; [reflexivity|]. f_equal. rewrite IH. f_equal. lia.
Qed.
Lemma size_rows2d v : size (rows2d v) = fsize v.
Proof. destruct v as [xs|rs]; cbn; [|reflexivity]. unfold size. rewrite map_map. induction xs; cbn in *; auto. Qed.

Lemma iadd_noise_spec lvl z pos b ps h : 0 <= lvl -> (b < length h)%nat -> NoDup ps -> (forall p, In p ps -> (p < length (nth b h []))%nat) ->
  exists f, iadd_noise lvl z pos b ps h = (MKnn.upd b f h, Ok (pos + length ps)%nat) /\
    length (f (nth b h [])) = length (nth b h []) /\
    map (cell (MKnn.upd b f h) b) ps = noise_row lvl z pos (map (cell h b) ps) /\
    (forall q, ~ In q ps -> cell (MKnn.upd b f h) b q = cell h b q).
Proof.
  intros HL Hb ND R. unfold iadd_noise. destruct (Rlt_dec lvl 0); [lra|]. unfold store.
  eexists. split; [reflexivity|]. split; [apply put_length|].
  assert (LC : length (map (fun ip : nat * nat => cell h b (snd ip) + lvl * z (pos + fst ip)%nat) (combine (seq 0 (length ps)) ps)) = length ps).
  { rewrite map_length, combine_length, seq_length. lia. }
  split.
  - rewrite noise_row_map. erewrite map_ext; [|intros p; unfold cell at 1; rewrite upd_nth_same by exact Hb; reflexivity].
    rewrite put_same by assumption. reflexivity.
  - intros q Hq. unfold cell at 1. rewrite upd_nth_same by exact Hb. rewrite put_other by exact Hq. reflexivity.
Qed.

(** other buffers are left alone *)
Lemma cell_upd_other b f h b' p : b <> b' -> cell (MKnn.upd b f h) b' p = cell h b' p.
Proof. intros N. unfold cell. rewrite upd_nth_other by exact N. reflexivity. Qed.
Lemma contents_upd_other b f h a : b <> nd_buf a -> contents (MKnn.upd b f h) a = contents h a.
Proof.
  intros N. destruct a as [b' ps|b' rs]; cbn in *; f_equal.
  - apply map_ext. intros p. apply cell_upd_other. exact N.
  - apply map_ext. intros r. apply map_ext. intros p. apply cell_upd_other. exact N.
Qed.
Lemma own_upd_other n b f h a v : b <> nd_buf a -> own n h a v -> own n (MKnn.upd b f h) a v.
Proof.
  intros N (A & B & C & D & F). repeat split; auto.
  - unfold nd_ok in *. rewrite upd_length. exact B.
  - intros p Hp. rewrite upd_nth_other by exact N. auto.
  - rewrite contents_upd_other by exact N. exact F.
Qed.

(** the arrays a program has allocated: distinct buffers above the caller's memory [h0] *)
Definition st (h0 h : heap) (l : list nd) (vs : list farr) : Prop :=
  ext h0 h /\ Forall2 (own (length h0) h) l vs /\ NoDup (map nd_buf l).

Lemma Forall2_impl {A B} (P Q : A -> B -> Prop) l m : (forall x y, In x l -> P x y -> Q x y) -> Forall2 P l m -> Forall2 Q l m.
Proof. intros I F. induction F; constructor; [apply I; [left; reflexivity|assumption]|]. apply IHF. intros a b Ha. apply I. right. exact Ha. Qed.

Lemma st_nil h : st h h [] [].
Proof. split; [apply ext_refl|]. split; constructor. Qed.
Lemma st_ext h0 h h' l vs : st h0 h l vs -> ext h h' -> st h0 h' l vs.
Proof.
  intros (A & B & C) [t ->]. split; [eapply ext_trans; [exact A|apply ext_app]|]. split; [|exact C].
  eapply Forall2_impl; [|exact B]. intros x y _ H. apply own_app. exact H.
Qed.
Lemma st_alloc h0 h l vs v : st h0 h l vs -> exists h' a, alloc v h = (h', Ok a) /\ ext h h' /\ st h0 h' (l ++ [a]) (vs ++ [v]).
Proof.
  intros S. destruct (alloc_spec v h) as (buf & a & E & NB & O). exists (h ++ [buf]), a. split; [exact E|]. split; [apply ext_app|].
  pose proof (st_ext _ _ _ _ _ S (ext_app h [buf])) as (A & B & C). pose proof (ext_len _ _ (proj1 S)) as LE.
  split; [exact A|]. split.
  - apply Forall2_app; [exact B|]. constructor; [|constructor]. destruct O as (O1 & O2). split; [lia|exact O2].
  - rewrite map_app. cbn. apply NoDup_Add with (a := nd_buf a) (l := map nd_buf l).
    + replace (map nd_buf l ++ [nd_buf a]) with (map nd_buf l ++ nd_buf a :: []) by reflexivity.
      pose proof (Add_app (nd_buf a) (map nd_buf l) []) as AD. rewrite app_nil_r in AD. exact AD.
    + split; [exact C|]. intros H. apply in_map_iff in H. destruct H as (x & Hx & Hi).
      destruct S as (_ & F & _). clear -F Hi Hx NB. induction F; [contradiction|]. destruct Hi as [->|Hi]; [|auto].
      destruct H as (_ & K & _). unfold nd_ok in K. lia.
Qed.

Lemma NoDup_mid {A} (x : A) l r : NoDup (l ++ x :: r) -> ~ In x l /\ ~ In x r /\ NoDup (l ++ r).
Proof. intros H. apply NoDup_remove in H. destruct H as [H1 H2]. rewrite in_app_iff in H2. tauto. Qed.

Lemma st_step h0 h l1 a l2 vs1 v vs2 f w : st h0 h (l1 ++ a :: l2) (vs1 ++ v :: vs2) -> length l1 = length vs1 ->
  own (length h0) (MKnn.upd (nd_buf a) f h) a w -> st h0 (MKnn.upd (nd_buf a) f h) (l1 ++ a :: l2) (vs1 ++ w :: vs2).
Proof.
  intros (A & B & C) L O. split; [apply ext_upd; [exact A|apply O]|]. split; [|exact C].
  apply Forall2_app_inv_l in B. destruct B as (m1 & m2 & B1 & B2 & E).
  assert (LM : length m1 = length vs1) by (rewrite <- L; symmetry; clear -B1; induction B1; cbn; auto).
  assert (EM : m1 = vs1 /\ m2 = v :: vs2).
  { clear -E LM. revert vs1 LM E. induction m1 as [|x m1 IH]; intros [|y vs1] LM E; cbn in *; try discriminate; auto.
    injection E as <- E. destruct (IH vs1 ltac:(congruence) E) as [-> ->]. auto. }
  destruct EM as [-> ->]. inversion B2; subst. rewrite map_app in C. cbn in C. apply NoDup_mid in C. destruct C as (N1' & N2' & _).
  apply Forall2_app; [|constructor; [exact O|]].
  - eapply Forall2_impl; [|exact B1]. intros x y Hx. apply own_upd_other. intros EQ. apply N1'. rewrite EQ. apply in_map. exact Hx.
  - eapply Forall2_impl; [|eassumption]. intros x y Hx. apply own_upd_other. intros EQ. apply N2'. rewrite EQ. apply in_map. exact Hx.
Qed.

Lemma st_get h0 h l1 a l2 vs1 v vs2 : st h0 h (l1 ++ a :: l2) (vs1 ++ v :: vs2) -> length l1 = length vs1 -> own (length h0) h a v.
Proof.
  intros (_ & B & _) L. apply Forall2_app_inv_l in B. destruct B as (m1 & m2 & B1 & B2 & E).
  assert (LM : length m1 = length vs1) by (rewrite <- L; symmetry; clear -B1; induction B1; cbn; auto).
  assert (EM : m1 = vs1 /\ m2 = v :: vs2).
  { clear -E LM. revert vs1 LM E. induction m1 as [|x m1 IH]; intros [|y vs1] LM E; cbn in *; try discriminate; auto.
    injection E as <- E. destruct (IH vs1 ltac:(congruence) E) as [-> ->]. auto. }
  destruct EM as [-> ->]. inversion B2; subst. assumption.
Qed.

Lemma cells_size h a v : contents h a = v -> length (nd_cells a) = fsize v.
Proof.
  intros <-. destruct a as [b ps|b rs]; cbn; [rewrite map_length; reflexivity|]. unfold size. induction rs; cbn; [reflexivity|]. rewrite app_length, map_length. congruence.
Qed.

Lemma st_iadd_all lvl z pos h0 h l1 a l2 vs1 v vs2 : 0 <= lvl -> st h0 h (l1 ++ a :: l2) (vs1 ++ v :: vs2) -> length l1 = length vs1 ->
  exists h', iadd_all lvl z pos a h = (h', Ok (pos + fsize v)%nat) /\ st h0 h' (l1 ++ a :: l2) (vs1 ++ noise_farr lvl z pos v :: vs2).
Proof.
  intros HL S L. pose proof (st_get _ _ _ _ _ _ _ _ S L) as O. destruct O as (O1 & O2 & O3 & O4 & O5).
  destruct (iadd_noise_spec lvl z pos (nd_buf a) (nd_cells a) h HL O2 O3 O4) as (f & E & LF & EV & EO).
  unfold iadd_all. rewrite E, (cells_size h a v O5). eexists. split; [reflexivity|]. apply st_step with (v := v); [exact S|exact L|].
  repeat split; auto.
  - unfold nd_ok in *. rewrite upd_length. exact O2.
  - intros p Hp. rewrite upd_nth_same by exact O2. rewrite LF. auto.
  - pose proof (contents_flat (MKnn.upd (nd_buf a) f h) a) as C1. pose proof (contents_flat h a) as C0. rewrite EV, <- C0 in C1.
    destruct a as [b ps|b rs]; cbn [contents] in *; subst v; cbn [noise_farr]; f_equal.
    + exact C1.
    + apply rows_eq.
      * rewrite noise_rows_lengths, !map_map. apply map_ext. intros. rewrite !map_length. reflexivity.
      * rewrite noise_rows_concat. exact C1.
Qed.

Lemma st_iadd_row lvl z pos h0 h l1 a l2 vs1 rs vs2 j : 0 <= lvl -> st h0 h (l1 ++ a :: l2) (vs1 ++ F2 rs :: vs2) -> length l1 = length vs1 ->
  (j < length rs)%nat ->
  exists h', iadd_row lvl z pos a j h = (h', Ok (pos + length (nth j rs []))%nat) /\
    st h0 h' (l1 ++ a :: l2) (vs1 ++ F2 (MKnn.upd j (noise_row lvl z pos) rs) :: vs2).
Proof.
  intros HL S L Hj. pose proof (st_get _ _ _ _ _ _ _ _ S L) as O. destruct O as (O1 & O2 & O3 & O4 & O5).
  destruct a as [b ps|b qs]; [discriminate O5|]. cbn [contents] in O5. injection O5 as O5. cbn [nd_buf nd_cells] in *.
  assert (LQ : length qs = length rs) by (rewrite <- O5, map_length; reflexivity).
  unfold iadd_row. destruct (nth_error_split qs j) with (a := nth j qs []) as (q1 & q2 & EQ & LQ1).
  { apply nth_error_nth'. lia. }
  assert (NE : nth_error qs j = Some (nth j qs [])) by (apply nth_error_nth'; lia). rewrite NE. clear NE. set (ps := nth j qs []) in *.
  assert (INC : forall p, In p ps -> In p (concat qs)). { intros p Hp. rewrite EQ, concat_app. cbn. rewrite !in_app_iff. tauto. }
  assert (NDP : NoDup ps /\ forall p, In p ps -> ~ In p (concat q1) /\ ~ In p (concat q2)).
  { rewrite EQ, concat_app in O3. cbn in O3. clear -O3. induction (concat q1) as [|x c IH]; cbn in *.
    - split.
      + clear -O3. induction ps; cbn in *; [constructor|]. inversion O3; subst. constructor; [rewrite in_app_iff in H1; tauto|auto].
      + intros p Hp. split; [tauto|]. clear -O3 Hp. induction ps as [|y ps IH]; cbn in *; [tauto|]. inversion O3; subst. destruct Hp as [->|Hp]; [rewrite in_app_iff in H1; tauto|auto].
    - inversion O3; subst. destruct (IH H2) as [A B]. split; [exact A|]. intros p Hp. destruct (B p Hp) as [B1 B2]. split; [|exact B2].
      intros [->|H]; [|tauto]. apply H1. rewrite !in_app_iff. tauto. }
  destruct NDP as [NDP DIS].
  destruct (iadd_noise_spec lvl z pos b ps h HL O2 NDP (fun p Hp => O4 p (INC p Hp))) as (f & E & LF & EV & EO).
  rewrite E. assert (LP : length ps = length (nth j rs [])).
  { rewrite <- O5. unfold ps. rewrite (nth_indep (map (map (cell h b)) qs) [] (map (cell h b) [])) by (rewrite map_length; lia).
    rewrite map_nth, map_length. reflexivity. }
  rewrite LP. eexists. split; [reflexivity|]. change b with (nd_buf (N2 b qs)). apply st_step with (v := F2 rs); [exact S|exact L|].
  repeat split; auto.
  - unfold nd_ok in *. cbn [nd_buf] in *. rewrite upd_length. exact O2.
  - cbn [nd_buf nd_cells]. intros p Hp. rewrite upd_nth_same by exact O2. rewrite LF. auto.
  - cbn [contents nd_buf]. f_equal. rewrite <- O5, EQ, !map_app. cbn [map]. rewrite EV.
    assert (LJ : length (map (map (cell h b)) q1) = j) by (rewrite map_length; exact LQ1).
    rewrite upd_app_r by lia. rewrite LJ, Nat.sub_diag. cbn [MKnn.upd]. f_equal; [|f_equal].
    + apply map_ext_in. intros r Hr. apply map_ext_in. intros p Hp. apply EO. intros Hps. apply (proj1 (DIS p Hps)). apply in_concat. eauto.
    + apply map_ext_in. intros r Hr. apply map_ext_in. intros p Hp. apply EO. intros Hps. apply (proj2 (DIS p Hps)). apply in_concat. eauto.
Qed.
