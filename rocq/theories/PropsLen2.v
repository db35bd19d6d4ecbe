(** C50, the offset for arrays of every shape and every approach; C58, [stable] of joint ordinal entropies. *)
From Coq Require Import Reals Lra Lia List ZArith Arith Bool.
From Verif Require Import Res RSum Spec SpecBase MBase MData MMI MTE MGeneric MNsb MComb MCont MKern MKnn MFam MOrd Ord PropsLen.
Import ListNotations.
Local Open Scope R_scope.

(** ** Specification: the times t at which both x[t] and y[t + o] exist *)
Definition paired_times (n : nat) (o : Z) : list nat :=
  filter (fun t => (0 <=? Z.of_nat t + o)%Z && (Z.of_nat t + o <? Z.of_nat n)%Z) (seq 0 n).
Definition at_times {A} (d : A) (xs : list A) (ts : list nat) : list A := map (fun t => nth t xs d) ts.
Definition later (o : Z) (ts : list nat) : list nat := map (fun t => Z.to_nat (Z.of_nat t + o)) ts.
(** the observations of an array at these times, its number of dimensions unchanged *)
Definition obs (a : arr) (ts : list nat) : arr := match a with A1 xs => A1 (at_times 0%Z xs ts) | A2 rs => A2 (at_times [] rs ts) end.
Definition fobs (a : farr) (ts : list nat) : farr := match a with F1 xs => F1 (at_times 0 xs ts) | F2 rs => F2 (at_times [] rs ts) end.

Lemma filter_all {A} (p : A -> bool) l : (forall x, In x l -> p x = true) -> filter p l = l.
Proof. induction l as [|x l IH]; intros F; [reflexivity|]. cbn [filter]. rewrite (F x (or_introl eq_refl)), IH; [reflexivity|]. intros y Hy. apply F. right. exact Hy. Qed.
Lemma filter_none {A} (p : A -> bool) l : (forall x, In x l -> p x = false) -> filter p l = [].
Proof. induction l as [|x l IH]; intros F; [reflexivity|]. cbn [filter]. rewrite (F x (or_introl eq_refl)), IH; [reflexivity|]. intros y Hy. apply F. right. exact Hy. Qed.
Lemma times_pos n o : (0 <= o)%Z -> paired_times n o = seq 0 (n - Z.to_nat o).
Proof.
  intros O. unfold paired_times. set (m := (n - Z.to_nat o)%nat). assert (EN : seq 0 n = seq 0 (m + (n - m))) by (f_equal; unfold m; lia). rewrite EN. rewrite seq_app, filter_app.
  rewrite filter_all, filter_none, app_nil_r; [reflexivity| |]; intros t Ht; apply in_seq in Ht.
  - apply andb_false_iff. right. apply Z.ltb_ge. unfold m in Ht. lia.
  - apply andb_true_iff. split; [apply Z.leb_le|apply Z.ltb_lt]; unfold m in Ht; lia.
Qed.
Lemma times_neg n o : (o <= 0)%Z -> paired_times n o = seq (Z.to_nat (- o)) (n - Z.to_nat (- o)).
Proof.
  intros O. unfold paired_times. destruct (Nat.le_gt_cases n (Z.to_nat (- o))) as [L|L].
  - replace (n - Z.to_nat (- o))%nat with 0%nat by lia. cbn [seq]. apply filter_none. intros t Ht. apply in_seq in Ht.
    apply andb_false_iff. left. apply Z.leb_gt. lia.
  - set (m := Z.to_nat (- o)) in *. assert (EN : seq 0 n = seq 0 (m + (n - m))) by (f_equal; lia). rewrite EN. rewrite seq_app, filter_app.
    rewrite filter_none, filter_all; [reflexivity| |]; intros t Ht; apply in_seq in Ht.
    + apply andb_true_iff. split; [apply Z.leb_le|apply Z.ltb_lt]; lia.
    + apply andb_false_iff. left. apply Z.leb_gt. lia.
Qed.
Lemma at_seq_0 {A} (d : A) xs k : (k <= length xs)%nat -> at_times d xs (seq 0 k) = firstn k xs.
Proof.
  revert xs. induction k as [|k IH]; intros xs L; [reflexivity|]. destruct xs as [|x xs]; [cbn in L; lia|]. unfold at_times in *. cbn [seq map firstn nth].
  f_equal. rewrite <- seq_shift, map_map. cbn [nth]. apply IH. cbn in L. lia.
Qed.
Lemma at_seq_k {A} (d : A) k : forall xs, at_times d xs (seq k (length xs - k)) = skipn k xs.
Proof.
  induction k as [|k IH]; intros xs.
  - rewrite Nat.sub_0_r, at_seq_0 by lia. apply firstn_all.
  - destruct xs as [|x xs]; [reflexivity|]. cbn [length Nat.sub skipn]. rewrite <- (IH xs). unfold at_times. rewrite <- seq_shift, map_map. reflexivity.
Qed.
Lemma later_seq o : forall n a, (0 <= Z.of_nat a + o)%Z -> later o (seq a n) = seq (Z.to_nat (Z.of_nat a + o)) n.
Proof.
  unfold later. induction n as [|n IH]; intros a O; [reflexivity|]. cbn [seq map]. rewrite IH by lia. do 2 f_equal. lia.
Qed.
Lemma x_pos {A} (d : A) xs o : (0 <= o)%Z -> at_times d xs (paired_times (length xs) o) = firstn (length xs - Z.to_nat o) xs.
Proof. intros O. rewrite times_pos by exact O. apply at_seq_0. lia. Qed.
Lemma x_neg {A} (d : A) xs o : (o <= 0)%Z -> at_times d xs (paired_times (length xs) o) = skipn (Z.to_nat (- o)) xs.
Proof. intros O. rewrite times_neg by exact O. apply at_seq_k. Qed.
Lemma y_pos {A} (d : A) ys o : (0 <= o)%Z -> at_times d ys (later o (paired_times (length ys) o)) = skipn (Z.to_nat o) ys.
Proof. intros O. rewrite times_pos by exact O. rewrite later_seq by lia. apply at_seq_k. Qed.
Lemma y_neg {A} (d : A) ys o : (o <= 0)%Z -> at_times d ys (later o (paired_times (length ys) o)) = firstn (length ys - Z.to_nat (- o)) ys.
Proof. intros O. rewrite times_neg by exact O. rewrite later_seq by lia. replace (Z.to_nat (Z.of_nat (Z.to_nat (- o)) + o)) with 0%nat by lia. apply at_seq_0. lia. Qed.

(** ** the offset pairs x[t] with y[t + o], for every approach and arrays of either dimension *)
Lemma mi_init_offset o x y : arr_len x = arr_len y ->
  mi_init (Some o) [x; y] = Ok [obs x (paired_times (arr_len x) o); obs y (later o (paired_times (arr_len x) o))].
Proof.
  intros L. unfold mi_init. cbn [length Nat.ltb Nat.leb andb hd arr_len forallb]. rewrite Nat.eqb_refl, L, Nat.eqb_refl. cbn [andb negb nth].
  assert (EX : obs x (paired_times (arr_len y) o) = if Z.ltb o 0 then arr_skip (Z.to_nat (- o)) x else arr_drop_last (Z.to_nat o) x).
  { rewrite <- L. destruct (Z.ltb_spec o 0) as [P|P]; destruct x as [xs|xs]; cbn [obs arr_len arr_skip arr_drop_last]; f_equal; (apply x_neg || apply x_pos); lia. }
  assert (EY : obs y (later o (paired_times (arr_len y) o)) = if Z.ltb o 0 then arr_drop_last (Z.to_nat (- o)) y else arr_skip (Z.to_nat o) y).
  { destruct (Z.ltb_spec o 0) as [P|P]; destruct y as [ys|ys]; cbn [obs arr_len arr_skip arr_drop_last]; f_equal; (apply y_neg || apply y_pos); lia. }
  rewrite EX, EY. destruct (Z.ltb_spec 0 o) as [P|P]; [destruct (Z.ltb_spec o 0); [lia|reflexivity]|].
  destruct (Z.ltb_spec o 0) as [Q|Q]; [reflexivity|]. assert (o = 0%Z) as -> by lia. cbn [Z.to_nat].
  destruct x, y; cbn [arr_drop_last arr_skip skipn]; rewrite Nat.sub_0_r, firstn_all; reflexivity.
Qed.
Lemma obs_len a ts : arr_len (obs a ts) = length ts.
Proof. destruct a; cbn; apply map_length. Qed.
Lemma fobs_len a ts : flen (fobs a ts) = length ts.
Proof. destruct a; cbn; apply map_length. Qed.

Theorem C50_offset_symbols : forall b c E Kg und o x y, arr_len x = arr_len y ->
  let ts := paired_times (arr_len x) o in
  symbol_mi b c E Kg und (Some o) [x; y] = symbol_mi b c E Kg und (Some 0%Z) [obs x ts; obs y (later o ts)].
Proof.
  intros b c E Kg und o x y L ts. assert (I0 : mi_init (Some 0%Z) [obs x ts; obs y (later o ts)] = Ok [obs x ts; obs y (later o ts)]).
  { unfold mi_init. cbn [length Nat.ltb Nat.leb andb hd forallb]. rewrite !obs_len. unfold later. rewrite map_length, !Nat.eqb_refl. reflexivity. }
  unfold symbol_mi, mi_discrete, mi_mm, mi_discrete_local, mi_mm_local, MGeneric.gen_mi, ansb_mi, nsb_mi, MGeneric.gen_mi.
  rewrite !(mi_init_offset o x y L). fold ts. rewrite !I0. reflexivity.
Qed.
Print Assumptions C50_offset_symbols.

Lemma fmi_init_offset o nm x y : flen x = flen y ->
  fmi_init (Some o) nm [x; y] = fmi_init (Some 0%Z) nm [fobs x (paired_times (flen x) o); fobs y (later o (paired_times (flen x) o))].
Proof.
  intros L. unfold fmi_init. cbn [length Nat.ltb Nat.leb andb hd forallb]. rewrite !fobs_len. unfold later at 1. rewrite map_length, !Nat.eqb_refl, L, !Nat.eqb_refl. cbn [andb negb nth Z.ltb Z.compare].
  assert (EX : fobs x (paired_times (flen y) o) = if Z.ltb o 0 then fskip (Z.to_nat (- o)) x else fdrop_last (Z.to_nat o) x).
  { rewrite <- L. destruct (Z.ltb_spec o 0) as [P|P]; destruct x as [xs|xs]; cbn [fobs flen fskip fdrop_last]; f_equal; (apply x_neg || apply x_pos); lia. }
  assert (EY : fobs y (later o (paired_times (flen y) o)) = if Z.ltb o 0 then fdrop_last (Z.to_nat (- o)) y else fskip (Z.to_nat o) y).
  { destruct (Z.ltb_spec o 0) as [P|P]; destruct y as [ys|ys]; cbn [fobs flen fskip fdrop_last]; f_equal; (apply y_neg || apply y_pos); lia. }
  rewrite EX, EY. destruct (Z.ltb_spec 0 o) as [P|P]; [destruct (Z.ltb_spec o 0); [lia|reflexivity]|].
  change (match o with Z0 => false | Zpos _ => false | Zneg _ => true end) with (Z.ltb o 0).
  destruct (Z.ltb_spec o 0) as [Q|Q]; [reflexivity|]. assert (o = 0%Z) as -> by lia. cbn [Z.to_nat].
  assert (S0 : forall a, fdrop_last 0 a = a) by (intros [l|l]; cbn [fdrop_last]; rewrite Nat.sub_0_r, firstn_all; reflexivity).
  assert (S1 : forall a, fskip 0 a = a) by (intros [l|l]; reflexivity). rewrite S0, S1. reflexivity.
Qed.
Theorem C50_offset_numeric : forall E N k a e noise o nm x y, flen x = flen y ->
  let ts := paired_times (flen x) o in
  numeric_mi E N k a e noise (Some o) nm [x; y] = numeric_mi E N k a e noise (Some 0%Z) nm [fobs x ts; fobs y (later o ts)].
Proof.
  intros E N k a e noise o nm x y L ts. unfold numeric_mi, kernel_mi, kernel_mi_local, ksg_mi, ksg_mi_local, fam_mi.
  rewrite !(fmi_init_offset o nm x y L). fold ts. reflexivity.
Qed.
Print Assumptions C50_offset_numeric.

Theorem C50_offset_ordinal : forall {T} `{Cmp T} (k : kind T) b o x0 (xs ys : list T) d s, length xs = length ys ->
  let ts := paired_times (length xs) o in
  mi_ordinal k b o [xs; ys] d s = mi_ordinal k b 0 [at_times x0 xs ts; at_times x0 ys (later o ts)] d s.
Proof.
  intros T C k b o x0 xs ys d s L ts.
  assert (I : ord_mi_init o [xs; ys] = ord_mi_init 0 [at_times x0 xs ts; at_times x0 ys (later o ts)]); [|unfold mi_ordinal; rewrite I; reflexivity].
  unfold ord_mi_init. cbn [length Nat.ltb Nat.leb andb hd forallb].
  assert (LX : length (at_times x0 xs ts) = length ts) by apply map_length.
  assert (LY : length (at_times x0 ys (later o ts)) = length ts) by (unfold at_times, later; rewrite !map_length; reflexivity).
  rewrite LX, LY, <- L, !Nat.eqb_refl. cbn [andb negb nth Z.ltb Z.compare].
  destruct (Z.ltb_spec 0 o) as [P|P].
  - unfold ts. rewrite x_pos by lia. rewrite L. rewrite y_pos by lia. reflexivity.
  - change (match o with Z0 => false | Zpos _ => false | Zneg _ => true end) with (Z.ltb o 0). destruct (Z.ltb_spec o 0) as [Q|Q].
    + unfold ts. rewrite x_neg by lia. rewrite L. rewrite y_neg by lia. reflexivity.
    + unfold ts. rewrite x_pos by lia. rewrite L. rewrite y_pos by lia. assert (o = 0%Z) as -> by lia. cbn [Z.to_nat skipn]. rewrite Nat.sub_0_r, <- L, firstn_all. reflexivity.
Qed.
Print Assumptions C50_offset_ordinal.
Example C50_offset_example : obs (A2 [[1; 2]; [3; 4]; [5; 6]]%Z) (paired_times 3 1) = A2 [[1; 2]; [3; 4]]%Z /\
  obs (A1 [7; 8; 9]%Z) (later 1 (paired_times 3 1)) = A1 [8; 9]%Z /\ paired_times 3 (-2) = [2]%nat.
Proof. repeat split; reflexivity. Qed.

(** ** C32: the argument [stable] has no effect on joint and cross-entropies (EO 225-283) *)
Theorem C32_stable_ignored : forall {T} `{Cmp T} (df : list T -> list nat) b cols xs ys d s,
  joint_entropy_ordinal (mkKind df true) b cols d s = joint_entropy_ordinal (mkKind df false) b cols d s /\
  cross_entropy_ordinal (mkKind df true) b xs ys d s = cross_entropy_ordinal (mkKind df false) b xs ys d s.
Proof. intros. split; reflexivity. Qed.
