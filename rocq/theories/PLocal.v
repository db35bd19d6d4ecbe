(** Proofs: the local values computed by the code are the pointwise information of each sample. *)
From Coq Require Import Reals Lra Lia List ZArith Arith Bool Permutation.
From Verif Require Import Res RSum Spec Info Info2 Ord MBase MData MEntropy MMI SpecBase SpecLocal PBase PEntropy PCoo PMI PMI2 PMI3 PCMI PMI4 PCMI2 PMI5 PEst.
Import ListNotations.
Local Open Scope R_scope.

Lemma cnt_list {S A} `{EqDec S} `{EqDec A} (X : nat -> S) (us : list A) d N t : length us = N -> (t < N)%nat ->
  (forall s t, (s < N)%nat -> (t < N)%nat -> (X t = X s <-> nth t us d = nth s us d)) ->
  cnt (seq 0 N) X (X t) = INR (count us (nth t us d)).
Proof.
  intros L Ht P. rewrite cnt_count. f_equal.
  replace (X t) with (nth t (map X (seq 0 N)) (X 0%nat)) by (rewrite (map_nth X), seq_nth by exact Ht; reflexivity).
  apply count_nth_partition; [|rewrite map_length, seq_length; exact Ht].
  split; [rewrite map_length, seq_length; congruence|]. rewrite map_length, seq_length.
  intros i j dx dy Hi Hj. rewrite !(nth_indep (map X _) dx (X 0%nat)) by (rewrite map_length, seq_length; assumption).
  rewrite !(map_nth X), !seq_nth by assumption. cbn [plus]. rewrite !(nth_indep us dy d) by lia. apply P; assumption.
Qed.

Lemma part_nth {A B} (us : list A) (vs : list B) da db N s t : same_partition us vs -> length us = N -> (s < N)%nat -> (t < N)%nat ->
  (nth t vs db = nth s vs db <-> nth t us da = nth s us da).
Proof. intros [L P] LN Hs Ht. symmetry. apply P; lia. Qed.

Lemma combine_seq {A B} (da : A) (db : B) (us : list A) (vs : list B) N : length us = N -> length vs = N ->
  combine us vs = map (fun t => (nth t us da, nth t vs db)) (seq 0 N).
Proof.
  intros L1 L2. rewrite (list_as_map da us N L1) at 1. rewrite (list_as_map db vs N L2) at 1. apply combine_map.
Qed.

Lemma prob_eq {A} `{EqDec A} (xs : list A) x : prob xs x = INR (count xs x) / INR (length xs).
Proof. reflexivity. Qed.

Lemma count_nth_pos {A} `{EqDec A} (xs : list A) d t : (t < length xs)%nat -> 0 < INR (count xs (nth t xs d)).
Proof. intros Ht. apply lt_0_INR. apply count_occ_In. apply nth_In. exact Ht. Qed.

Lemma count_const {D} `{EqDec D} (ws : list D) d t : (t < length ws)%nat -> (forall a b, In a ws -> In b ws -> a = b) -> count ws (nth t ws d) = length ws.
Proof.
  intros Ht C. assert (I0 : In (nth t ws d) ws) by (apply nth_In; exact Ht). set (v := nth t ws d) in *. clearbody v.
  assert (G : forall a, In a ws -> a = v) by (intros a Ha; apply C; assumption). clear -G.
  unfold count. induction ws as [|a r IH]; [reflexivity|]. cbn [count_occ]. destruct (eq_dec a v) as [|NE0]; [|exfalso; apply NE0, G; left; reflexivity].
  cbn [length]. f_equal. apply IH. intros c Hc. apply G. right. exact Hc.
Qed.

Lemma const_rows a : nlevels a = 1%nat -> forall r1 r2, In r1 (arr_rows a) -> In r2 (arr_rows a) -> r1 = r2.
Proof.
  destruct a as [xs|rs]; cbn [nlevels arr_rows]; intros E r1 r2 H1 H2.
  - apply in_map_iff in H1, H2. destruct H1 as (a & <- & Ha), H2 as (b & <- & Hb). f_equal. apply (unique_1_const xs E); assumption.
  - apply (unique_1_const rs E); assumption.
Qed.

Lemma const_part {D F} (us0 : list D) (rs : list F) : same_partition us0 rs -> (forall r1 r2, In r1 rs -> In r2 rs -> r1 = r2) ->
  forall a b, In a us0 -> In b us0 -> a = b.
Proof.
  intros [L P] C a b Ha Hb. destruct (In_nth us0 a a Ha) as (i & Hi & <-). destruct (In_nth us0 b a Hb) as (j & Hj & <-).
  destruct rs as [|r0 rs']; [cbn [length] in L; lia|]. apply (P i j a r0 Hi Hj). apply C; apply nth_In; lia.
Qed.

Lemma map_repeat0 (f : nat -> R) n m : (forall t, (m <= t < m + n)%nat -> f t = 0) -> map f (seq m n) = repeat 0 n.
Proof.
  revert m. induction n as [|n IH]; intros m E; [reflexivity|]. cbn [seq map repeat]. f_equal; [apply E; lia|apply IH; intros t Ht; apply E; lia].
Qed.

Section Two.
Context {A B : Type} `{EqDec A} `{EqDec B}.
Variables (x y : arr) (us : list A) (vs : list B) (N : nat).
Hypothesis Lx : arr_len x = N.
Hypothesis Ly : arr_len y = N.
Hypothesis Px : same_partition us (arr_rows x).
Hypothesis Py : same_partition vs (arr_rows y).
Hypothesis HN : (0 < N)%nat.

Lemma pm_lu : length us = N. Proof using Lx Px. rewrite (proj1 Px), arr_rows_len. exact Lx. Qed.
Lemma pm_lv : length vs = N. Proof using Ly Py. rewrite (proj1 Py), arr_rows_len. exact Ly. Qed.

Lemma pm_local_mi da db : local_mi us vs =
  map (fun t => ln (INR (count (combine us vs) (nth t us da, nth t vs db))) - ln (INR N)
     - (ln (INR (count us (nth t us da))) + ln (INR (count vs (nth t vs db)))) + 2 * ln (INR N)) (seq 0 N).
Proof using Lx Ly Px Py HN.
  pose proof pm_lu as Lu. pose proof pm_lv as Lv. unfold local_mi.
  match goal with |- map ?f ?l = _ => transitivity (map f (map (fun t => (nth t us da, nth t vs db)) (seq 0 N))) end;
    [f_equal; apply combine_seq; assumption|]. rewrite map_map. apply map_ext_in. intros t Ht. apply in_seq in Ht.
  assert (P : 0 < INR N) by (apply INR_pos; exact HN).
  assert (Lc : length (combine us vs) = N) by (rewrite combine_length, Lu, Lv; lia).
  assert (P1 : 0 < INR (count (combine us vs) (nth t us da, nth t vs db))).
  { rewrite <- combine_nth by congruence. apply count_nth_pos. lia. }
  assert (P2 : 0 < INR (count us (nth t us da))) by (apply count_nth_pos; lia).
  assert (P3 : 0 < INR (count vs (nth t vs db))) by (apply count_nth_pos; lia).
  rewrite !prob_eq, Lc, Lu, Lv.
  set (a := INR (count (combine us vs) _)) in *. set (e := INR (count us _)) in *. set (f := INR (count vs _)) in *. set (q := INR N) in *.
  clearbody a e f q. replace (a / q / (e / q * (f / q))) with ((a * q) / (e * f)) by (field; lra).
  rewrite (ln_div (a * q) (e * f)), (ln_mult a q), (ln_mult e f) by (try apply Rmult_lt_0_compat; assumption). ring.
Qed.

Lemma pm_Gt da db t : (t < N)%nat -> Gt [x; y] N t =
  ln (INR (count (combine us vs) (nth t us da, nth t vs db))) - ln (INR N)
     - (ln (INR (count us (nth t us da))) + ln (INR (count vs (nth t vs db)))) + 2 * ln (INR N).
Proof using Lx Ly Px Py HN.
  intros Ht. pose proof pm_lu as Lu. pose proof pm_lv as Lv.
  assert (FL : Forall (fun a => arr_len a = N) [x; y]) by (repeat constructor; assumption).
  unfold Gt. cbn [length seq sumf].
  assert (XP : forall s t, (s < N)%nat -> (t < N)%nat -> (Xi [x; y] 0 t = Xi [x; y] 0 s <-> nth t us da = nth s us da)).
  { intros s t' Hs Ht'. rewrite (Xi_partition [x; y] N FL 0 s t') by (cbn [length]; lia). cbn [nth]. apply (part_nth us (arr_rows x) da [] N s t' Px Lu); assumption. }
  assert (YP : forall s t, (s < N)%nat -> (t < N)%nat -> (Xi [x; y] 1 t = Xi [x; y] 1 s <-> nth t vs db = nth s vs db)).
  { intros s t' Hs Ht'. rewrite (Xi_partition [x; y] N FL 1 s t') by (cbn [length]; lia). cbn [nth]. apply (part_nth vs (arr_rows y) db [] N s t' Py Lv); assumption. }
  rewrite (cnt_list (Xi [x; y] 0) us da N t Lu Ht XP), (cnt_list (Xi [x; y] 1) vs db N t Lv Ht YP).
  rewrite (cnt_list (rowc [x; y]) (combine us vs) (da, db) N t); [rewrite combine_nth by congruence| |exact Ht|].
  - change (INR 2) with 2. ring.
  - rewrite combine_length, Lu, Lv. lia.
  - intros s t' Hs Ht'. rewrite (rowc_partition [x; y] N FL s t') by assumption. cbn [map]. rewrite !combine_nth by congruence.
    rewrite pair_equal_spec. rewrite <- (XP s t' Hs Ht'), <- (YP s t' Hs Ht').
    rewrite (Xi_partition [x; y] N FL 0 s t'), (Xi_partition [x; y] N FL 1 s t') by (try assumption; cbn [length]; lia). cbn [nth].
    split; [intros E; injection E; auto|intros [E1 E2]; congruence].
Qed.

Theorem mi_local_point b : valid_base b -> mi_local b None [x; y] = Ok (map (fun v => v / unit_of b) (local_mi us vs)).
Proof using Lx Ly Px Py HN.
  intros V. pose proof pm_lu as Lu. pose proof pm_lv as Lv.
  assert (FL : Forall (fun a => arr_len a = N) [x; y]) by (repeat constructor; assumption).
  destruct us as [|da us'] eqn:EU; [cbn [length] in Lu; lia|]. destruct vs as [|db vs'] eqn:EV; [cbn [length] in Lv; lia|].
  rewrite <- EU, <- EV in *. rewrite (pm_local_mi da db), map_map.
  destruct (existsb (fun a => Nat.eqb (nlevels a) 1) [x; y]) eqn:EE.
  - unfold mi_local. rewrite (coo_of_ok [x; y] N FL ltac:(discriminate)). cbn [bind].
    rewrite (no_early [x; y] N FL ltac:(discriminate) HN), EE. cbn [hd]. rewrite Lx. f_equal. symmetry. apply map_repeat0.
    intros t Ht. match goal with |- ?v / _ = 0 => assert (Z0 : v = 0); [|rewrite Z0; unfold Rdiv; ring] end.
    rewrite <- combine_nth by congruence.
    assert (Lc : length (combine us vs) = N) by (rewrite combine_length, Lu, Lv; lia).
    apply existsb_exists in EE. destruct EE as (a & [<-|[<-|[]]] & Ea); apply Nat.eqb_eq in Ea.
    + assert (Cu : forall a b, In a us -> In b us -> a = b) by (apply (const_part us _ Px), const_rows, Ea).
      rewrite (count_const us da t ltac:(lia) Cu), Lu.
      rewrite (count_nth_partition (combine us vs) vs (da, db) db t); [ring| |lia]. apply const_pair_partition_l; [congruence|exact Cu].
    + assert (Cv : forall a b, In a vs -> In b vs -> a = b) by (apply (const_part vs _ Py), const_rows, Ea).
      rewrite (count_const vs db t ltac:(lia) Cv), Lv.
      rewrite (count_nth_partition (combine us vs) us (da, db) da t); [ring| |lia]. apply const_pair_partition; [congruence|exact Cv].
  - rewrite (mi_local_ok [x; y] N FL ltac:(discriminate) HN b None V EE). f_equal. apply map_ext_in. intros t Ht. apply in_seq in Ht.
    rewrite (pm_Gt da db t) by lia. reflexivity.
Qed.
End Two.

(** ** Conditional *)
Section Cond.
Context {A B C : Type} `{EqDec A} `{EqDec B} `{EqDec C}.
Variables (x y : arr) (zs : list Z) (us : list A) (vs : list B) (ws : list C) (N : nat).
Hypothesis Lx : arr_len x = N.
Hypothesis Ly : arr_len y = N.
Hypothesis Lz : length zs = N.
Hypothesis Px : same_partition us (arr_rows x).
Hypothesis Py : same_partition vs (arr_rows y).
Hypothesis Pz : same_partition ws zs.
Hypothesis HN : (0 < N)%nat.

Lemma pc_lu : length us = N. Proof using Lx Px. rewrite (proj1 Px), arr_rows_len. exact Lx. Qed.
Lemma pc_lv : length vs = N. Proof using Ly Py. rewrite (proj1 Py), arr_rows_len. exact Ly. Qed.
Lemma pc_lw : length ws = N. Proof using Lz Pz. rewrite (proj1 Pz). exact Lz. Qed.

Lemma pc_local da db dc : local_cmi us vs ws =
  map (fun t => ln (INR (count (combine (combine us vs) ws) (nth t us da, nth t vs db, nth t ws dc))) + ln (INR (count ws (nth t ws dc)))
     - (ln (INR (count (combine us ws) (nth t us da, nth t ws dc))) + ln (INR (count (combine vs ws) (nth t vs db, nth t ws dc))))) (seq 0 N).
Proof using Lx Ly Lz Px Py Pz HN.
  pose proof pc_lu as Lu. pose proof pc_lv as Lv. pose proof pc_lw as Lw. unfold local_cmi.
  assert (Lc : length (combine us vs) = N) by (rewrite combine_length, Lu, Lv; lia).
  match goal with |- map ?f ?l = _ => transitivity (map f (map (fun t => (nth t us da, nth t vs db, nth t ws dc)) (seq 0 N))) end.
  { f_equal. rewrite (combine_seq (da, db) dc (combine us vs) ws N Lc Lw). apply map_ext. intros t. rewrite combine_nth by congruence. reflexivity. }
  rewrite map_map. apply map_ext_in. intros t Ht. apply in_seq in Ht.
  assert (P : 0 < INR N) by (apply INR_pos; exact HN).
  assert (Lc3 : length (combine (combine us vs) ws) = N) by (rewrite combine_length, Lc, Lw; lia).
  assert (Lc1 : length (combine us ws) = N) by (rewrite combine_length, Lu, Lw; lia).
  assert (Lc2 : length (combine vs ws) = N) by (rewrite combine_length, Lv, Lw; lia).
  assert (P1 : 0 < INR (count (combine (combine us vs) ws) (nth t us da, nth t vs db, nth t ws dc))).
  { rewrite <- (combine_nth us vs) by congruence. rewrite <- combine_nth by congruence. apply count_nth_pos. lia. }
  assert (P2 : 0 < INR (count ws (nth t ws dc))) by (apply count_nth_pos; lia).
  assert (P3 : 0 < INR (count (combine us ws) (nth t us da, nth t ws dc))).
  { rewrite <- combine_nth by congruence. apply count_nth_pos. lia. }
  assert (P4 : 0 < INR (count (combine vs ws) (nth t vs db, nth t ws dc))).
  { rewrite <- combine_nth by congruence. apply count_nth_pos. lia. }
  rewrite !prob_eq, Lc3, Lw, Lc1, Lc2.
  set (a := INR (count (combine (combine us vs) ws) _)) in *. set (e := INR (count ws _)) in *. set (f := INR (count (combine us ws) _)) in *.
  set (g := INR (count (combine vs ws) _)) in *. set (q := INR N) in *.
  clearbody a e f g q. replace (a / q * (e / q) / (f / q * (g / q))) with ((a * e) / (f * g)) by (field; lra).
  rewrite (ln_div (a * e) (f * g)), (ln_mult a e), (ln_mult f g) by (try apply Rmult_lt_0_compat; assumption). ring.
Qed.

Lemma pc_Ct da db dc t : (t < N)%nat -> Ct [x; y] zs N t =
  ln (INR (count (combine (combine us vs) ws) (nth t us da, nth t vs db, nth t ws dc))) + ln (INR (count ws (nth t ws dc)))
     - (ln (INR (count (combine us ws) (nth t us da, nth t ws dc))) + ln (INR (count (combine vs ws) (nth t vs db, nth t ws dc)))).
Proof using Lx Ly Lz Px Py Pz HN.
  intros Ht. pose proof pc_lu as Lu. pose proof pc_lv as Lv. pose proof pc_lw as Lw.
  set (al := [x; y; A1 zs]).
  assert (FL : Forall (fun a => arr_len a = N) al) by (repeat constructor; assumption).
  unfold Ct. cbn [length seq sumf app]. change ([x; y; A1 zs]) with al.
  assert (XP : forall s t, (s < N)%nat -> (t < N)%nat -> (Xi al 0 t = Xi al 0 s <-> nth t us da = nth s us da)).
  { intros s t' Hs Ht'. rewrite (Xi_partition al N FL 0 s t') by (cbn [length al]; lia). cbn [nth al]. apply (part_nth us (arr_rows x) da [] N s t' Px Lu); assumption. }
  assert (YP : forall s t, (s < N)%nat -> (t < N)%nat -> (Xi al 1 t = Xi al 1 s <-> nth t vs db = nth s vs db)).
  { intros s t' Hs Ht'. rewrite (Xi_partition al N FL 1 s t') by (cbn [length al]; lia). cbn [nth al]. apply (part_nth vs (arr_rows y) db [] N s t' Py Lv); assumption. }
  assert (ZP : forall s t, (s < N)%nat -> (t < N)%nat -> (Xi al 2 t = Xi al 2 s <-> nth t ws dc = nth s ws dc)).
  { intros s t' Hs Ht'. rewrite (Xi_partition al N FL 2 s t') by (cbn [length al]; lia). cbn [nth al].
    rewrite !arr_at_A1 by lia. rewrite <- (part_nth ws zs dc 0%Z N s t' Pz Lw Hs Ht'). split; [intros E; injection E; auto|congruence]. }
  rewrite (cnt_list (Xi al 2) ws dc N t Lw Ht ZP).
  assert (Q : forall (D : Type) (ED : EqDec D) (es : list D) de i, length es = N ->
    (forall s t, (s < N)%nat -> (t < N)%nat -> (Xi al i t = Xi al i s <-> nth t es de = nth s es de)) ->
    cnt (seq 0 N) (pair (Xi al i) (Xi al 2)) (Xi al i t, Xi al 2 t) = INR (count (combine es ws) (nth t es de, nth t ws dc))).
  { intros D ED es de i Le PP. change (Xi al i t, Xi al 2 t) with (pair (Xi al i) (Xi al 2) t).
    rewrite (cnt_list (pair (Xi al i) (Xi al 2)) (combine es ws) (de, dc) N t); [rewrite combine_nth by congruence; reflexivity| |exact Ht|].
    - rewrite combine_length, Le, Lw. lia.
    - intros s t' Hs Ht'. unfold pair. rewrite !combine_nth by congruence. rewrite !pair_equal_spec, PP, ZP by assumption. tauto. }
  rewrite (Q A _ us da 0%nat Lu XP), (Q B _ vs db 1%nat Lv YP).
  rewrite (cnt_list (rowc al) (combine (combine us vs) ws) (da, db, dc) N t); [rewrite !combine_nth by (rewrite ?combine_length; lia)| |exact Ht|].
  - change (INR 2) with 2. ring.
  - rewrite !combine_length, Lu, Lv, Lw. lia.
  - intros s t' Hs Ht'. rewrite (rowc_partition al N FL s t') by assumption. cbn [map al]. rewrite !combine_nth by (rewrite ?combine_length; lia).
    rewrite !pair_equal_spec. rewrite <- (XP s t' Hs Ht'), <- (YP s t' Hs Ht'), <- (ZP s t' Hs Ht').
    rewrite (Xi_partition al N FL 0 s t'), (Xi_partition al N FL 1 s t'), (Xi_partition al N FL 2 s t') by (try assumption; cbn [length al]; lia). cbn [nth al].
    split; [intros E; injection E; auto|intros [[E1 E2] E3]; congruence].
Qed.

Theorem cmi_local_point b : valid_base b -> cmi_local b None [x; y] (A1 zs) = Ok (map (fun v => v / unit_of b) (local_cmi us vs ws)).
Proof using Lx Ly Lz Px Py Pz HN.
  intros V. pose proof pc_lu as Lu. pose proof pc_lv as Lv. pose proof pc_lw as Lw.
  assert (FL : Forall (fun a => arr_len a = N) [x; y]) by (repeat constructor; assumption).
  destruct us as [|da us'] eqn:EU; [cbn [length] in Lu; lia|]. destruct vs as [|db vs'] eqn:EV; [cbn [length] in Lv; lia|].
  destruct ws as [|dc ws'] eqn:EW; [cbn [length] in Lw; lia|].
  rewrite <- EU, <- EV, <- EW in *. rewrite (pc_local da db dc), map_map.
  destruct (early [x; y] zs) eqn:EE.
  - unfold cmi_local. rewrite (coo_of_ok _ N (al_len [x; y] zs N FL Lz) (al_ne [x; y] zs)). cbn [bind].
    rewrite ndim_k1, (early_eq [x; y] zs), EE. cbn [hd]. rewrite Lx. f_equal. symmetry. apply map_repeat0.
    intros t Ht. match goal with |- ?v / _ = 0 => assert (Z0 : v = 0); [|rewrite Z0; unfold Rdiv; ring] end.
    assert (Lc : length (combine us vs) = N) by (rewrite combine_length, Lu, Lv; lia).
    assert (Lc3 : length (combine (combine us vs) ws) = N) by (rewrite combine_length, Lc, Lw; lia).
    assert (Lc1 : length (combine us ws) = N) by (rewrite combine_length, Lu, Lw; lia).
    assert (Lc2 : length (combine vs ws) = N) by (rewrite combine_length, Lv, Lw; lia).
    rewrite <- (combine_nth us vs), <- (combine_nth us ws), <- (combine_nth vs ws), <- (combine_nth (combine us vs) ws) by congruence.
    unfold early in EE. apply existsb_exists in EE. destruct EE as (a & Ha & Ea); apply Nat.eqb_eq in Ea. apply Nat.eq_mul_1 in Ea. destruct Ea as [Ea Ez].
    assert (Cw : forall a b, In a ws -> In b ws -> a = b) by (apply (const_part ws _ Pz), unique_1_const, Ez).
    rewrite (count_nth_partition (combine us ws) us (da, dc) da t), (count_nth_partition (combine vs ws) vs (db, dc) db t),
      (count_nth_partition (combine (combine us vs) ws) (combine us vs) (da, db, dc) (da, db) t)
      by first [lia | apply const_pair_partition; [congruence|exact Cw]].
    rewrite (count_const ws dc t ltac:(lia) Cw), Lw.
    destruct Ha as [<-|[<-|[]]].
    + assert (Cu : forall a b, In a us -> In b us -> a = b) by (apply (const_part us _ Px), const_rows, Ea).
      rewrite (count_const us da t ltac:(lia) Cu), Lu.
      rewrite (count_nth_partition (combine us vs) vs (da, db) db t); [ring| |lia]. apply const_pair_partition_l; [congruence|exact Cu].
    + assert (Cv : forall a b, In a vs -> In b vs -> a = b) by (apply (const_part vs _ Py), const_rows, Ea).
      rewrite (count_const vs db t ltac:(lia) Cv), Lv.
      rewrite (count_nth_partition (combine us vs) us (da, db) da t); [ring| |lia]. apply const_pair_partition; [congruence|exact Cv].
  - rewrite (cmi_local_ok [x; y] zs N FL Lz HN b None V ltac:(cbn [length]; lia) EE). f_equal. apply map_ext_in. intros t Ht. apply in_seq in Ht.
    rewrite (pc_Ct da db dc t) by lia. reflexivity.
Qed.
End Cond.
