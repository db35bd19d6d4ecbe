(** Property theorems: transfer entropy (C19-C24, C07, C08, C26, C54). *)
From Coq Require Import Reals Lra Lia List ZArith Arith Bool Permutation Sorted.
From Verif Require Import Res RSum Spec SpecTE Info Info2 Ord MBase MData MEntropy MMI MTE SpecBase PBase PEntropy PCoo PMI PMI2 PMI3 PCMI PMI4 PCMI2 PMI5 PMI6 PTE PTE2.
Import ListNotations.
Local Open Scope R_scope.

(** integer keyword argument *)
Notation I n := (NInt (Z.of_nat n)).
(** TE keyword arguments: source / destination history, step size, no propagation time *)
Definition te_kw (l k s : nat) : te_args := mkTE (I l) (I k) (NInt 1) (I s) (Some (NInt 0)) None.
(** the same with a condition history *)
Definition cte_kw (l k m s : nat) : te_args := mkTE (I l) (I k) (I m) (I s) (Some (NInt 0)) None.

(** ** C20: the embedding *)

(** base times are exactly the times [d, d+s, d+2s, ...] before the end of the series *)
Theorem C20_base_times n d s b : (1 <= s)%nat ->
  (In b (base_times n d s) <-> (d <= b < n)%nat /\ exists r, b = (d + r * s)%nat) /\
  StronglySorted Nat.lt (base_times n d s).
Proof.
  intros Hs. split; [apply base_times_In; exact Hs|].
  unfold base_times. generalize (nrows n d s) as m. intros m. generalize 0%nat as a.
  induction m as [|m IH]; intros a; simpl; constructor; [apply IH|].
  rewrite Forall_forall. intros x Hx. apply in_map_iff in Hx. destruct Hx as (r & <- & Hr).
  apply in_seq in Hr. assert (H : (a < r)%nat) by lia.
  assert ((a * s < r * s)%nat) by (apply Nat.mul_lt_mono_pos_r; lia).
  unfold Nat.lt. lia.
Qed.

(** number of rows: the ceiling of (n - d) / s *)
Theorem C20_row_count n d s : (1 <= s)%nat -> (d < n)%nat ->
  (0 < nrows n d s)%nat /\ ((nrows n d s - 1) * s < n - d <= nrows n d s * s)%nat.
Proof.
  intros Hs Hd. pose proof (nrows_pos n d s Hs Hd). split; [assumption|].
  unfold nrows in *. set (q := ((n - d + (s - 1)) / s)%nat) in *.
  pose proof (Nat.div_mod (n - d + (s - 1)) s ltac:(lia)) as E. fold q in E.
  pose proof (Nat.mod_upper_bound (n - d + (s - 1)) s ltac:(lia)). nia.
Qed.

Theorem C20_embedding (xs ys : list Z) l k s n :
  (1 <= l)%nat -> (1 <= k)%nat -> (1 <= s)%nat -> length xs = n -> length ys = n ->
  (Nat.max k l * s < n)%nat ->
  let ts := base_times n (Nat.max k l * s) s in
  te_observations (A1 xs) (A1 ys) (I l) (I k) (I s) RNone =
    Ok (pasts 0%Z xs s l ts, pasts 0%Z ys s k ts, map (fun v => [v]) (presents 0%Z ys ts)) /\
  (forall b, In b ts -> (l * s <= b < n)%nat /\ (k * s <= b < n)%nat).
Proof.
  intros Hl Hk Hs Lx Ly Hd ts.
  assert (HT : forall b, In b ts -> (Nat.max k l * s <= b < n)%nat).
  { intros b Hb. unfold ts in Hb. rewrite base_times_In in Hb by exact Hs. tauto. }
  split.
  - rewrite (te_obs_ok (A1 xs) (A1 ys) l k s n Hl Hk Hs Lx Ly RNone ltac:(discriminate) Hd Logic.I).
    fold ts.
    rewrite !flat_pasts_1d, flat_presents_1d; try assumption; try reflexivity;
      intros b Hb; specialize (HT b Hb); lia.
  - intros b Hb. specialize (HT b Hb). nia.
Qed.

(** multivariate series: rows of the series at the same times are appended *)
Theorem C20_embedding_2d (source dest : arr) l k s n :
  (1 <= l)%nat -> (1 <= k)%nat -> (1 <= s)%nat -> arr_len source = n -> arr_len dest = n ->
  (Nat.max k l * s < n)%nat ->
  let ts := base_times n (Nat.max k l * s) s in
  te_observations source dest (I l) (I k) (I s) RNone =
    Ok (map (@concat Z) (pasts [] (arr_rows source) s l ts),
        map (@concat Z) (pasts [] (arr_rows dest) s k ts), presents [] (arr_rows dest) ts).
Proof.
  intros Hl Hk Hs Lx Ly Hd ts.
  apply (te_obs_ok source dest l k s n Hl Hk Hs Lx Ly RNone ltac:(discriminate) Hd Logic.I).
Qed.

Theorem C20_cte_embedding (xs ys zs : list Z) l k m s n :
  (1 <= l)%nat -> (1 <= k)%nat -> (1 <= m)%nat -> (1 <= s)%nat ->
  length xs = n -> length ys = n -> length zs = n ->
  (Nat.max (Nat.max k l) m * s < n)%nat ->
  let ts := base_times n (Nat.max (Nat.max k l) m * s) s in
  cte_observations (A1 xs) (A1 ys) (A1 zs) (I l) (I k) (I m) (I s) RNone =
    Ok (pasts 0%Z xs s l ts, pasts 0%Z ys s k ts, map (fun v => [v]) (presents 0%Z ys ts), pasts 0%Z zs s m ts).
Proof.
  intros Hl Hk Hm Hs Lx Ly Lz Hd ts.
  assert (HT : forall b, In b ts -> (Nat.max (Nat.max k l) m * s <= b < n)%nat).
  { intros b Hb. unfold ts in Hb. rewrite base_times_In in Hb by exact Hs. tauto. }
  rewrite (cte_obs_ok (A1 xs) (A1 ys) l k s n Hl Hk Hs Lx Ly (A1 zs) m RNone Hm Lz ltac:(discriminate) Hd Logic.I).
  fold ts.
  rewrite !flat_pasts_1d, flat_presents_1d; try assumption; try reflexivity;
      intros b Hb; specialize (HT b Hb); lia.
Qed.

Example C20_example :
  te_observations (A1 [0;1;2;3;4;5;6;7]%Z) (A1 [10;11;12;13;14;15;16;17]%Z) (I 1) (I 2) (I 2) RNone =
  Ok ([[2];[4]]%Z, [[10;12];[12;14]]%Z, [[14];[16]]%Z).
Proof. reflexivity. Qed.

(** ** C21: exactly the unusable parameters are rejected *)
Definition usable (ps : list num) (s : num) (n : nat) : Prop :=
  (forall p, In p ps -> exists h, p = NInt h /\ (1 <= h)%Z /\
     exists t, s = NInt t /\ (h * t < Z.of_nat n)%Z) /\ exists t, s = NInt t /\ (1 <= t)%Z.

Lemma pos_int_spec p : (exists h, (1 <= h)%nat /\ p = I h /\ pos_int p = Some h) \/
  (pos_int p = None /\ forall z, p = NInt z -> (z <= 0)%Z).
Proof.
  destruct p as [z|]; simpl.
  - destruct (Z.ltb_spec 0 z).
    + left. exists (Z.to_nat z). repeat split; [lia|f_equal; lia].
    + right. split; [reflexivity|]. intros z' E. injection E as ->. assumption.
  - right. split; [reflexivity|discriminate].
Qed.

Theorem C21_te_rejects source dest l k s n :
  arr_len source = n -> arr_len dest = n ->
  (usable [l; k] s n ->
     exists sh dh df, te_observations source dest l k s RNone = Ok (sh, dh, df) /\
       df <> [] /\ length sh = length df /\ length dh = length df) /\
  (~ usable [l; k] s n -> te_observations source dest l k s RNone = Raise ValueError).
Proof.
  intros Ls Ld. split.
  - intros (H & t & -> & Ht).
    destruct (H l (or_introl eq_refl)) as (l' & -> & Hl & t' & Et & Hln). injection Et as <-.
    destruct (H k (or_intror (or_introl eq_refl))) as (k' & -> & Hk & t' & Et & Hkn). injection Et as <-.
    rewrite <- (Z2Nat.id l'), <- (Z2Nat.id k'), <- (Z2Nat.id t) by lia.
    assert (Hd : (Nat.max (Z.to_nat k') (Z.to_nat l') * Z.to_nat t < n)%nat) by nia.
    do 3 eexists. rewrite (te_obs_ok source dest _ _ _ n) with (rnd := RNone); try assumption; try lia; try discriminate; try exact Logic.I.
    split; [reflexivity|].
    assert (Hp : (0 < nrows n (Nat.max (Z.to_nat k') (Z.to_nat l') * Z.to_nat t) (Z.to_nat t))%nat) by (apply nrows_pos; lia).
    split; [|rewrite !flat_pasts_length, flat_presents_length; split; reflexivity].
    intros E. apply (f_equal (@length _)) in E. rewrite flat_presents_length, base_times_length in E. simpl in E. lia.
  - intros H. unfold te_observations.
    destruct (pos_int_spec l) as [(l' & Hl & -> & ->)|[-> Hl]]; [|reflexivity].
    destruct (pos_int_spec k) as [(k' & Hk & -> & ->)|[-> Hk]]; [|reflexivity].
    destruct (pos_int_spec s) as [(s' & Hs & -> & ->)|[-> Hs]]; [|reflexivity].
    rewrite Ls. destruct (Nat.leb_spec n (Nat.max k' l' * s')); [reflexivity|].
    exfalso. apply H. split; [|exists (Z.of_nat s'); split; [reflexivity|lia]].
    intros p [<-|[<-|[]]]; eexists; (split; [reflexivity|]); (split; [lia|]);
      exists (Z.of_nat s'); (split; [reflexivity|]); nia.
Qed.

Theorem C21_cte_rejects source dest cond l k m s n :
  arr_len source = n -> arr_len dest = n -> arr_len cond = n ->
  (usable [l; k; m] s n ->
     exists sh dh df ch, cte_observations source dest cond l k m s RNone = Ok (sh, dh, df, ch) /\
       df <> [] /\ length sh = length df /\ length dh = length df /\ length ch = length df) /\
  (~ usable [l; k; m] s n -> cte_observations source dest cond l k m s RNone = Raise ValueError).
Proof.
  intros Ls Ld Lc. split.
  - intros (H & t & -> & Ht).
    destruct (H l ltac:(simpl; tauto)) as (l' & -> & Hl & t' & Et & Hln). injection Et as <-.
    destruct (H k ltac:(simpl; tauto)) as (k' & -> & Hk & t' & Et & Hkn). injection Et as <-.
    destruct (H m ltac:(simpl; tauto)) as (m' & -> & Hm & t' & Et & Hmn). injection Et as <-.
    rewrite <- (Z2Nat.id l'), <- (Z2Nat.id k'), <- (Z2Nat.id m'), <- (Z2Nat.id t) by lia.
    assert (Hd : (Nat.max (Nat.max (Z.to_nat k') (Z.to_nat l')) (Z.to_nat m') * Z.to_nat t < n)%nat) by nia.
    do 4 eexists. rewrite (cte_obs_ok source dest _ _ _ n) with (rnd := RNone); try assumption; try lia; try discriminate; try exact Logic.I.
    split; [reflexivity|].
    set (d := (Nat.max (Nat.max (Z.to_nat k') (Z.to_nat l')) (Z.to_nat m') * Z.to_nat t)%nat) in *.
    assert (Hp : (0 < nrows n d (Z.to_nat t))%nat) by (apply nrows_pos; lia).
    split; [|rewrite !flat_pasts_length, flat_presents_length; repeat split; reflexivity].
    intros E. apply (f_equal (@length _)) in E. rewrite flat_presents_length, base_times_length in E. simpl in E. lia.
  - intros H. unfold cte_observations.
    destruct (pos_int_spec l) as [(l' & Hl & -> & ->)|[-> Hl]]; [|reflexivity].
    destruct (pos_int_spec k) as [(k' & Hk & -> & ->)|[-> Hk]]; [|reflexivity].
    destruct (pos_int_spec m) as [(m' & Hm & -> & ->)|[-> Hm]]; [|reflexivity].
    destruct (pos_int_spec s) as [(s' & Hs & -> & ->)|[-> Hs]]; [|reflexivity].
    rewrite Ls. destruct (Nat.leb_spec n (Nat.max (Nat.max k' l') m' * s')); [reflexivity|].
    exfalso. apply H. split; [|exists (Z.of_nat s'); split; [reflexivity|lia]].
    intros p [<-|[<-|[<-|[]]]]; eexists; (split; [reflexivity|]); (split; [lia|]);
      exists (Z.of_nat s'); (split; [reflexivity|]); nia.
Qed.

Example C21_example : usable [NInt 2; NInt 1] (NInt 3) 7 /\ ~ usable [NInt 2; NInt 1] (NInt 3) 6 /\
  ~ usable [NInt 0; NInt 1] (NInt 1) 100 /\ ~ usable [NFloat; NInt 1] (NInt 1) 100.
Proof.
  repeat split.
  - intros p [<-|[<-|[]]]; eexists; (split; [reflexivity|]); (split; [lia|]); exists 3%Z; (split; [reflexivity|lia]).
  - exists 3%Z. split; [reflexivity|lia].
  - intros (H & _). destruct (H (NInt 2) (or_introl eq_refl)) as (h & E & _ & t & Et & Hlt).
    injection E as <-. injection Et as <-. lia.
  - intros (H & _). destruct (H (NInt 0) (or_introl eq_refl)) as (h & E & Hh & _).
    injection E as <-. lia.
  - intros (H & _). destruct (H NFloat (or_introl eq_refl)) as (h & E & _). discriminate.
Qed.

(** ** C22: randomisation touches only the source rows *)
Lemma perm_by_index {A} (d : A) (l : list A) sg :
  Permutation sg (seq 0 (length l)) -> Permutation (map (fun j => nth j l d) sg) l.
Proof.
  intros P. transitivity (map (fun j => nth j l d) (seq 0 (length l))).
  - apply Permutation_map. exact P.
  - rewrite <- (list_as_map d l (length l) eq_refl). apply Permutation_refl.
Qed.

Theorem C22_permutation source dest l k s n sg :
  arr_len source = n -> arr_len dest = n -> (1 <= l)%nat -> (1 <= k)%nat -> (1 <= s)%nat ->
  (Nat.max k l * s < n)%nat ->
  Permutation sg (seq 0 (nrows n (Nat.max k l * s) s)) ->
  exists sh dh df sh',
    te_observations source dest (I l) (I k) (I s) RNone = Ok (sh, dh, df) /\
    te_observations source dest (I l) (I k) (I s) (RPermute sg) = Ok (sh', dh, df) /\
    Permutation sh' sh /\ (forall i, (i < length sg)%nat -> nth i sh' [] = nth (nth i sg 0%nat) sh []).
Proof.
  intros Ls Ld Hl Hk Hs Hd P.
  assert (F : Forall (fun j => (j < nrows n (Nat.max k l * s) s)%nat) sg).
  { rewrite Forall_forall. intros j Hj. apply (Permutation_in _ P) in Hj. apply in_seq in Hj. lia. }
  do 4 eexists. split; [apply (te_obs_ok source dest l k s n Hl Hk Hs Ls Ld RNone ltac:(discriminate) Hd Logic.I)|].
  split; [apply (te_obs_ok source dest l k s n Hl Hk Hs Ls Ld (RPermute sg) ltac:(discriminate) Hd F)|].
  split.
  - apply perm_by_index. rewrite flat_pasts_length, base_times_length. exact P.
  - intros i Hi. set (f := fun j => nth j _ []).
    rewrite nth_indep with (d' := f 0%nat) by (rewrite map_length; exact Hi). rewrite map_nth. reflexivity.
Qed.

Theorem C22_resample source dest l k s n js :
  arr_len source = n -> arr_len dest = n -> (1 <= l)%nat -> (1 <= k)%nat -> (1 <= s)%nat ->
  (Nat.max k l * s < n)%nat ->
  length js = nrows n (Nat.max k l * s) s -> Forall (fun j => (j < nrows n (Nat.max k l * s) s)%nat) js ->
  exists sh dh df sh',
    te_observations source dest (I l) (I k) (I s) RNone = Ok (sh, dh, df) /\
    te_observations source dest (I l) (I k) (I s) (RResample js) = Ok (sh', dh, df) /\
    length sh' = length sh /\ (forall r, In r sh' -> In r sh).
Proof.
  intros Ls Ld Hl Hk Hs Hd Lj F.
  do 4 eexists. split; [apply (te_obs_ok source dest l k s n Hl Hk Hs Ls Ld RNone ltac:(discriminate) Hd Logic.I)|].
  split; [apply (te_obs_ok source dest l k s n Hl Hk Hs Ls Ld (RResample js) ltac:(discriminate) Hd F)|].
  split.
  - rewrite map_length, flat_pasts_length, base_times_length. exact Lj.
  - intros r Hr. apply in_map_iff in Hr. destruct Hr as (j & <- & Hj).
    apply nth_In. rewrite flat_pasts_length, base_times_length. rewrite Forall_forall in F. auto.
Qed.

(** the condition is untouched as well *)
Theorem C22_cte_permutation source dest cond l k m s n sg :
  arr_len source = n -> arr_len dest = n -> arr_len cond = n ->
  (1 <= l)%nat -> (1 <= k)%nat -> (1 <= m)%nat -> (1 <= s)%nat ->
  (Nat.max (Nat.max k l) m * s < n)%nat ->
  Permutation sg (seq 0 (nrows n (Nat.max (Nat.max k l) m * s) s)) ->
  exists sh dh df ch sh',
    cte_observations source dest cond (I l) (I k) (I m) (I s) RNone = Ok (sh, dh, df, ch) /\
    cte_observations source dest cond (I l) (I k) (I m) (I s) (RPermute sg) = Ok (sh', dh, df, ch) /\
    Permutation sh' sh.
Proof.
  intros Ls Ld Lc Hl Hk Hm Hs Hd P.
  assert (F : Forall (fun j => (j < nrows n (Nat.max (Nat.max k l) m * s) s)%nat) sg).
  { rewrite Forall_forall. intros j Hj. apply (Permutation_in _ P) in Hj. apply in_seq in Hj. lia. }
  do 5 eexists. split; [apply (cte_obs_ok source dest l k s n Hl Hk Hs Ls Ld cond m RNone Hm Lc ltac:(discriminate) Hd Logic.I)|].
  split; [apply (cte_obs_ok source dest l k s n Hl Hk Hs Ls Ld cond m (RPermute sg) Hm Lc ltac:(discriminate) Hd F)|].
  apply perm_by_index. rewrite flat_pasts_length, base_times_length. exact P.
Qed.

Theorem C22_both_rejected source dest cond l k m s :
  te_observations source dest l k s RBoth = Raise ValueError /\
  cte_observations source dest cond l k m s RBoth = Raise ValueError.
Proof.
  unfold te_observations, cte_observations.
  destruct (pos_int l), (pos_int k), (pos_int s); (split; [|destruct (pos_int m)]); try reflexivity;
    destruct (Nat.leb _ _); reflexivity.
Qed.

Example C22_example :
  te_observations (A1 [0;1;2;3]%Z) (A1 [5;6;7;8]%Z) (I 1) (I 1) (I 1) (RPermute [2;0;1]%nat) =
  Ok ([[2];[0];[1]]%Z, [[5];[6];[7]]%Z, [[6];[7];[8]]%Z) /\
  Permutation [2;0;1]%nat (seq 0 (nrows 4 1 1)).
Proof.
  split; [reflexivity|]. change (Permutation [2;0;1]%nat [0;1;2]%nat).
  apply (Permutation_cons_append [0;1]%nat 2%nat).
Qed.

(** ** C19: TE is the conditional MI of the embedded rows *)
Lemma te_init_plain source dest s : arr_len source = arr_len dest ->
  te_init source dest (Some (NInt 0)) None s = Ok (source, dest).
Proof.
  intros E. unfold te_init. simpl. rewrite E, Nat.eqb_refl. reflexivity.
Qed.

Lemma small_rows n d s : small2 n -> (1 <= s)%nat -> small2 (nrows n d s).
Proof. unfold small2. intros H Hs. pose proof (nrows_le n d s Hs). lia. Qed.

Lemma te_gen_ok b mm source dest l k s n : valid_base b -> mm_ok mm ->
  arr_len source = n -> arr_len dest = n -> (1 <= l)%nat -> (1 <= k)%nat -> (1 <= s)%nat ->
  (Nat.max k l * s < n)%nat -> small2 n ->
  let ts := base_times n (Nat.max k l * s) s in
  let sh := flat_pasts source s l ts in let dh := flat_pasts dest s k ts in
  let df := flat_presents dest ts in
  let v := CMI df sh dh / unit_of b + match mm with Some bb => mm_comb df sh dh / unit_of bb | None => 0 end in
  te_gen b mm source dest (te_kw l k s) RNone = Ok v /\
  exists ls, te_gen_local b mm source dest (te_kw l k s) RNone = Ok ls /\
     length ls = nrows n (Nat.max k l * s) s /\ mean ls = v.
Proof.
  intros Hb Hm Ls Ld Hl Hk Hs Hd Hn ts sh dh df v.
  unfold te_gen, te_gen_local. cbn [a_prop a_offset a_step a_src a_dest te_kw].
  rewrite te_init_plain by congruence. cbn [bind fst snd].
  rewrite (te_obs_ok source dest l k s n Hl Hk Hs Ls Ld RNone ltac:(discriminate) Hd Logic.I). cbn [bind].
  fold ts sh dh df.
  assert (Lf : length df = nrows n (Nat.max k l * s) s) by (unfold df; rewrite flat_presents_length; apply base_times_length).
  rewrite <- Lf. apply te_form_ok; try assumption.
  - unfold df, sh. rewrite flat_presents_length, flat_pasts_length. reflexivity.
  - unfold df, dh. rewrite flat_presents_length, flat_pasts_length. reflexivity.
  - intros E. rewrite E in Lf. pose proof (nrows_pos n (Nat.max k l * s) s Hs Hd). simpl in Lf. lia.
  - rewrite Lf. apply small_rows; assumption.
Qed.

Theorem C19_te_is_conditional_mi b (xs ys : list Z) l k s n : valid_base b ->
  length xs = n -> length ys = n -> (1 <= l)%nat -> (1 <= k)%nat -> (1 <= s)%nat ->
  (Nat.max k l * s < n)%nat -> small2 n ->
  let ts := base_times n (Nat.max k l * s) s in
  te_discrete b (A1 xs) (A1 ys) (te_kw l k s) =
  Ok (CMI (presents 0%Z ys ts) (pasts 0%Z xs s l ts) (pasts 0%Z ys s k ts) / unit_of b).
Proof.
  intros Hb Lx Ly Hl Hk Hs Hd Hn ts.
  assert (HT : forall b, In b ts -> (Nat.max k l * s <= b < n)%nat).
  { intros b' Hb'. unfold ts in Hb'. rewrite base_times_In in Hb' by exact Hs. tauto. }
  destruct (te_gen_ok b None (A1 xs) (A1 ys) l k s n Hb Logic.I Lx Ly Hl Hk Hs Hd Hn) as [E _].
  unfold te_discrete. rewrite E. clear E. f_equal. fold ts. rewrite Rplus_0_r. f_equal.
  rewrite !flat_pasts_1d, flat_presents_1d; try assumption; try (intros b' Hb'; specialize (HT b' Hb'); lia).
  apply CMI_partition; rewrite ?map_length, ?pasts_length, ?presents_length; try reflexivity;
    try apply same_partition_refl. apply singletons_partition.
Qed.

(** multivariate source and destination *)
Theorem C19_te_multivariate b source dest l k s n : valid_base b ->
  arr_len source = n -> arr_len dest = n -> (1 <= l)%nat -> (1 <= k)%nat -> (1 <= s)%nat ->
  (Nat.max k l * s < n)%nat -> small2 n ->
  let ts := base_times n (Nat.max k l * s) s in
  te_discrete b source dest (te_kw l k s) =
  Ok (CMI (presents [] (arr_rows dest) ts)
          (map (@concat Z) (pasts [] (arr_rows source) s l ts))
          (map (@concat Z) (pasts [] (arr_rows dest) s k ts)) / unit_of b).
Proof.
  intros Hb Lx Ly Hl Hk Hs Hd Hn ts.
  destruct (te_gen_ok b None source dest l k s n Hb Logic.I Lx Ly Hl Hk Hs Hd Hn) as [E _].
  unfold te_discrete. rewrite E. clear E. rewrite Rplus_0_r. reflexivity.
Qed.

(** information inequalities for CMI *)
Lemma CMI_const_l {A B C} `{EqDec A} `{EqDec B} `{EqDec C} (xs : list A) (ys : list B) (zs : list C) :
  length xs = length ys -> length xs = length zs ->
  (forall x y, In x ys -> In y ys -> x = y) -> CMI xs ys zs = 0.
Proof.
  intros L1 L2 Hc. unfold CMI.
  rewrite (Ent_partition (combine ys zs) zs) by (apply const_pair_partition_l; [congruence|exact Hc]).
  rewrite (Ent_partition (combine (combine xs ys) zs) (combine xs zs)); [lra|].
  apply same_partition_combine; [rewrite combine_length; lia| |apply same_partition_refl].
  apply const_pair_partition; assumption.
Qed.

Lemma In_combine_nth {A B} (a : list A) (b : list B) da db i : (i < length a)%nat -> length a = length b ->
  nth i (combine a b) (da, db) = (nth i a da, nth i b db).
Proof. intros. apply combine_nth. assumption. Qed.

Lemma Ent_refine_l {A B} `{EqDec A} `{EqDec B} (xs : list A) (zs : list B) :
  length xs = length zs -> Ent zs <= Ent (combine xs zs).
Proof.
  intros L.
  assert (E : zs = map snd (combine xs zs)).
  { clear -L. revert zs L. induction xs as [|x xs IH]; intros [|z zs] L; simpl in *; try lia; [reflexivity|].
    f_equal. apply IH. lia. }
  rewrite E at 1. apply Ent_map_le.
Qed.

Lemma CMI_le_cond {A B C} `{EqDec A} `{EqDec B} `{EqDec C} (xs : list A) (ys : list B) (zs : list C) :
  length xs = length ys -> length xs = length zs -> CMI xs ys zs <= Ent (combine xs zs) - Ent zs.
Proof.
  intros L1 L2. unfold CMI.
  assert (Ent (combine ys zs) <= Ent (combine (combine xs ys) zs)).
  { rewrite <- (Ent_partition (combine xs (combine ys zs)) (combine (combine xs ys) zs))
      by (apply combine_assoc_partition; assumption).
    apply Ent_refine_l. rewrite combine_length. lia. }
  lra.
Qed.

Lemma MI_drop {A B} `{EqDec A} `{EqDec B} (xs : list A) (zs : list B) : length xs = length zs ->
  Ent (combine xs zs) - Ent zs <= Ent xs.
Proof. intros L. pose proof (MI_nonneg xs zs L). unfold MI in *. lra. Qed.

(** TE is non-negative, at most the remaining uncertainty of the future given its own history, and
    zero for a constant source *)
Theorem C19_te_bounds b (xs ys : list Z) l k s n : big_base b ->
  length xs = n -> length ys = n -> (1 <= l)%nat -> (1 <= k)%nat -> (1 <= s)%nat ->
  (Nat.max k l * s < n)%nat -> small2 n ->
  exists v, te_discrete b (A1 xs) (A1 ys) (te_kw l k s) = Ok v /\
    let ts := base_times n (Nat.max k l * s) s in
    let f := presents 0%Z ys ts in let dh := pasts 0%Z ys s k ts in
    0 <= v <= (Ent (combine f dh) - Ent dh) / unit_of b /\ v <= Ent f / unit_of b /\
    ((forall x y, In x xs -> In y xs -> x = y) -> v = 0).
Proof.
  intros Hb Lx Ly Hl Hk Hs Hd Hn. eexists. split.
  - apply (C19_te_is_conditional_mi b xs ys l k s n); try assumption. apply big_valid. exact Hb.
  - intros ts f dh.
    assert (L1 : length f = length (pasts 0%Z xs s l ts)) by (unfold f; rewrite presents_length, pasts_length; reflexivity).
    assert (L2 : length f = length dh) by (unfold f, dh; rewrite presents_length, pasts_length; reflexivity).
    split; [|split].
    + split; [apply big_div_nonneg; [exact Hb|]; apply CMI_nonneg; assumption|].
      apply big_div_le; [exact Hb|]. apply CMI_le_cond; assumption.
    + apply big_div_le; [exact Hb|]. eapply Rle_trans; [apply CMI_le_cond; assumption|].
      apply MI_drop. exact L2.
    + intros Hc. rewrite CMI_const_l; try assumption; [unfold Rdiv; ring|].
      assert (G : forall r, In r (pasts 0%Z xs s l ts) -> r = repeat (hd 0%Z xs) l).
      { intros r Hr. unfold pasts in Hr. apply in_map_iff in Hr. destruct Hr as (b' & <- & Hb').
        unfold ts in Hb'. rewrite base_times_In in Hb' by exact Hs. unfold past.
        rewrite <- (seq_length l 0) at 2. generalize (seq 0 l) as q. intros q.
        induction q as [|j q IH]; [reflexivity|]. simpl. f_equal; [|exact IH].
        apply Hc; [apply nth_In; lia|]. destruct xs; [simpl in Lx; lia|left; reflexivity]. }
      intros x y Hx Hy. rewrite (G x Hx), (G y Hy). reflexivity.
Qed.

(** a destination determined by its own history receives no information *)
Theorem C19_te_zero_if_determined b (xs ys : list Z) l k s n : valid_base b ->
  length xs = n -> length ys = n -> (1 <= l)%nat -> (1 <= k)%nat -> (1 <= s)%nat ->
  (Nat.max k l * s < n)%nat -> small2 n ->
  let ts := base_times n (Nat.max k l * s) s in
  (exists f : list Z -> Z, presents 0%Z ys ts = map f (pasts 0%Z ys s k ts)) ->
  te_discrete b (A1 xs) (A1 ys) (te_kw l k s) = Ok 0.
Proof.
  intros Hb Lx Ly Hl Hk Hs Hd Hn ts (f & Ef).
  rewrite (C19_te_is_conditional_mi b xs ys l k s n) by assumption. fold ts. rewrite Ef.
  set (dh := pasts 0%Z ys s k ts). set (sh := pasts 0%Z xs s l ts).
  assert (L : length sh = length dh) by (unfold sh, dh; rewrite !pasts_length; reflexivity).
  assert (E0 : CMI (map f dh) sh dh = 0).
  { apply Rle_antisym.
    - eapply Rle_trans; [apply CMI_le_cond; rewrite map_length; congruence|].
      assert (E : combine (map f dh) dh = map (fun r => (f r, r)) dh).
      { clear. induction dh as [|r q IH]; [reflexivity|]. simpl. f_equal. exact IH. }
      rewrite E. pose proof (Ent_map_le (fun r => (f r, r)) dh). lra.
    - apply CMI_nonneg; rewrite map_length; congruence. }
  rewrite E0. f_equal. unfold Rdiv. ring.
Qed.

(** a copied source: dest[t] = source[t-1] for a source seen as fresh coin flips has TE = 1 bit *)
Example C19_hypotheses : (Nat.max 1 1 * 1 < length [0;1;1;0;1]%Z)%nat /\ small2 (length [0;1;1;0;1]%Z) /\
  te_discrete (BNum 2) (A1 [0;1;1;0;1]%Z) (A1 [0;0;1;1;0]%Z) (te_kw 1 1 1) =
    Ok (CMI [0;1;1;0]%Z [[0];[1];[1];[0]]%Z [[0];[0];[1];[1]]%Z / ln 2) /\
  0 < CMI [0;1;1;0]%Z [[0];[1];[1];[0]]%Z [[0];[0];[1];[1]]%Z.
Proof.
  split; [simpl; lia|]. split; [unfold small2; simpl; lia|]. split.
  - apply (C19_te_is_conditional_mi (BNum 2) [0;1;1;0;1]%Z [0;0;1;1;0]%Z 1 1 1 5); simpl;
      [lra|reflexivity|reflexivity|lia|lia|lia|lia|unfold small2; simpl; lia].
  - (* future = source history, so CMI = H(f,dh) - H(dh) = ln 4 - ln 2 *)
    assert (E : forall (A : Type) (H : EqDec A) (l : list A), l <> [] ->
       Ent l = - (sumf (fun x => ln (prob l x)) l / INR (length l))) by (intros; apply Ent_sample; assumption).
    unfold CMI. rewrite !E by discriminate. unfold prob, count. cbn -[ln Rplus Rmult Rdiv INR].
    assert (E1 : INR 1 / INR 4 = / 4) by (simpl; field). assert (E2 : INR 2 / INR 4 = / 2) by (simpl; field).
    rewrite !E1, !E2. rewrite !ln_Rinv by lra.
    assert (E4 : INR 4 = 4) by (simpl; ring). rewrite E4.
    assert (0 < ln 2) by (apply ln_pos; lra).
    assert (H4 : ln 4 = 2 * ln 2) by (replace 4 with (2 * 2) by ring; rewrite ln_mult by lra; ring).
    rewrite H4. lra.
Qed.

(** ** C23: propagation time *)
Definition with_prop (a : te_args) (p o : option num) : te_args :=
  mkTE (a_src a) (a_dest a) (a_cond a) (a_step a) p o.

Theorem C23_positive b (xs ys : list Z) l k s p n : length xs = n -> length ys = n ->
  (1 <= s)%nat -> (1 <= p)%nat ->
  te_discrete b (A1 xs) (A1 ys) (with_prop (te_kw l k s) (Some (I p)) None) =
  te_discrete b (A1 (firstn (n - p * s) xs)) (A1 (skipn (p * s) ys)) (te_kw l k s).
Proof.
  intros Lx Ly Hs Hp. unfold te_discrete, te_gen, with_prop.
  cbn [a_src a_dest a_cond a_step a_prop a_offset te_kw].
  rewrite te_init_plain by (simpl; rewrite firstn_length, skipn_length; lia).
  unfold te_init. cbn [none_or_0 negb bind arr_len]. rewrite Lx, Ly, Nat.eqb_refl. cbn [negb].
  destruct (Z.eqb_spec (Z.of_nat p) 0); [lia|]. destruct (Z.ltb_spec 0 (Z.of_nat p)); [|lia].
  unfold py_upto_or. destruct (Z.eqb_spec (- Z.of_nat p * Z.of_nat s) 0); [nia|].
  unfold py_upto, py_from. cbn [arr_len]. rewrite Lx, Ly.
  destruct (Z.ltb_spec (- Z.of_nat p * Z.of_nat s) 0); [|nia].
  destruct (Z.ltb_spec (Z.of_nat p * Z.of_nat s) 0); [nia|].
  replace (Z.to_nat (Z.of_nat n + - Z.of_nat p * Z.of_nat s)) with (n - p * s)%nat by nia.
  replace (Z.to_nat (Z.of_nat p * Z.of_nat s)) with (p * s)%nat by nia.
  reflexivity.
Qed.

Theorem C23_negative b (xs ys : list Z) l k s p n : length xs = n -> length ys = n ->
  (1 <= s)%nat -> (1 <= p)%nat ->
  te_discrete b (A1 xs) (A1 ys) (with_prop (te_kw l k s) (Some (NInt (- Z.of_nat p))) None) =
  te_discrete b (A1 (skipn (p * s) xs)) (A1 (firstn (n - p * s) ys)) (te_kw l k s).
Proof.
  intros Lx Ly Hs Hp. unfold te_discrete, te_gen, with_prop.
  cbn [a_src a_dest a_cond a_step a_prop a_offset te_kw].
  rewrite te_init_plain by (simpl; rewrite firstn_length, skipn_length; lia).
  unfold te_init. cbn [none_or_0 negb bind arr_len]. rewrite Lx, Ly, Nat.eqb_refl. cbn [negb].
  destruct (Z.eqb_spec (- Z.of_nat p) 0); [lia|]. destruct (Z.ltb_spec 0 (- Z.of_nat p)); [lia|].
  unfold py_upto_or. destruct (Z.eqb_spec (- Z.of_nat p * Z.of_nat s) 0); [nia|].
  unfold py_upto, py_from. cbn [arr_len]. rewrite Lx, Ly.
  destruct (Z.ltb_spec (- - Z.of_nat p * Z.of_nat s) 0); [nia|].
  destruct (Z.ltb_spec (- Z.of_nat p * Z.of_nat s) 0); [|nia].
  replace (Z.to_nat (Z.of_nat n + - Z.of_nat p * Z.of_nat s)) with (n - p * s)%nat by nia.
  replace (Z.to_nat (- - Z.of_nat p * Z.of_nat s)) with (p * s)%nat by nia.
  reflexivity.
Qed.

(** hence the embedded source times are shifted by [p*s] against the destination: written with
    time stamps of the original series *)
Theorem C23_time_stamps b (xs ys : list Z) l k s p n : valid_base b -> length xs = n -> length ys = n ->
  (1 <= l)%nat -> (1 <= k)%nat -> (1 <= s)%nat -> (1 <= p)%nat ->
  (Nat.max k l * s + p * s < n)%nat -> small2 n ->
  let ts := base_times (n - p * s) (Nat.max k l * s) s in
  te_discrete b (A1 xs) (A1 ys) (with_prop (te_kw l k s) (Some (I p)) None) =
  Ok (CMI (map (fun t => nth (t + p * s) ys 0%Z) ts)
          (pasts 0%Z xs s l ts)
          (pasts 0%Z ys s k (map (fun t => (t + p * s)%nat) ts)) / unit_of b).
Proof.
  intros Hb Lx Ly Hl Hk Hs Hp Hd Hn ts.
  rewrite (C23_positive b xs ys l k s p n) by assumption.
  assert (LF : length (firstn (n - p * s) xs) = (n - p * s)%nat) by (rewrite firstn_length; lia).
  assert (LK : length (skipn (p * s) ys) = (n - p * s)%nat) by (rewrite skipn_length; lia).
  rewrite (C19_te_is_conditional_mi b _ _ l k s (n - p * s)); try assumption;
    [|lia|unfold small2 in *; lia].
  fold ts.
  assert (HT : forall t, In t ts -> (Nat.max k l * s <= t < n - p * s)%nat).
  { intros t Ht. unfold ts in Ht. rewrite base_times_In in Ht by exact Hs. tauto. }
  assert (NF : forall i, (i < n - p * s)%nat -> nth i (firstn (n - p * s) xs) 0%Z = nth i xs 0%Z).
  { intros i Hi. rewrite <- (firstn_skipn (n - p * s) xs) at 2. rewrite app_nth1; [reflexivity|lia]. }
  assert (NK : forall i, nth i (skipn (p * s) ys) 0%Z = nth (p * s + i) ys 0%Z).
  { intros i. rewrite <- (firstn_skipn (p * s) ys) at 2. rewrite app_nth2.
    - rewrite firstn_length. f_equal. lia.
    - rewrite firstn_length. lia. }
  assert (E1 : presents 0%Z (skipn (p * s) ys) ts = map (fun t => nth (t + p * s) ys 0%Z) ts).
  { unfold presents. apply map_ext. intros t. rewrite NK. f_equal. lia. }
  assert (E2 : pasts 0%Z (firstn (n - p * s) xs) s l ts = pasts 0%Z xs s l ts).
  { unfold pasts. apply map_ext_in. intros t Ht. unfold past. apply map_ext. intros j. apply NF.
    specialize (HT t Ht). lia. }
  assert (E3 : pasts 0%Z (skipn (p * s) ys) s k ts = pasts 0%Z ys s k (map (fun t => (t + p * s)%nat) ts)).
  { unfold pasts. rewrite map_map. apply map_ext_in. intros t Ht. unfold past. apply map_ext_in. intros j Hj.
    rewrite NK. f_equal. specialize (HT t Ht). apply in_seq in Hj.
    assert (((k - j) * s <= Nat.max k l * s)%nat) by (apply Nat.mul_le_mono_r; lia). lia. }
  rewrite E1, E2, E3. reflexivity.
Qed.

(** [offset] is an alias of [prop_time]; giving both is rejected; 0 and None mean no offset *)
Theorem C23_offset_alias b source dest a o :
  o <> 0%Z -> forall p, p = Some (NInt 0) \/ p = None ->
  te_discrete b source dest (with_prop a p (Some (NInt o))) =
  te_discrete b source dest (with_prop a (Some (NInt o)) None).
Proof.
  intros Ho p Hp. unfold te_discrete, te_gen, with_prop. cbn [a_src a_dest a_cond a_step a_prop a_offset].
  unfold te_init. cbn [none_or_0]. destruct (Z.eqb_spec o 0); [contradiction|]. cbn [negb].
  destruct Hp as [-> | ->]; reflexivity.
Qed.

Theorem C23_both_rejected b source dest a o p : o <> 0%Z -> p <> 0%Z ->
  te_discrete b source dest (with_prop a (Some (NInt p)) (Some (NInt o))) = Raise ValueError.
Proof.
  intros Ho Hp. unfold te_discrete, te_gen, with_prop. cbn [a_src a_dest a_cond a_step a_prop a_offset].
  unfold te_init. cbn [none_or_0]. destruct (Z.eqb_spec o 0); [contradiction|].
  destruct (Z.eqb_spec p 0); [contradiction|]. reflexivity.
Qed.

Example C23_example : (Nat.max 1 1 * 1 + 2 * 1 < length [0;1;1;0;1]%Z)%nat /\ small2 (length [0;1;1;0;1]%Z) /\
  base_times (5 - 2 * 1) (Nat.max 1 1 * 1) 1 = [1;2]%nat.
Proof. split; [simpl; lia|]. split; [unfold small2; simpl; lia|reflexivity]. Qed.

(** ** C24: conditional transfer entropy *)
Lemma cte_init_plain source dest cond n : arr_len source = n -> arr_len dest = n -> arr_len cond = n ->
  cte_init source dest cond (Some (NInt 0)) None = Ok tt.
Proof. intros E1 E2 E3. unfold cte_init. rewrite E1, E2, E3, !Nat.eqb_refl. reflexivity. Qed.

Lemma cte_gen_ok b mm source dest cond l k m s n : valid_base b -> mm_ok mm ->
  arr_len source = n -> arr_len dest = n -> arr_len cond = n ->
  (1 <= l)%nat -> (1 <= k)%nat -> (1 <= m)%nat -> (1 <= s)%nat ->
  (Nat.max (Nat.max k l) m * s < n)%nat -> small2 n ->
  let d := (Nat.max (Nat.max k l) m * s)%nat in
  let ts := base_times n d s in
  let sh := flat_pasts source s l ts in let dh := flat_pasts dest s k ts in
  let ch := flat_pasts cond s m ts in
  let df := flat_presents dest ts in
  let v := CMI df sh (hcat [dh; ch]) / unit_of b
           + match mm with Some bb => mm_comb df sh (hcat [dh; ch]) / unit_of bb | None => 0 end in
  cte_gen b mm source dest cond (cte_kw l k m s) = Ok v /\
  exists ls, cte_gen_local b mm source dest cond (cte_kw l k m s) = Ok ls /\
     length ls = nrows n d s /\ mean ls = v.
Proof.
  intros Hb Hmm Ls Ld Lc Hl Hk Hm Hs Hd Hn d ts sh dh ch df v.
  unfold cte_gen, cte_gen_local. cbn [a_prop a_offset a_step a_src a_dest a_cond cte_kw].
  rewrite (cte_init_plain source dest cond n) by assumption. cbn [bind].
  rewrite (cte_obs_ok source dest l k s n Hl Hk Hs Ls Ld cond m RNone Hm Lc ltac:(discriminate) Hd Logic.I). cbn [bind].
  fold d. fold ts sh dh df ch.
  assert (Lf : length df = nrows n d s) by (unfold df; rewrite flat_presents_length; apply base_times_length).
  rewrite <- Lf.
  apply cte_form_ok; try assumption;
    try (unfold df, sh, dh, ch; rewrite flat_presents_length, flat_pasts_length; reflexivity).
  - intros E. rewrite E in Lf. pose proof (nrows_pos n d s Hs Hd). simpl in Lf. lia.
  - rewrite Lf. apply small_rows; assumption.
Qed.

Lemma past_length {A} (d : A) xs s len b : length (past d xs s len b) = len.
Proof. unfold past. rewrite map_length, seq_length. reflexivity. Qed.

Theorem C24_cte_is_conditional_mi b (xs ys zs : list Z) l k m s n : valid_base b ->
  length xs = n -> length ys = n -> length zs = n ->
  (1 <= l)%nat -> (1 <= k)%nat -> (1 <= m)%nat -> (1 <= s)%nat ->
  (Nat.max (Nat.max k l) m * s < n)%nat -> small2 n ->
  let ts := base_times n (Nat.max (Nat.max k l) m * s) s in
  cte_discrete b (A1 xs) (A1 ys) (RArr (A1 zs)) (cte_kw l k m s) =
  Ok (CMI (presents 0%Z ys ts) (pasts 0%Z xs s l ts)
          (combine (pasts 0%Z ys s k ts) (pasts 0%Z zs s m ts)) / unit_of b).
Proof.
  intros Hb Lx Ly Lz Hl Hk Hm Hs Hd Hn ts.
  assert (HT : forall b, In b ts -> (Nat.max (Nat.max k l) m * s <= b < n)%nat).
  { intros b' Hb'. unfold ts in Hb'. rewrite base_times_In in Hb' by exact Hs. tauto. }
  destruct (cte_gen_ok b None (A1 xs) (A1 ys) (A1 zs) l k m s n Hb Logic.I Lx Ly Lz Hl Hk Hm Hs Hd Hn) as [E _].
  unfold cte_discrete. cbn [reduce_joint_space bind]. rewrite E. clear E. f_equal. fold ts.
  rewrite Rplus_0_r. f_equal.
  rewrite !flat_pasts_1d, flat_presents_1d; try assumption; try (intros b' Hb'; specialize (HT b' Hb'); lia).
  assert (P : same_partition (hcat [pasts 0%Z ys s k ts; pasts 0%Z zs s m ts])
                             (combine (pasts 0%Z ys s k ts) (pasts 0%Z zs s m ts))).
  { apply (hcat_partition _ _ k); [rewrite !pasts_length; reflexivity|].
    intros r Hr. unfold pasts in Hr. apply in_map_iff in Hr. destruct Hr as (b' & <- & _). apply past_length. }
  apply CMI_partition; rewrite ?map_length, ?pasts_length, ?presents_length; try reflexivity;
    try apply same_partition_refl; [|apply singletons_partition|exact P].
  destruct P as [P _]. rewrite P, combine_length, !pasts_length. lia.
Qed.

(** a condition given as a tuple of arrays or as a 2-D array acts through its rows *)
Lemma pasts_partition {A B} (da : A) (db : B) (zs : list A) (cs : list B) s len ts :
  same_partition zs cs -> (forall b, In b ts -> (b < length zs)%nat) -> (1 <= s)%nat ->
  same_partition (pasts da zs s len ts) (pasts db cs s len ts).
Proof.
  intros [L P] HT Hs. split; [rewrite !pasts_length; reflexivity|]. rewrite pasts_length.
  intros i j dx dy Hi Hj. unfold pasts.
  rewrite !(nth_indep (map (past da zs s len) ts) dx (past da zs s len 0%nat)) by (rewrite map_length; assumption).
  rewrite !(nth_indep (map (past db cs s len) ts) dy (past db cs s len 0%nat)) by (rewrite map_length; assumption).
  rewrite !map_nth.
  assert (Hbi : (nth i ts 0 < length zs)%nat) by (apply HT, nth_In; assumption).
  assert (Hbj : (nth j ts 0 < length zs)%nat) by (apply HT, nth_In; assumption).
  set (bi := nth i ts 0%nat) in *. set (bj := nth j ts 0%nat) in *.
  unfold past.
  split; intros E; apply map_ext_in; intros q Hq;
    (assert (Eq : forall T (f g : nat -> T) (l : list nat), map f l = map g l -> forall x, In x l -> f x = g x)
       by (clear; intros T f g l; induction l as [|y l IH]; simpl; [tauto|]; intros E x [<-|Hx]; injection E; auto));
    specialize (Eq _ _ _ _ E q Hq); cbv beta in Eq; apply (P _ _ da db) in Eq; try lia; exact Eq.
Qed.

Lemma cte_joint b (xs ys : list Z) r (rows : list (list Z)) codes l k m s n : valid_base b ->
  reduce_joint_space r = Ok codes -> same_partition rows codes ->
  length xs = n -> length ys = n -> length rows = n ->
  (1 <= l)%nat -> (1 <= k)%nat -> (1 <= m)%nat -> (1 <= s)%nat ->
  (Nat.max (Nat.max k l) m * s < n)%nat -> small2 n ->
  let ts := base_times n (Nat.max (Nat.max k l) m * s) s in
  cte_discrete b (A1 xs) (A1 ys) r (cte_kw l k m s) =
  Ok (CMI (presents 0%Z ys ts) (pasts 0%Z xs s l ts)
          (combine (pasts 0%Z ys s k ts) (pasts [] rows s m ts)) / unit_of b).
Proof.
  intros Hb Er P Lx Ly Lz Hl Hk Hm Hs Hd Hn ts.
  assert (Lc : length codes = n) by (destruct P as [P _]; congruence).
  transitivity (cte_discrete b (A1 xs) (A1 ys) (RArr (A1 codes)) (cte_kw l k m s)).
  { unfold cte_discrete. rewrite Er. reflexivity. }
  rewrite (C24_cte_is_conditional_mi b xs ys codes l k m s n) by assumption. fold ts. f_equal. f_equal.
  apply CMI_partition; rewrite ?combine_length, ?pasts_length, ?presents_length; try reflexivity; try lia;
    try apply same_partition_refl.
  apply same_partition_combine; [rewrite !pasts_length; reflexivity|apply same_partition_refl|].
  apply same_partition_sym. apply pasts_partition; [exact P| |exact Hs].
  intros b' Hb'. unfold ts in Hb'. rewrite base_times_In in Hb' by exact Hs. lia.
Qed.

Theorem C24_joint_condition b (xs ys : list Z) cols l k m s n : valid_base b ->
  length xs = n -> length ys = n -> all_len n cols -> cols <> [] ->
  (1 <= l)%nat -> (1 <= k)%nat -> (1 <= m)%nat -> (1 <= s)%nat ->
  (Nat.max (Nat.max k l) m * s < n)%nat -> small2 n ->
  let ts := base_times n (Nat.max (Nat.max k l) m * s) s in
  let v := CMI (presents 0%Z ys ts) (pasts 0%Z xs s l ts)
          (combine (pasts 0%Z ys s k ts) (pasts [] (rows_of 0%Z n cols) s m ts)) / unit_of b in
  cte_discrete b (A1 xs) (A1 ys) (RTuple (map A1 cols)) (cte_kw l k m s) = Ok v /\
  cte_discrete b (A1 xs) (A1 ys) (RArr (A2 (rows_of 0%Z n cols))) (cte_kw l k m s) = Ok v.
Proof.
  intros Hb Lx Ly Lc Hne Hl Hk Hm Hs Hd Hn ts v.
  split; apply (cte_joint b xs ys _ (rows_of 0%Z n cols) (reduce_rows (rows_of 0%Z n cols)) l k m s n);
    try assumption; try apply reduce_rows_partition; try apply rows_of_length; try reflexivity.
  simpl. rewrite (column_stack_ok n cols Hne Lc). reflexivity.
Qed.

Lemma pasts_const (xs : list Z) s len n d : (1 <= s)%nat -> length xs = n -> (len * s <= d)%nat ->
  (forall x y, In x xs -> In y xs -> x = y) ->
  forall r r', In r (pasts 0%Z xs s len (base_times n d s)) -> In r' (pasts 0%Z xs s len (base_times n d s)) -> r = r'.
Proof.
  intros Hs Lx Hd Hc.
  assert (G : forall r, In r (pasts 0%Z xs s len (base_times n d s)) -> r = repeat (hd 0%Z xs) len).
  { intros r Hr. unfold pasts in Hr. apply in_map_iff in Hr. destruct Hr as (b' & <- & Hb').
    rewrite base_times_In in Hb' by exact Hs. unfold past.
    rewrite <- (seq_length len 0) at 2. generalize (seq 0 len) as q. intros q.
    induction q as [|j q IH]; [reflexivity|]. simpl. f_equal; [|exact IH].
    apply Hc; [apply nth_In; lia|]. destruct xs; [simpl in Lx; lia|left; reflexivity]. }
  intros x y Hx Hy. rewrite (G x Hx), (G y Hy). reflexivity.
Qed.

(** CTE is non-negative; a constant source gives 0; a constant condition whose history is not longer
    than the others gives TE *)
Theorem C24_cte_bounds b (xs ys zs : list Z) l k m s n : big_base b ->
  length xs = n -> length ys = n -> length zs = n ->
  (1 <= l)%nat -> (1 <= k)%nat -> (1 <= m)%nat -> (1 <= s)%nat ->
  (Nat.max (Nat.max k l) m * s < n)%nat -> small2 n ->
  exists v, cte_discrete b (A1 xs) (A1 ys) (RArr (A1 zs)) (cte_kw l k m s) = Ok v /\ 0 <= v /\
    ((forall x y, In x xs -> In y xs -> x = y) -> v = 0) /\
    ((forall x y, In x zs -> In y zs -> x = y) -> (m <= Nat.max k l)%nat ->
       te_discrete b (A1 xs) (A1 ys) (te_kw l k s) = Ok v).
Proof.
  intros Hb Lx Ly Lz Hl Hk Hm Hs Hd Hn. eexists. split.
  - apply (C24_cte_is_conditional_mi b xs ys zs l k m s n); try assumption. apply big_valid. exact Hb.
  - set (ts := base_times n (Nat.max (Nat.max k l) m * s) s).
    set (f := presents 0%Z ys ts). set (sh := pasts 0%Z xs s l ts).
    set (dh := pasts 0%Z ys s k ts). set (ch := pasts 0%Z zs s m ts).
    assert (L1 : length f = length sh) by (unfold f, sh; rewrite presents_length, pasts_length; reflexivity).
    assert (L2 : length f = length dh) by (unfold f, dh; rewrite presents_length, pasts_length; reflexivity).
    assert (L3 : length f = length ch) by (unfold f, ch; rewrite presents_length, pasts_length; reflexivity).
    assert (L4 : length f = length (combine dh ch)) by (rewrite combine_length; lia).
    split; [apply big_div_nonneg; [exact Hb|]; apply CMI_nonneg; assumption|]. split.
    + intros Hc. rewrite CMI_const_l; try assumption; [unfold Rdiv; ring|].
      intros x y Hx Hy. unfold sh, ts in Hx, Hy. revert x y Hx Hy. apply pasts_const; try assumption. nia.
    + intros Hc Hmm.
      rewrite (C19_te_is_conditional_mi b xs ys l k s n); try assumption; [|apply big_valid; exact Hb|nia].
      replace (Nat.max k l) with (Nat.max (Nat.max k l) m) by lia. fold ts. fold f sh dh.
      f_equal. f_equal.
      apply CMI_partition; try assumption; try apply same_partition_refl.
      apply same_partition_sym. apply const_pair_partition; [congruence|].
      intros x y Hx Hy. unfold ch, ts in Hx, Hy. revert x y Hx Hy. apply pasts_const; try assumption. nia.
Qed.

(** unusable time-shift arguments of CTE are rejected *)
Theorem C24_prop_time_rejected b source dest cond a p o :
  (forall z, p = Some (NInt z) -> z <> 0%Z \/ none_or_0 o = false) ->
  (exists z, reduce_joint_space cond = Ok z) ->
  cte_discrete b source dest cond (with_prop a p o) = Raise ValueError.
Proof.
  intros H (z & Ez). unfold cte_discrete. rewrite Ez. cbn [bind]. unfold cte_gen, with_prop.
  cbn [a_src a_dest a_cond a_step a_prop a_offset]. unfold cte_init.
  destruct (_ || _); [reflexivity|].
  destruct p as [[q|]|]; try reflexivity.
  destruct (H q eq_refl) as [Hq | Hq].
  - destruct (Z.eqb_spec q 0); [contradiction|]. reflexivity.
  - rewrite Hq, orb_true_r. reflexivity.
Qed.

Example C24_hypotheses :
  (Nat.max (Nat.max 1 1) 2 * 1 < length [0;1;1;0;1]%Z)%nat /\ small2 (length [0;1;1;0;1]%Z) /\
  base_times 5 (Nat.max (Nat.max 1 1) 2 * 1) 1 = [2;3;4]%nat.
Proof. split; [simpl; lia|]. split; [unfold small2; simpl; lia|reflexivity]. Qed.

(** ** C07: local values *)
Theorem C07_te_local_mean b mm source dest l k s n : valid_base b -> mm_ok mm ->
  arr_len source = n -> arr_len dest = n -> (1 <= l)%nat -> (1 <= k)%nat -> (1 <= s)%nat ->
  (Nat.max k l * s < n)%nat -> small2 n ->
  exists v ls, te_gen b mm source dest (te_kw l k s) RNone = Ok v /\
    te_gen_local b mm source dest (te_kw l k s) RNone = Ok ls /\
    length ls = nrows n (Nat.max k l * s) s /\ mean ls = v.
Proof.
  intros Hb Hm Ls Ld Hl Hk Hs Hd Hn.
  destruct (te_gen_ok b mm source dest l k s n) as [E (ls & E1 & E2 & E3)]; try assumption.
  do 2 eexists. split; [exact E|]. split; [exact E1|]. split; [exact E2|exact E3].
Qed.

Theorem C07_cte_local_mean b mm source dest cond l k m s n : valid_base b -> mm_ok mm ->
  arr_len source = n -> arr_len dest = n -> arr_len cond = n ->
  (1 <= l)%nat -> (1 <= k)%nat -> (1 <= m)%nat -> (1 <= s)%nat ->
  (Nat.max (Nat.max k l) m * s < n)%nat -> small2 n ->
  exists v ls, cte_gen b mm source dest cond (cte_kw l k m s) = Ok v /\
    cte_gen_local b mm source dest cond (cte_kw l k m s) = Ok ls /\
    length ls = nrows n (Nat.max (Nat.max k l) m * s) s /\ mean ls = v.
Proof.
  intros Hb Hmm Ls Ld Lc Hl Hk Hm Hs Hd Hn.
  destruct (cte_gen_ok b mm source dest cond l k m s n) as [E (ls & E1 & E2 & E3)]; try assumption.
  do 2 eexists. split; [exact E|]. split; [exact E1|]. split; [exact E2|exact E3].
Qed.

(** ** C08: base change *)
Theorem C08_te_rescales b xs ys l k s n : valid_base b ->
  length xs = n -> length ys = n -> (1 <= l)%nat -> (1 <= k)%nat -> (1 <= s)%nat ->
  (Nat.max k l * s < n)%nat -> small2 n ->
  exists v v', te_discrete b (A1 xs) (A1 ys) (te_kw l k s) = Ok v /\
    te_discrete BE (A1 xs) (A1 ys) (te_kw l k s) = Ok v' /\ v * unit_of b = v'.
Proof.
  intros Hb Lx Ly Hl Hk Hs Hd Hn. do 2 eexists.
  split; [apply (C19_te_is_conditional_mi b xs ys l k s n); assumption|].
  split; [apply (C19_te_is_conditional_mi BE xs ys l k s n); try assumption; exact Logic.I|].
  simpl. field. apply unit_neq0. exact Hb.
Qed.

(** ** C26: Miller-Madow TE is the same combination of Miller-Madow entropies *)
Theorem C26_mm_te_is_entropy_combination b source dest l k s n : valid_base b ->
  arr_len source = n -> arr_len dest = n -> (1 <= l)%nat -> (1 <= k)%nat -> (1 <= s)%nat ->
  (Nat.max k l * s < n)%nat -> small2 n ->
  let ts := base_times n (Nat.max k l * s) s in
  let f := presents [] (arr_rows dest) ts in
  let sh := map (@concat Z) (pasts [] (arr_rows source) s l ts) in
  let dh := map (@concat Z) (pasts [] (arr_rows dest) s k ts) in
  (* Miller-Madow entropy in base b of a sample *)
  let Hm := fun (A : Type) (_ : EqDec A) (xs : list A) =>
     (Ent xs + (INR (length (distinct xs)) - 1) / (2 * INR (length xs))) / unit_of b in
  te_mm b source dest (te_kw l k s) =
  Ok (Hm _ _ (combine f dh) + Hm _ _ (combine sh dh) - Hm _ _ (combine (combine f sh) dh) - Hm _ _ dh).
Proof.
  intros Hb Ls Ld Hl Hk Hs Hd Hn ts f sh dh Hm.
  destruct (te_gen_ok b (Some b) source dest l k s n Hb Hb Ls Ld Hl Hk Hs Hd Hn) as [E _].
  unfold te_mm. rewrite E. f_equal. fold ts. unfold flat_pasts, flat_presents. fold f sh dh.
  unfold Hm, CMI, mm_comb, mmc. pose proof (unit_neq0 b Hb). unfold Rdiv. ring.
Qed.

(** the conditional version, with the rows of past destination and past condition side by side *)
Theorem C26_mm_cte_is_entropy_combination b source dest cond l k m s n : valid_base b ->
  arr_len source = n -> arr_len dest = n -> arr_len cond = n -> (1 <= l)%nat -> (1 <= k)%nat -> (1 <= m)%nat -> (1 <= s)%nat ->
  (Nat.max (Nat.max k l) m * s < n)%nat -> small2 n ->
  let ts := base_times n (Nat.max (Nat.max k l) m * s) s in
  let f := presents [] (arr_rows dest) ts in
  let sh := map (@concat Z) (pasts [] (arr_rows source) s l ts) in
  let h := hcat [map (@concat Z) (pasts [] (arr_rows dest) s k ts); map (@concat Z) (pasts [] (arr_rows cond) s m ts)] in
  let Hm := fun (A : Type) (_ : EqDec A) (xs : list A) =>
     (Ent xs + (INR (length (distinct xs)) - 1) / (2 * INR (length xs))) / unit_of b in
  cte_mm b source dest cond (cte_kw l k m s) =
  Ok (Hm _ _ (combine f h) + Hm _ _ (combine sh h) - Hm _ _ (combine (combine f sh) h) - Hm _ _ h).
Proof.
  intros Hb Ls Ld Lc Hl Hk Hm0 Hs Hd Hn ts f sh h Hm.
  destruct (cte_gen_ok b (Some b) source dest cond l k m s n Hb Hb Ls Ld Lc Hl Hk Hm0 Hs Hd Hn) as [E _].
  unfold cte_mm. rewrite E. f_equal. fold ts. unfold flat_pasts, flat_presents. fold f sh h.
  unfold Hm, CMI, mm_comb, mmc. pose proof (unit_neq0 b Hb). unfold Rdiv. ring.
Qed.

(** the local values of the Miller-Madow transfer entropies average to the global ones *)
Theorem C07_mm_te_local_mean b source dest l k s n : valid_base b ->
  arr_len source = n -> arr_len dest = n -> (1 <= l)%nat -> (1 <= k)%nat -> (1 <= s)%nat ->
  (Nat.max k l * s < n)%nat -> small2 n ->
  exists v ls, te_mm b source dest (te_kw l k s) = Ok v /\ te_mm_local b source dest (te_kw l k s) = Ok ls /\
    length ls = nrows n (Nat.max k l * s) s /\ mean ls = v.
Proof. intros Hb. apply (C07_te_local_mean b (Some b)); exact Hb. Qed.
Theorem C07_mm_cte_local_mean b source dest cond l k m s n : valid_base b ->
  arr_len source = n -> arr_len dest = n -> arr_len cond = n ->
  (1 <= l)%nat -> (1 <= k)%nat -> (1 <= m)%nat -> (1 <= s)%nat ->
  (Nat.max (Nat.max k l) m * s < n)%nat -> small2 n ->
  exists v ls, cte_mm b source dest cond (cte_kw l k m s) = Ok v /\ cte_mm_local b source dest cond (cte_kw l k m s) = Ok ls /\
    length ls = nrows n (Nat.max (Nat.max k l) m * s) s /\ mean ls = v.
Proof. intros Hb. apply (C07_cte_local_mean b (Some b)); exact Hb. Qed.

(** ** C54: the step size matters even when all histories have length one.
    The library warns (TES 124-131, 350-363) that a step size larger than one
    "does not impact the TE calculation" when both histories are 1; two series where it changes the result: *)
Theorem C54_step_size_no_effect_refuted :
  exists xs ys : list Z, length xs = length ys /\
    te_discrete BE (A1 xs) (A1 ys) (te_kw 1 1 1) <> te_discrete BE (A1 xs) (A1 ys) (te_kw 1 1 2).
Proof.
  exists [0;1;1;0;1]%Z, [0;0;1;1;0]%Z. split; [reflexivity|].
  destruct C19_hypotheses as (_ & _ & _ & Hpos).
  assert (S5 : small2 5) by (unfold small2; simpl; lia).
  rewrite (C19_te_is_conditional_mi BE [0;1;1;0;1]%Z [0;0;1;1;0]%Z 1 1 1 5 Logic.I eq_refl eq_refl
    ltac:(lia) ltac:(lia) ltac:(lia) ltac:(simpl; lia) S5).
  rewrite (C19_te_is_conditional_mi BE [0;1;1;0;1]%Z [0;0;1;1;0]%Z 1 1 2 5 Logic.I eq_refl eq_refl
    ltac:(lia) ltac:(lia) ltac:(lia) ltac:(simpl; lia) S5).
  intros E. injection E as E. unfold Rdiv in E. simpl unit_of in E. rewrite Rinv_1, !Rmult_1_r in E.
  change (CMI [0;1;1;0]%Z [[0];[1];[1];[0]]%Z [[0];[0];[1];[1]]%Z = CMI [1;0]%Z [[0];[1]]%Z [[0];[1]]%Z) in E.
  assert (E1 : CMI [1;0]%Z [[0];[1]]%Z [[0];[1]]%Z = 0).
  {
    apply Rle_antisym; [|apply CMI_nonneg; reflexivity].
    eapply Rle_trans; [apply CMI_le_cond; reflexivity|].
    assert (Ep : same_partition (combine [1;0]%Z [[0];[1]]%Z) [[0];[1]]%Z).
    { split; [reflexivity|]. simpl. intros i j dx dy Hi Hj.
      destruct i as [|[|i]]; [| |lia]; destruct j as [|[|j]]; try lia; simpl; split; congruence. }
    rewrite (Ent_partition _ _ Ep). lra. }
  rewrite E1 in E.
  rewrite E in Hpos. lra.
Qed.
