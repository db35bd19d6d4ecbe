(** C92: a step size is subsampling.  Transfer entropy and conditional transfer entropy with [step_size = s] are the same
    measure with [step_size = 1] on every s-th sample of each series; results, local values and errors agree. *)
From Coq Require Import Reals List ZArith Arith Bool Lia Lra.
From Verif Require Import Res RSum Spec SpecBase SpecOrd Ord MBase MData MEntropy MMI MTE MGeneric MOrd MCont MKern MKnn MFam MComb MNsb
  SpecSub PSub PropsKnn.
Import ListNotations.

Section C92.
Variable s : nat.
Hypothesis Hs : (1 <= s)%nat.

Lemma te_step {X} (K : list (list Z) * list (list Z) * list (list Z) -> res X) source dest a rnd :
  arr_len source = arr_len dest ->
  (let* sd := te_init source dest (a_prop a) (a_offset a) (NInt (Z.of_nat s)) in
   let* o := te_observations (fst sd) (snd sd) (a_src a) (a_dest a) (NInt (Z.of_nat s)) rnd in K o) =
  (let* sd := te_init (sub_arr s source) (sub_arr s dest) (a_prop a) (a_offset a) (NInt 1) in
   let* o := te_observations (fst sd) (snd sd) (a_src a) (a_dest a) (NInt 1) rnd in K o).
Proof using Hs.
  intros E. rewrite <- (te_init_every s Hs _ _ _ _ E).
  destruct (te_init source dest _ _ _) as [[x y]| |]; try reflexivity. cbn [rmap bind fst snd both].
  rewrite (te_observations_every s Hs). reflexivity.
Qed.
Lemma cte_init_step source dest cond p o :
  arr_len source = arr_len dest -> arr_len source = arr_len cond ->
  cte_init source dest cond p o = cte_init (sub_arr s source) (sub_arr s dest) (sub_arr s cond) p o.
Proof using Hs.
  intros E E'. unfold cte_init. rewrite <- (sub_len_eq s Hs _ _ E), <- (sub_len_eq s Hs _ _ E'), <- E, <- E', !Nat.eqb_refl. reflexivity.
Qed.

(** discrete and Miller-Madow, with and without shuffling or resampling of the source; local values too *)
Theorem C92_te_discrete b mm source dest a rnd : arr_len source = arr_len dest ->
  te_gen b mm source dest (with_step a s) rnd = te_gen b mm (sub_arr s source) (sub_arr s dest) (with_step a 1) rnd /\
  te_gen_local b mm source dest (with_step a s) rnd = te_gen_local b mm (sub_arr s source) (sub_arr s dest) (with_step a 1) rnd.
Proof using Hs.
  intros E. split; [apply (te_step (fun o => let '(sh, dh, df) := o in te_form b mm sh dh df))|
                    apply (te_step (fun o => let '(sh, dh, df) := o in te_form_local b mm sh dh df))]; exact E.
Qed.
Theorem C92_cte_discrete b mm source dest cond a : arr_len source = arr_len dest -> arr_len source = arr_len cond ->
  cte_gen b mm source dest cond (with_step a s) =
    cte_gen b mm (sub_arr s source) (sub_arr s dest) (sub_arr s cond) (with_step a 1) /\
  cte_gen_local b mm source dest cond (with_step a s) =
    cte_gen_local b mm (sub_arr s source) (sub_arr s dest) (sub_arr s cond) (with_step a 1).
Proof using Hs.
  intros E E'. unfold cte_gen, cte_gen_local. cbn [a_step a_src a_dest a_cond a_prop a_offset with_step].
  rewrite (cte_init_step _ _ _ _ _ E E'), (cte_observations_every s Hs). split; reflexivity.
Qed.

(** every estimator that adds up entropies of counts (Bayes, shrinkage, Chao-Shen, Chao-Wang-Jost, Grassberger, Bonachela,
    Zhang, ansb, NSB): [e] is any entropy estimator on discrete data *)
Theorem C92_te_counts e b source dest a rnd : arr_len source = arr_len dest ->
  MGeneric.gen_te e b source dest (with_step a s) rnd = MGeneric.gen_te e b (sub_arr s source) (sub_arr s dest) (with_step a 1) rnd.
Proof using Hs. 
  intros E. exact (te_step (fun o => let '(sh, dh, df) := o in let '(joint, past, m1, m2) := te_spaces sh dh df in
    from_entropies e b [EArr (A2 m2); EArr (A2 m1)] [EArr (A2 joint); EArr (A2 past)]) source dest a rnd E).
Qed.
Theorem C92_cte_counts e b source dest cond a : arr_len source = arr_len dest -> arr_len source = arr_len cond ->
  gen_cte e b source dest cond (with_step a s) =
  gen_cte e b (sub_arr s source) (sub_arr s dest) (sub_arr s cond) (with_step a 1).
Proof using Hs.
  intros E E'. unfold gen_cte. cbn [a_step a_src a_dest a_cond a_prop a_offset with_step].
  rewrite (cte_init_step _ _ _ _ _ E E'), (cte_observations_every s Hs). reflexivity.
Qed.

(** ordinal patterns: symbols taken with step [s] and then embedded with step [s] are the symbols of the subsampled series.
    [legal_kind]: the sorting routine returns a sorting order. *)
Theorem C92_te_ordinal {T} `{Cmp T} (k : kind T) b (src dst : list T) d l kk rnd : legal_kind k ->
  te_ordinal k b src dst d l kk (NInt (Z.of_nat s)) rnd = te_ordinal k b (every s src) (every s dst) d l kk (NInt 1) rnd.
Proof using Hs.
  intros LK. unfold te_ordinal. destruct (Z.ltb_spec d 0) as [D|D]; [reflexivity|].
  destruct (Z.ltb_spec (Z.of_nat s) 0); [lia|]. change (1 <? 0)%Z with false. cbn iota.
  pose proof (symbolize_int_every s Hs k src d LK) as ES. pose proof (symbolize_int_every s Hs k dst d LK) as ED.
  destruct (Z.ltb_spec (Z.of_nat (length src)) ((d - 1) * Z.of_nat s + 1)) as [L|L];
    destruct (Z.ltb_spec (Z.of_nat (length (every s src))) ((d - 1) * 1 + 1)) as [L'|L']; try reflexivity.
  - exfalso. destruct (Z.eq_dec d 0) as [->|D0]; [lia|]. pose proof (every_lt s src (Z.to_nat (d - 1)) Hs) as G.
    assert (Z.to_nat (d - 1) * s < length src)%nat by (apply G; lia). nia.
  - destruct (Z.eq_dec d 0) as [->|D0]; [reflexivity|]. exfalso. pose proof (every_lt s src (Z.to_nat (d - 1)) Hs) as G.
    assert (Z.to_nat (d - 1) < length (every s src))%nat by (apply G; nia). lia.
  - rewrite <- ES, <- ED. destruct (symbolize_int k src d (Z.of_nat s)) as [ss| |]; try reflexivity. cbn [rmap bind].
    destruct (symbolize_int k dst d (Z.of_nat s)) as [ds| |]; try reflexivity. cbn [rmap bind].
    rewrite (te_observations_every s Hs). reflexivity.
Qed.
Theorem C92_cte_ordinal {T} `{Cmp T} (k : kind T) b (src dst cond : list T) d l kk m : legal_kind k ->
  cte_ordinal k b src dst cond d l kk m (NInt (Z.of_nat s)) =
  cte_ordinal k b (every s src) (every s dst) (every s cond) d l kk m (NInt 1).
Proof using Hs.
  intros LK. unfold cte_ordinal. destruct (Z.ltb_spec d 0) as [D|D]; [reflexivity|].
  destruct (Z.ltb_spec (Z.of_nat s) 0); [lia|]. change (1 <? 0)%Z with false. cbn iota.
  pose proof (symbolize_int_every s Hs k src d LK) as ES. pose proof (symbolize_int_every s Hs k dst d LK) as ED.
  pose proof (symbolize_int_every s Hs k cond d LK) as EC.
  destruct (Z.ltb_spec (Z.of_nat (length src)) ((d - 1) * Z.of_nat s + 1)) as [L|L];
    destruct (Z.ltb_spec (Z.of_nat (length (every s src))) ((d - 1) * 1 + 1)) as [L'|L']; try reflexivity.
  - exfalso. destruct (Z.eq_dec d 0) as [->|D0]; [lia|]. pose proof (every_lt s src (Z.to_nat (d - 1)) Hs) as G.
    assert (Z.to_nat (d - 1) * s < length src)%nat by (apply G; lia). nia.
  - destruct (Z.eq_dec d 0) as [->|D0]; [reflexivity|]. exfalso. pose proof (every_lt s src (Z.to_nat (d - 1)) Hs) as G.
    assert (Z.to_nat (d - 1) < length (every s src))%nat by (apply G; nia). lia.
  - rewrite <- ES, <- ED, <- EC. destruct (symbolize_int k src d (Z.of_nat s)) as [ss| |]; try reflexivity. cbn [rmap bind].
    destruct (symbolize_int k dst d (Z.of_nat s)) as [ds| |]; try reflexivity. cbn [rmap bind].
    destruct (symbolize_int k cond d (Z.of_nat s)) as [cs| |]; try reflexivity. cbn [rmap bind].
    rewrite (cte_observations_every s Hs). reflexivity.
Qed.

(** numeric data: kernel, KSG, Renyi and Tsallis; noise (a random draw per sample) must be switched off *)
Lemma rows2d_len a : length (rows2d a) = flen a.
Proof using. destruct a; [apply map_length|reflexivity]. Qed.
Lemma fcte_init_step source dest cond p o : flen source = flen dest -> flen source = flen cond ->
  fcte_init (rows2d source) (rows2d dest) (rows2d cond) p o =
  fcte_init (rows2d (sub_farr s source)) (rows2d (sub_farr s dest)) (rows2d (sub_farr s cond)) p o.
Proof using Hs.
  intros E E'. unfold fcte_init. rewrite !(sub_rows2d s Hs).
  assert (A : length (rows2d source) = length (rows2d dest)) by (rewrite !rows2d_len; exact E).
  assert (B : length (rows2d source) = length (rows2d cond)) by (rewrite !rows2d_len; exact E').
  rewrite <- (every_len_eq s Hs _ _ A), <- (every_len_eq s Hs _ _ B), <- A, <- B, !Nat.eqb_refl. reflexivity.
Qed.
Lemma fte_step {X} (K : list pt * list pt * list pt * list pt -> res X) source dest a rnd :
  flen source = flen dest ->
  (let* sd := fte_init (rows2d source) (rows2d dest) (a_prop a) (a_offset a) (NInt (Z.of_nat s)) in
   let* o := fte_spaces (fst sd) (snd sd) (a_src a) (a_dest a) (NInt (Z.of_nat s)) rnd in K o) =
  (let* sd := fte_init (rows2d (sub_farr s source)) (rows2d (sub_farr s dest)) (a_prop a) (a_offset a) (NInt 1) in
   let* o := fte_spaces (fst sd) (snd sd) (a_src a) (a_dest a) (NInt 1) rnd in K o).
Proof using Hs.
  intros E. rewrite !(sub_rows2d s Hs), <- (fte_init_every s Hs) by (rewrite !rows2d_len; exact E).
  destruct (fte_init (rows2d source) (rows2d dest) _ _ _) as [[x y]| |]; try reflexivity. cbn [rmap bind fst snd fboth].
  rewrite (fte_spaces_every s Hs). reflexivity.
Qed.
Theorem C92_te_kernel E k source dest a rnd : flen source = flen dest ->
  kernel_te E k source dest (with_step a s) rnd = kernel_te E k (sub_farr s source) (sub_farr s dest) (with_step a 1) rnd /\
  kernel_te_local E k source dest (with_step a s) rnd = kernel_te_local E k (sub_farr s source) (sub_farr s dest) (with_step a 1) rnd.
Proof using Hs.
  intros L. assert (G : kernel_te_local E k source dest (with_step a s) rnd = kernel_te_local E k (sub_farr s source) (sub_farr s dest) (with_step a 1) rnd)
    by exact (fte_step (fun sp => let '(j, dp, m1, m2) := sp in kernel_te_form E k j dp m1 m2) source dest a rnd L).
  split; [unfold kernel_te; rewrite G; reflexivity|exact G].
Qed.
Theorem C92_cte_kernel E k source dest cond a : flen source = flen dest -> flen source = flen cond ->
  kernel_cte E k source dest cond (with_step a s) =
    kernel_cte E k (sub_farr s source) (sub_farr s dest) (sub_farr s cond) (with_step a 1) /\
  kernel_cte_local E k source dest cond (with_step a s) =
    kernel_cte_local E k (sub_farr s source) (sub_farr s dest) (sub_farr s cond) (with_step a 1).
Proof using Hs.
  intros L L'. assert (G : kernel_cte_local E k source dest cond (with_step a s) =
    kernel_cte_local E k (sub_farr s source) (sub_farr s dest) (sub_farr s cond) (with_step a 1)).
  { unfold kernel_cte_local. cbn [a_step a_src a_dest a_cond a_prop a_offset with_step].
    rewrite (fcte_init_step _ _ _ _ _ L L'), (fcte_spaces_every s Hs), !(sub_rows2d s Hs). reflexivity. }
  split; [unfold kernel_cte; rewrite G; reflexivity|exact G].
Qed.
Theorem C92_te_ksg E k source dest a rnd : n_noise k = 0%R -> flen source = flen dest ->
  ksg_te E k source dest (with_step a s) rnd = ksg_te E k (sub_farr s source) (sub_farr s dest) (with_step a 1) rnd /\
  ksg_te_local E k source dest (with_step a s) rnd = ksg_te_local E k (sub_farr s source) (sub_farr s dest) (with_step a 1) rnd.
Proof using Hs.
  intros N L. assert (G : ksg_te_local E k source dest (with_step a s) rnd = ksg_te_local E k (sub_farr s source) (sub_farr s dest) (with_step a 1) rnd).
  { unfold ksg_te_local. rewrite N. destruct (negb (id_ok k)).
    - cbn [a_step a_src a_dest a_cond a_prop a_offset with_step].
      rewrite !(sub_rows2d s Hs). rewrite <- (fte_init_every s Hs) by (rewrite !rows2d_len; exact L).
      destruct (fte_init _ _ _ _ _); reflexivity.
    - pose proof (fte_step (fun sp => let '(j, dp, m1, m2) := sp in let* kk := int_k k in ksg_te_form k kk j dp m1 m2) source dest a rnd L) as F.
      cbn [a_step a_src a_dest a_cond a_prop a_offset with_step].
      destruct (fte_init (rows2d source) _ _ _ _) as [[x y]| |]; destruct (fte_init (rows2d (sub_farr s source)) _ _ _ _) as [[x' y']| |];
        cbn [bind] in F |- *; rewrite ?no_noise; exact F. }
  split; [unfold ksg_te; rewrite G; reflexivity|exact G].
Qed.
Theorem C92_cte_ksg E k source dest cond a : n_noise k = 0%R -> flen source = flen dest -> flen source = flen cond ->
  ksg_cte E k source dest cond (with_step a s) =
    ksg_cte E k (sub_farr s source) (sub_farr s dest) (sub_farr s cond) (with_step a 1) /\
  ksg_cte_local E k source dest cond (with_step a s) =
    ksg_cte_local E k (sub_farr s source) (sub_farr s dest) (sub_farr s cond) (with_step a 1).
Proof using Hs.
  intros N L L'. assert (G : ksg_cte_local E k source dest cond (with_step a s) =
    ksg_cte_local E k (sub_farr s source) (sub_farr s dest) (sub_farr s cond) (with_step a 1)).
  { unfold ksg_cte_local. cbn [a_step a_src a_dest a_cond a_prop a_offset with_step].
    rewrite (fcte_init_step _ _ _ _ _ L L'), N, !no_noise. cbn [bind nth].
    rewrite (fcte_spaces_every s Hs), !(sub_rows2d s Hs). reflexivity. }
  split; [unfold ksg_cte; rewrite G; reflexivity|exact G].
Qed.
Theorem C92_te_renyi_tsallis f E e source dest a rnd : flen source = flen dest ->
  fam_te f E e 0 source dest (with_step a s) rnd = fam_te f E e 0 (sub_farr s source) (sub_farr s dest) (with_step a 1) rnd.
Proof using Hs.
  intros L. unfold fam_te.
  pose proof (fte_step (fun sp => let '(j, dp, m1, m2) := sp in gen_te (fam_entropy f E e) j dp m1 m2) source dest a rnd L) as F.
  pose proof (fte_step (fun sp => let '(j, dp, m1, m2) := sp in let* _ := e_check e in gen_te (fam_entropy f E e) j dp m1 m2) source dest a rnd L) as F2.
  cbn [a_step a_src a_dest a_cond a_prop a_offset with_step].
  destruct (e_check e) as [kq|x|].
  1: { destruct (fte_init (rows2d source) _ _ _ _) as [[x y]| |]; destruct (fte_init (rows2d (sub_farr s source)) _ _ _ _) as [[x' y']| |];
        cbn [bind] in F |- *; rewrite ?no_noise; exact F. }
  all: rewrite !(sub_rows2d s Hs); rewrite <- (fte_init_every s Hs) by (rewrite !rows2d_len; exact L); destruct (fte_init _ _ _ _ _); reflexivity.
Qed.
Theorem C92_cte_renyi_tsallis f E e source dest cond a : flen source = flen dest -> flen source = flen cond ->
  fam_cte f E e 0 source dest cond (with_step a s) =
  fam_cte f E e 0 (sub_farr s source) (sub_farr s dest) (sub_farr s cond) (with_step a 1).
Proof using Hs.
  intros L L'. unfold fam_cte. cbn [a_step a_src a_dest a_cond a_prop a_offset with_step].
  rewrite (fcte_init_step _ _ _ _ _ L L'), !no_noise. cbn [bind nth].
  rewrite (fcte_spaces_every s Hs), !(sub_rows2d s Hs). reflexivity.
Qed.
End C92.

(** consequence: the samples between the grid points are never looked at *)
Theorem C92_off_grid s b mm x y x' y' a rnd : (1 <= s)%nat -> length x = length y -> length x' = length y' ->
  every s x = every s x' -> every s y = every s y' ->
  te_gen b mm (A1 x) (A1 y) (with_step a s) rnd = te_gen b mm (A1 x') (A1 y') (with_step a s) rnd.
Proof.
  intros Hs L L' X Y. rewrite (proj1 (C92_te_discrete s Hs b mm (A1 x) (A1 y) a rnd L)),
    (proj1 (C92_te_discrete s Hs b mm (A1 x') (A1 y') a rnd L')). cbn [sub_arr]. rewrite X, Y. reflexivity.
Qed.

(** a case in which the call is accepted: ten samples, step 2, one step of propagation time *)
Example C92_example :
  let x := A1 [1; 9; 2; 9; 1; 9; 2; 9; 2; 9]%Z in let y := A1 [1; 7; 1; 7; 2; 7; 2; 7; 1; 7]%Z in
  let a := mkTE (NInt 1) (NInt 1) (NInt 1) (NInt 1) (Some (NInt 1)) None in
  sub_arr 2 x = A1 [1; 2; 1; 2; 2]%Z /\
  te_init x y (a_prop a) (a_offset a) (NInt 2) = Ok (A1 [1; 9; 2; 9; 1; 9; 2; 9]%Z, A1 [1; 7; 2; 7; 2; 7; 1; 7]%Z) /\
  te_observations (A1 [1; 9; 2; 9; 1; 9; 2; 9]%Z) (A1 [1; 7; 2; 7; 2; 7; 1; 7]%Z) (NInt 1) (NInt 1) (NInt 2) RNone =
    Ok ([[1]; [2]; [1]], [[1]; [2]; [2]], [[2]; [2]; [1]])%Z.
Proof. repeat split; reflexivity. Qed.
(** the lengths must agree: with unequal lengths the full series are rejected although the subsampled ones are not *)
Example C92_lengths_needed b : te_gen b None (A1 [1; 2; 1; 2; 1; 1])%Z (A1 [1; 2; 2; 2; 1])%Z (with_step te_default 2) RNone = Raise ValueError /\
  sub_arr 2 (A1 [1; 2; 1; 2; 1; 1])%Z = A1 [1; 1; 1]%Z /\ sub_arr 2 (A1 [1; 2; 2; 2; 1])%Z = A1 [1; 2; 1]%Z.
Proof. repeat split; reflexivity. Qed.
