(** Property theorems: on well separated data the box-kernel estimates are the discrete estimates (C118). *)
From Coq Require Import Reals Lra Lia List ZArith Arith Bool Permutation.
From Verif Require Import Res RSum Spec SpecBase SpecInput SpecTE SpecTEc SpecKern SpecDiv SpecEst SpecCross SpecSep Info Info2 MBase MData MEntropy MMI MTE MEst MGeneric MDiv MPct MNorm MCont MKern PBase PEntropy PCoo PMI PMI2 PMI3 PMI4 PMI5 PTE PTE2 PTEc PKern PKern2 PKern3 PKern4 PKern5 PropsMI PropsTE PropsGeneric PropsInv PropsKern PropsKern2 PropsKern3 PropsKern4 PDiv PropsDiv PPool PropsPool PropsCross PropsEst PropsStab PCoarse.
Import ListNotations.
Local Open Scope R_scope.

(** ** one lemma: if samples are near exactly when their labels agree, the kernel entropy is the entropy of the labels
    plus the volume term *)
Lemma nnear_lab {A} `{EqDec A} h n vars (lab : nat -> A) t : (t < n)%nat ->
  (forall t u, (t < n)%nat -> (u < n)%nat -> (forallb (fun v => near h (nth t v []) (nth u v [])) vars = true <-> lab t = lab u)) ->
  nnear h n vars t = count (map lab (seq 0 n)) (lab t).
Proof.
  intros Ht L. unfold nnear, count. assert (B : forall u, In u (seq 0 n) -> (u < n)%nat) by (intros u Hu; apply in_seq in Hu; lia).
  induction (seq 0 n) as [|u l IH]; [reflexivity|]. cbn [filter map count_occ].
  specialize (IH (fun v Hv => B v (or_intror Hv))). pose proof (L t u Ht (B u (or_introl eq_refl))) as E.
  destruct (forallb _ vars); destruct (eq_dec (lab u) (lab t)) as [D|D]; cbn [length].
  - f_equal. exact IH.
  - exfalso. apply D. symmetry. apply E. reflexivity.
  - exfalso. assert (false = true) by (apply E; congruence). discriminate.
  - exact IH.
Qed.

Lemma KH_lab {A} `{EqDec A} h n d vars (lab : nat -> A) : 0 < h -> (0 < n)%nat ->
  (forall t u, (t < n)%nat -> (u < n)%nat -> (forallb (fun v => near h (nth t v []) (nth u v [])) vars = true <-> lab t = lab u)) ->
  KH h n d vars = Ent (map lab (seq 0 n)) + INR d * ln h.
Proof.
  intros Hh Hn L. assert (NE : seq 0 n <> []) by (destruct n; [lia|discriminate]).
  assert (PN : 0 < INR n) by (apply lt_0_INR; exact Hn).
  rewrite (hs_eq_Ent (seq 0 n) lab NE). unfold hs. rewrite seq_length. unfold KH. rewrite mean_map, seq_length.
  rewrite (sumf_ext _ (fun t => - ln (cnt (seq 0 n) lab (lab t) / INR n) + INR d * ln h)).
  - rewrite sumf_plus, sumf_const, seq_length, sumf_opp. field. lra.
  - intros t Ht. apply in_seq in Ht. unfold kdensity. rewrite (nnear_lab h n vars lab t) by (auto; lia).
    rewrite <- cnt_count. set (c := cnt (seq 0 n) lab (lab t)).
    assert (C : 0 < c). { unfold c. apply cnt_self_pos. apply in_seq. lia. }
    assert (P : 0 < h ^ d) by (apply pow_lt; exact Hh).
    unfold Rdiv at 1. rewrite (ln_mult (c / INR n) (/ h ^ d)); [|apply Rdiv_lt_0_compat; assumption|apply Rinv_0_lt_compat; exact P].
    rewrite ln_Rinv by exact P. rewrite ln_pow by exact Hh. ring.
Qed.

(** ** separated codes *)
Section Sep.
Variables (h : R) (f : Z -> R).
Hypothesis (Hh : 0 < h) (SP : spread h f).

Lemma near_sep : forall x y : list Z, length x = length y -> (near h (map f x) (map f y) = true <-> x = y).
Proof using Hh SP.
  unfold near. induction x as [|a x IH]; intros [|c y] L; try discriminate L; [cbn; tauto|].
  cbn [map combine forallb fst snd]. injection L as L. rewrite andb_true_iff, (IH y L).
  destruct (Z.eq_dec a c) as [->|N].
  - rewrite Rminus_diag_eq by reflexivity. rewrite Rabs_R0. destruct (Rle_dec 0 (h / 2)) as [_|C]; [|exfalso; lra]. split; [intros [_ ->]; reflexivity|intros E; split; [reflexivity|congruence]].
  - pose proof (SP a c N). destruct (Rle_dec _ _) as [C|_]; [exfalso; lra|]. split; [intros [Q _]; discriminate|intros E; congruence].
Qed.

(** rectangular tables of symbols *)
Definition ztab (n d : nat) (v : list (list Z)) : Prop := length v = n /\ Forall (fun r => length r = d) v.
Definition zenc (v : list (list Z)) : list (list R) := map (map f) v.

Lemma zenc_nth v t : nth t (zenc v) [] = map f (nth t v []).
Proof using. unfold zenc. change (@nil R) with (map f []) at 1. apply map_nth. Qed.

Lemma ztab_row n d v t : ztab n d v -> (t < n)%nat -> length (nth t v []) = d.
Proof using. intros [L F] Ht. rewrite Forall_forall in F. apply F, nth_In. lia. Qed.

Lemma near_all n ds zvars t u : Forall2 (ztab n) ds zvars -> (t < n)%nat -> (u < n)%nat ->
  (forallb (fun v => near h (nth t v []) (nth u v [])) (map zenc zvars) = true <->
   map (fun v => nth t v []) zvars = map (fun v => nth u v []) zvars).
Proof using Hh SP.
  intros F Ht Hu. induction F as [|d v ds zvars T F IH]; [cbn; tauto|]. cbn [map forallb].
  rewrite andb_true_iff, IH, !zenc_nth. rewrite near_sep by (rewrite (ztab_row n d v t T Ht), (ztab_row n d v u T Hu); reflexivity).
  split; [intros [-> ->]; reflexivity|intros E; injection E as -> ->; auto].
Qed.

Lemma KH_enc n D ds zvars : (0 < n)%nat -> Forall2 (ztab n) ds zvars ->
  KH h n D (map zenc zvars) = Ent (map (fun t => map (fun v => nth t v []) zvars) (seq 0 n)) + INR D * ln h.
Proof using Hh SP.
  intros Hn F. apply (KH_lab h n D (map zenc zvars) (fun t => map (fun v => nth t v []) zvars) Hh Hn).
  intros t u Ht Hu. apply (near_all n ds); assumption.
Qed.
End Sep.

Lemma Ent_labels {A B} `{EqDec A} `{EqDec B} (n : nat) (X : nat -> A) (Y : nat -> B) : (0 < n)%nat ->
  (forall s t, (s < n)%nat -> (t < n)%nat -> (X t = X s <-> Y t = Y s)) -> Ent (map X (seq 0 n)) = Ent (map Y (seq 0 n)).
Proof.
  intros Hn P. assert (NE : seq 0 n <> []) by (destruct n; [lia|discriminate]).
  rewrite !hs_eq_Ent by exact NE. apply hs_partition. intros s t Hs Ht. apply in_seq in Hs, Ht. apply P; lia.
Qed.

Lemma rows_enc f a : rows2d (encode f a) = zenc f (arr_rows a).
Proof. destruct a; cbn; [unfold zenc; rewrite !map_map; reflexivity|reflexivity]. Qed.
Lemma shaped_ztab n d a : shaped n d a -> ztab n d (arr_rows a).
Proof. intros [L F]. split; [|exact F]. rewrite <- L. destruct a; cbn; [apply map_length|reflexivity]. Qed.
Lemma ztab_table f n d v : ztab n d v -> table n d (zenc f v).
Proof.
  intros [L F]. split; [unfold zenc; rewrite map_length; exact L|]. rewrite Forall_forall in *. intros p Hp.
  apply in_map_iff in Hp. destruct Hp as (r & <- & Hr). rewrite map_length. apply F, Hr.
Qed.
Lemma shaped_table f n d a : shaped n d a -> table n d (rows2d (encode f a)).
Proof. intros S. rewrite rows_enc. apply ztab_table, shaped_ztab, S. Qed.

(** with samples of the same size the equal-weight mixture is the pooled sample *)
Lemma JSD_pooled n (ds : list (list Z)) : (0 < n)%nat -> ds <> [] -> Forall (fun d => length d = n) ds ->
  JSD ds = Ent (List.concat ds) - sumf Ent ds / INR (length ds).
Proof.
  intros Hn NE FL. assert (NK : 0 < INR (length ds)) by (apply lt_0_INR; destruct ds; [congruence|simpl; lia]).
  assert (Nn : 0 < INR n) by (apply lt_0_INR; exact Hn).
  assert (LC : INR (length (List.concat ds)) = INR n * INR (length ds)).
  { rewrite length_concat_sum. rewrite (sumf_ext _ (fun _ => INR n)); [rewrite sumf_const; ring|]. intros d Hd. rewrite Forall_forall in FL. rewrite (FL d Hd). reflexivity. }
  assert (M : forall v, mixprob ds v = prob (List.concat ds) v).
  { intros v. unfold mixprob, prob at 2. rewrite LC.
    assert (C : INR (count (List.concat ds) v) = sumf (fun d => INR (count d v)) ds).
    { clear. induction ds as [|d r IH]; [reflexivity|]. cbn [List.concat sumf]. rewrite count_app, plus_INR, IH. reflexivity. }
    rewrite C. rewrite (sumf_ext _ (fun d => INR (count d v) / INR n)).
    - rewrite sumf_div. field. split; lra.
    - intros d Hd. rewrite Forall_forall in FL. unfold prob. rewrite (FL d Hd). reflexivity. }
  unfold JSD. rewrite (sumf_ext _ (fun v => prob (List.concat ds) v * ln (prob (List.concat ds) v))) by (intros v _; rewrite M; reflexivity). reflexivity.
Qed.

Section Theorems.
Variables (E : kenv) (h : R) (w : Z) (b : base) (f : Z -> R).
Hypothesis (Hh : 0 < h) (HC : (0 < cpus E)%Z) (HW : workers_ok w) (HV : valid_base b) (SP : spread h f).

Lemma ent_any i : SpecInput.usable i -> entropy_discrete b i = Ok (Ent (sample i) / unit_of b).
Proof using HV.
  intros U. rewrite <- (discrete_closed b i HV U). unfold entropy_of, entropy_discrete, e_global.
  destruct (make_data i) as [d| |]; try reflexivity. cbn [bind est_discrete e_calc]. destruct (discrete_simple b d); reflexivity.
Qed.

Lemma nth_all {A} (d : A) n l : length l = n -> map (fun t => nth t l d) (seq 0 n) = l.
Proof using.
  intros L. apply (nth_ext _ _ d d); [rewrite map_length, seq_length; congruence|]. intros k Hk. rewrite map_length, seq_length in Hk.
  rewrite (nth_indep _ d (nth n l d)) by (rewrite map_length, seq_length; exact Hk).
  rewrite (map_nth (fun t => nth t l d)). rewrite seq_nth by exact Hk. reflexivity.
Qed.

(** ** entropy of one array *)
Theorem C118_entropy a n d : (2 <= n)%nat -> shaped n d a ->
  exists v, entropy_discrete b (EArr a) = Ok v /\
    kernel_entropy E (box_args h w b) (FArr (encode f a)) = Ok (v + INR d * (ln h / unit_of b)).
Proof using Hh HC HW HV SP.
  intros Hn S. exists (Ent (arr_rows a) / unit_of b). pose proof (shaped_ztab n d a S) as T. split.
  - apply (ent_any (EArr a)). apply usable_arr. destruct S as [L _]. lia.
  - rewrite (proj2 (C59_kernel_entropy E h w b Hh HC HW HV (encode f a) n d Hn (shaped_table f n d a S))). f_equal.
    rewrite rows_enc. change [zenc f (arr_rows a)] with (map (zenc f) [arr_rows a]).
    rewrite (KH_enc h f Hh SP n d [d] [arr_rows a]); [|lia|apply Forall2_cons; [exact T|apply Forall2_nil]].
    assert (Q : Ent (map (fun t => map (fun v : list (list Z) => nth t v []) [arr_rows a]) (seq 0 n)) = Ent (arr_rows a)).
    { transitivity (Ent (map (fun t => nth t (arr_rows a) []) (seq 0 n))); [|rewrite nth_all by apply T; reflexivity]. apply Ent_labels; [lia|]. intros s t _ _. cbn [map]. split; [intros Q; injection Q; auto|intros ->; reflexivity]. }
    rewrite Q. unfold Rdiv. ring.
Qed.

(** ** joint entropy of any number of arrays of any dimension *)
Lemma sample_labels cols n ds : (0 < n)%nat -> cols <> [] -> Forall2 (fun d a => shaped n d a) ds cols ->
  SpecInput.usable (ETuple cols) /\
  Ent (sample (ETuple cols)) = Ent (map (fun t => map (fun v => nth t v []) (map arr_rows cols)) (seq 0 n)).
Proof using.
  intros Hn NE F.
  assert (L : Forall (fun a => arr_len a = n) cols).
  { clear NE. induction F as [|d a ds cols S F IH]; constructor; [apply S|exact IH]. }
  split; [apply (usable_tup n); assumption|].
  assert (SZ : input_size (ETuple cols) = n). { destruct cols as [|c cols]; [congruence|]. inversion L; subst. reflexivity. }
  unfold sample. rewrite SZ. apply Ent_labels; [exact Hn|]. intros s t Hs Ht. rewrite !map_map. split; [|intros ->; reflexivity].
  intros Q. assert (G : Forall2 (fun u v : list Z => length u = length v) (map (fun c => nth t (arr_rows c) []) cols) (map (fun c => nth s (arr_rows c) []) cols)).
  { clear -F Hs Ht. induction F as [|d a ds cols S F IH]; [constructor|]. cbn. constructor; [|exact IH].
    apply shaped_ztab in S. rewrite (ztab_row n d _ t S Ht), (ztab_row n d _ s S Hs). reflexivity. }
  apply (concat_inj_len _ _ G Q).
Qed.

Theorem C118_joint_entropy cols n ds : (2 <= n)%nat -> cols <> [] -> Forall2 (fun d a => shaped n d a) ds cols ->
  exists v, entropy_discrete b (ETuple cols) = Ok v /\
    kernel_entropy E (box_args h w b) (FTuple (map (encode f) cols)) = Ok (v + INR (fold_right Nat.add 0%nat ds) * (ln h / unit_of b)).
Proof using Hh HC HW HV SP.
  intros Hn NE F. destruct (sample_labels cols n ds ltac:(lia) NE F) as [U EE]. exists (Ent (sample (ETuple cols)) / unit_of b). split.
  - apply (ent_any (ETuple cols)); assumption.
  - rewrite (C59_kernel_joint_entropy E h w b Hh HC HW HV (map (encode f) cols) n ds Hn).
    + f_equal. rewrite map_map. rewrite (map_ext _ (fun a => zenc f (arr_rows a))) by apply rows_enc. rewrite <- (map_map arr_rows (zenc f)).
      rewrite (KH_enc h f Hh SP n _ ds) by (try lia; clear -F; induction F; constructor; auto; apply shaped_ztab; assumption).
      rewrite EE. unfold Rdiv. ring.
    + intros Q. apply map_eq_nil in Q. congruence.
    + clear -F. induction F; cbn; constructor; auto. apply shaped_table; assumption.
Qed.

(** ** mutual information of any number of variables: the volume terms cancel *)
Theorem C118_mi_combination vars n ds : (2 <= n)%nat -> (2 <= length vars)%nat -> Forall2 (fun d a => shaped n d a) ds vars ->
  exists (H : arr -> R) v, (forall a, In a vars -> entropy_discrete b (EArr a) = Ok (H a)) /\ entropy_discrete b (ETuple vars) = Ok v /\
    kernel_mi E (box_args h w b) (Some 0%Z) false (map (encode f) vars) = Ok (sumf H vars - v).
Proof using Hh HC HW HV SP.
  intros Hn H2 F. assert (NE : vars <> []) by (intros ->; simpl in H2; lia).
  assert (F' : Forall2 (fun d a => table n d (rows2d a)) ds (map (encode f) vars)).
  { clear -F. induction F; cbn; constructor; auto. apply shaped_table; assumption. }
  destruct (C60_mi_is_entropy_combination E h w b n Hh HC HW HV Hn ds (map (encode f) vars)) as (Hs & H & FS & EH & EM);
    [rewrite map_length; exact H2|exact F'|].
  destruct (C118_joint_entropy vars n ds Hn NE F) as (v & Ev & Kv). rewrite EH in Kv. injection Kv as ->.
  exists (fun a => match entropy_discrete b (EArr a) with Ok r => r | _ => 0 end), v. split; [|split; [exact Ev|]].
  - intros a Ia. assert (S : exists d, shaped n d a).
    { clear -F Ia. induction F as [|d c ds vars S F IH]; [destruct Ia|]. destruct Ia as [->|Ia]; [exists d; exact S|apply IH, Ia]. }
    destruct S as [d S]. destruct (C118_entropy a n d Hn S) as (u & -> & _). reflexivity.
  - rewrite EM. f_equal. clear EM EH Ev NE H2 F'. revert Hs FS. 
    assert (G : forall Hs, Forall2 (fun a Ha => kernel_entropy E (box_args h w b) (FArr a) = Ok Ha) (map (encode f) vars) Hs ->
      sumR Hs = sumf (fun a => match entropy_discrete b (EArr a) with Ok r => r | _ => 0 end) vars + INR (fold_right Nat.add 0%nat ds) * (ln h / unit_of b)).
    { induction F as [|d a ds vars S F IH]; intros Hs FS; inversion FS; subst; [cbn; unfold sumR; cbn; lra|].
      destruct (C118_entropy a n d Hn S) as (u & Eu & Ku). match goal with X : kernel_entropy _ _ _ = Ok _ |- _ => rewrite Ku in X; injection X as <- end.
      unfold sumR in *. cbn [sumf fold_right]. rewrite Eu. rewrite (IH _ ltac:(eassumption)). rewrite plus_INR. ring. }
    intros Hs FS. rewrite (G Hs FS). ring.
Qed.

(** ** labels of tables of vectors *)
Lemma combine_seq {A B} (da : A) (db : B) n x y : length x = n -> length y = n ->
  combine x y = map (fun t => (nth t x da, nth t y db)) (seq 0 n).
Proof using.
  intros Lx Ly. apply (nth_ext _ _ (da, db) (da, db)); [rewrite combine_length, map_length, seq_length; lia|].
  intros k Hk. rewrite combine_length in Hk. rewrite combine_nth by congruence.
  rewrite (nth_indep _ (da, db) (nth n x da, nth n y db)) by (rewrite map_length, seq_length; lia).
  rewrite (map_nth (fun t => (nth t x da, nth t y db))). rewrite seq_nth by lia. reflexivity.
Qed.

Lemma K1 n D d x : (0 < n)%nat -> ztab n d x -> KH h n D [zenc f x] = Ent x + INR D * ln h.
Proof using Hh SP.
  intros Hn Tx. change [zenc f x] with (map (zenc f) [x]).
  rewrite (KH_enc h f Hh SP n D [d] [x]); [|exact Hn|apply Forall2_cons; [exact Tx|apply Forall2_nil]]. f_equal.
  transitivity (Ent (map (fun t => nth t x []) (seq 0 n))); [|rewrite nth_all by apply Tx; reflexivity].
  apply Ent_labels; [exact Hn|]. intros s t _ _. cbn [map]. split; [intros Q; injection Q; auto|intros ->; reflexivity].
Qed.
Lemma K2 n D d e x y : (0 < n)%nat -> ztab n d x -> ztab n e y -> KH h n D [zenc f x; zenc f y] = Ent (combine x y) + INR D * ln h.
Proof using Hh SP.
  intros Hn Tx Ty. change [zenc f x; zenc f y] with (map (zenc f) [x; y]).
  rewrite (KH_enc h f Hh SP n D [d; e] [x; y]); [|exact Hn|apply Forall2_cons; [exact Tx|apply Forall2_cons; [exact Ty|apply Forall2_nil]]]. f_equal.
  rewrite (combine_seq [] [] n x y (proj1 Tx) (proj1 Ty)).
  apply Ent_labels; [exact Hn|]. intros s t _ _. cbn [map]. split; intros Q; [injection Q as -> ->|injection Q as -> ->]; reflexivity.
Qed.
Lemma K3 n D d e g x y z : (0 < n)%nat -> ztab n d x -> ztab n e y -> ztab n g z ->
  KH h n D [zenc f x; zenc f y; zenc f z] = Ent (combine (combine x y) z) + INR D * ln h.
Proof using Hh SP.
  intros Hn Tx Ty Tz. change [zenc f x; zenc f y; zenc f z] with (map (zenc f) [x; y; z]).
  rewrite (KH_enc h f Hh SP n D [d; e; g] [x; y; z]); [|exact Hn|repeat (apply Forall2_cons; [assumption|]); apply Forall2_nil]. f_equal.
  rewrite (combine_seq [] [] n x y (proj1 Tx) (proj1 Ty)).
  rewrite (combine_seq ([], []) [] n _ z); [|rewrite map_length, seq_length; reflexivity|apply Tz].
  rewrite <- (combine_seq [] [] n x y (proj1 Tx) (proj1 Ty)).
  apply Ent_labels; [exact Hn|]. intros s t Hs Ht. rewrite !combine_nth by (rewrite (proj1 Tx), (proj1 Ty); reflexivity).
  cbn [map]. split; intros Q; [injection Q as -> -> ->|injection Q as -> -> ->]; reflexivity.
Qed.
Lemma K4 n D d e g i x y z u : (0 < n)%nat -> ztab n d x -> ztab n e y -> ztab n g z -> ztab n i u ->
  KH h n D [zenc f x; zenc f y; zenc f z; zenc f u] = Ent (combine (combine (combine x y) z) u) + INR D * ln h.
Proof using Hh SP.
  intros Hn Tx Ty Tz Tu. change [zenc f x; zenc f y; zenc f z; zenc f u] with (map (zenc f) [x; y; z; u]).
  rewrite (KH_enc h f Hh SP n D [d; e; g; i] [x; y; z; u]); [|exact Hn|repeat (apply Forall2_cons; [assumption|]); apply Forall2_nil]. f_equal.
  assert (L2 : length (combine x y) = n) by (rewrite combine_length, (proj1 Tx), (proj1 Ty); lia).
  assert (L3 : length (combine (combine x y) z) = n) by (rewrite combine_length, L2, (proj1 Tz); lia).
  rewrite (combine_seq ([], [], []) [] n _ u L3 (proj1 Tu)).
  apply Ent_labels; [exact Hn|]. intros s t Hs Ht.
  rewrite !combine_nth by (try rewrite L2; rewrite ?(proj1 Tx), ?(proj1 Ty), ?(proj1 Tz); reflexivity).
  cbn [map]. split; intros Q; [injection Q as -> -> -> ->|injection Q as -> -> -> ->]; reflexivity.
Qed.

Definition singles (xs : list Z) : list (list Z) := map (fun x => [x]) xs.
Lemma enc1 xs : rows2d (F1 (map f xs)) = zenc f (singles xs).
Proof using. unfold zenc, singles. cbn [rows2d]. rewrite !map_map. reflexivity. Qed.
Lemma singles_ztab n xs : length xs = n -> ztab n 1 (singles xs).
Proof using. intros L. split; [unfold singles; rewrite map_length; exact L|]. apply Forall_forall. intros r Hr. unfold singles in Hr. apply in_map_iff in Hr as (x & <- & _). reflexivity. Qed.
Lemma singles_part xs : same_partition (singles xs) xs.
Proof using. apply singletons_partition. Qed.
Lemma shaped1 n xs : length xs = n -> shaped n 1 (A1 xs).
Proof using. intros L. split; [exact L|]. apply (singles_ztab n xs L). Qed.

(** ** mutual information of two one-dimensional variables *)
Theorem C118_mi xs ys n : big_base b -> (2 <= n)%nat -> length xs = n -> length ys = n -> small2 n ->
  kernel_mi E (box_args h w b) (Some 0%Z) false [F1 (map f xs); F1 (map f ys)] = mi_discrete b (Some 0%Z) [A1 xs; A1 ys].
Proof using Hh HC HW HV SP.
  intros HB Hn Lx Ly HS. rewrite mi2_api by (try exact HB; try congruence; try (rewrite Lx; exact HS); intros ->; cbn in Lx; lia).
  destruct (C118_mi_combination [A1 xs; A1 ys] n [1; 1]%nat Hn ltac:(cbn; lia)) as (H & v & EH & Ev & K).
  { repeat (apply Forall2_cons; [apply shaped1; assumption|]). apply Forall2_nil. }
  cbn [map encode] in K. rewrite K. f_equal.
  assert (U : forall c, length c = n -> SpecInput.usable (EArr (A1 c))) by (intros c L; apply usable_arr; cbn; lia).
  pose proof (EH (A1 xs) (or_introl eq_refl)) as Ex. pose proof (EH (A1 ys) (or_intror (or_introl eq_refl))) as Ey.
  rewrite (ent_any _ (U _ Lx)) in Ex. rewrite (ent_any _ (U _ Ly)) in Ey. injection Ex as Ex. injection Ey as Ey.
  destruct (sample_labels [A1 xs; A1 ys] n [1; 1]%nat ltac:(lia) ltac:(discriminate)) as [Uj EE].
  { repeat (apply Forall2_cons; [apply shaped1; assumption|]). apply Forall2_nil. }
  assert (Ev2 : v = Ent (sample (ETuple [A1 xs; A1 ys])) / unit_of b) by (rewrite (ent_any _ Uj) in Ev; congruence). rewrite EE in Ev2. rewrite Ev2. cbn [sumf]. rewrite <- Ex, <- Ey.
  cbn [sample arr_rows]. fold (singles xs) (singles ys).
  rewrite (Ent_partition (singles xs) xs (singles_part xs)), (Ent_partition (singles ys) ys (singles_part ys)).
  assert (J : Ent (map (fun t => map (fun v : list (list Z) => nth t v []) (map arr_rows [A1 xs; A1 ys])) (seq 0 n)) = Ent (combine xs ys)).
  { cbn [map arr_rows]. fold (singles xs) (singles ys).
    pose proof (K2 n 0 1 1 _ _ ltac:(lia) (singles_ztab n xs Lx) (singles_ztab n ys Ly)) as Q.
    change [zenc f (singles xs); zenc f (singles ys)] with (map (zenc f) [singles xs; singles ys]) in Q.
    rewrite (KH_enc h f Hh SP n 0 [1; 1]%nat [singles xs; singles ys]) in Q; [|lia|repeat (apply Forall2_cons; [apply singles_ztab; assumption|]); apply Forall2_nil].
    apply Rplus_eq_reg_r in Q. cbn [map] in Q. rewrite Q. apply Ent_partition.
    apply same_partition_combine; try apply singles_part; unfold singles; rewrite ?map_length; congruence. }
  rewrite J. unfold MI, Rdiv. ring.
Qed.

(** ** conditional mutual information *)
Theorem C118_cmi xs ys zs n : (2 <= n)%nat -> length xs = n -> length ys = n -> length zs = n -> small2 n ->
  kernel_cmi E (box_args h w b) (Some 0%Z) false [F1 (map f xs); F1 (map f ys)] (F1 (map f zs)) = cmi_discrete b [A1 xs; A1 ys] (RArr (A1 zs)).
Proof using Hh HC HW HV SP.
  intros Hn Lx Ly Lz HS. rewrite (proj1 (PMI5.cmi2_api b xs ys zs HV ltac:(congruence) ltac:(congruence) ltac:(intros ->; cbn in Lx; lia) ltac:(rewrite Lx; exact HS))).
  change [F1 (map f xs); F1 (map f ys)] with (map F1 [map f xs; map f ys]).
  rewrite (kernel_cmi_ok E h w b n [map f xs; map f ys] (map f zs)) by (first [assumption | rewrite map_length; assumption | cbn; lia | repeat constructor; rewrite map_length; assumption]).
  f_equal. unfold KCMI1. cbn [map app length]. unfold sumR. cbn [sumf].
  assert (P : forall c, pts (map f c) = zenc f (singles c)) by (intros c; rewrite <- enc1; reflexivity). rewrite !P.
  rewrite (K2 n _ 1 1 (singles xs) (singles zs)), (K2 n _ 1 1 (singles ys) (singles zs)), (K3 n _ 1 1 1 (singles xs) (singles ys) (singles zs)), (K1 n _ 1 (singles zs))
    by (try lia; apply singles_ztab; assumption).
  assert (LL : length (singles xs) = length (singles ys) /\ length (singles xs) = length (singles zs)) by (unfold singles; rewrite !map_length; split; congruence).
  rewrite <- (CMI_partition (singles xs) (singles ys) (singles zs) xs ys zs); try apply singles_part; try apply LL; try congruence.
  unfold CMI, Rdiv. cbn [INR]. ring.
Qed.

(** ** transfer entropy with any histories, of arrays of any dimension *)
Lemma nth_zenc v t : nth t (zenc f v) [] = map f (nth t v []).
Proof using. apply zenc_nth. Qed.
Lemma past_enc v s len ts : past_pts (zenc f v) s len ts = zenc f (map (@List.concat Z) (pasts [] v s len ts)).
Proof using.
  unfold past_pts, pasts, zenc. rewrite !map_map. apply map_ext. intros t. unfold past.
  rewrite concat_map, map_map. f_equal. apply map_ext. intros j. apply zenc_nth.
Qed.
Lemma present_enc v ts : present_pts (zenc f v) ts = zenc f (presents [] v ts).
Proof using. unfold present_pts, presents, zenc. rewrite map_map. apply map_ext. intros t. apply zenc_nth. Qed.

Lemma concat_const_len (rs : list (list Z)) d : Forall (fun r => length r = d) rs -> length (List.concat rs) = (length rs * d)%nat.
Proof using. induction 1 as [|r rs L F IH]; cbn; [reflexivity|]. rewrite app_length, L, IH. lia. Qed.

Lemma pasts_ztab n d v s len ts : ztab n d v -> (forall t, In t ts -> (t < n)%nat) -> (1 <= len)%nat ->
  ztab (length ts) (len * d) (map (@List.concat Z) (pasts [] v s len ts)).
Proof using.
  intros T HT Hl. split; [rewrite map_length, pasts_length; reflexivity|]. apply Forall_forall. intros r Hr.
  apply in_map_iff in Hr as (p & <- & Hp). unfold pasts in Hp. apply in_map_iff in Hp as (t & <- & It). specialize (HT t It).
  rewrite (concat_const_len _ d); [rewrite past_length; reflexivity|]. apply Forall_forall. intros q Hq. unfold past in Hq.
  apply in_map_iff in Hq as (j & <- & Hj). apply (ztab_row n d v _ T). lia.
Qed.
Lemma presents_ztab n d v ts : ztab n d v -> (forall t, In t ts -> (t < n)%nat) -> ztab (length ts) d (presents [] v ts).
Proof using.
  intros T HT. split; [unfold presents; rewrite map_length; reflexivity|]. apply Forall_forall. intros r Hr.
  unfold presents in Hr. apply in_map_iff in Hr as (t & <- & It). apply (ztab_row n d v _ T). apply HT, It.
Qed.

Theorem C118_te source dest n ds dd l k c s : shaped n ds source -> shaped n dd dest -> small2 n ->
  (1 <= l)%nat -> (1 <= k)%nat -> (1 <= s)%nat -> (Nat.max k l * s < n)%nat -> (2 <= nrows n (Nat.max k l * s) s)%nat ->
  kernel_te E (box_args h w b) (encode f source) (encode f dest) (kte_kw l k c s) RNone = te_discrete b source dest (te_kw l k s).
Proof using Hh HC HW HV SP.
  intros Ss Sd HS Hl Hk Hs Hd Hm.
  pose proof (C19_te_multivariate b source dest l k s n HV (proj1 Ss) (proj1 Sd) Hl Hk Hs Hd HS) as D. cbn zeta in D. rewrite D. clear D.
  destruct (C62_te_is_conditional_mi E h w b n ds dd (encode f source) (encode f dest) l k c s RNone Hh HC HW HV
    (shaped_table f n ds source Ss) (shaped_table f n dd dest Sd) Hl Hk Hs Hd Hm Logic.I) as (v & -> & -> & _).
  f_equal. cbn [rnd_rows]. rewrite !rows_enc, !past_enc, present_enc.
  set (ts := base_times n (Nat.max k l * s) s).
  assert (HT : forall t, In t ts -> (t < n)%nat). { intros t Ht. unfold ts in Ht. rewrite base_times_In in Ht by exact Hs. tauto. }
  assert (LT : length ts = nrows n (Nat.max k l * s) s) by apply base_times_length.
  pose proof (pasts_ztab n ds _ s l ts (shaped_ztab _ _ _ Ss) HT Hl) as TX. pose proof (pasts_ztab n dd _ s k ts (shaped_ztab _ _ _ Sd) HT Hk) as TZ.
  pose proof (presents_ztab n dd _ ts (shaped_ztab _ _ _ Sd) HT) as TY. rewrite LT in TX, TZ, TY.
  set (m := nrows n (Nat.max k l * s) s) in *.
  set (X := map (@List.concat Z) (pasts [] (arr_rows source) s l ts)) in *. set (Z := map (@List.concat Z) (pasts [] (arr_rows dest) s k ts)) in *.
  set (Y := presents [] (arr_rows dest) ts) in *.
  rewrite (KH_perm_vars h m _ [zenc f X; zenc f Z; zenc f Y] [zenc f Y; zenc f X; zenc f Z]) by (apply Permutation_sym; eapply Permutation_trans; [apply perm_swap|apply perm_skip, perm_swap]).
  rewrite (KH_perm_vars h m _ [zenc f Z; zenc f Y] [zenc f Y; zenc f Z]) by apply perm_swap.
  rewrite (K2 m _ _ _ X Z ltac:(lia) TX TZ), (K2 m _ _ _ Y Z ltac:(lia) TY TZ), (K3 m _ _ _ _ Y X Z ltac:(lia) TY TX TZ), (K1 m _ _ Z ltac:(lia) TZ).
  unfold CMI, Rdiv. rewrite !plus_INR. ring.
Qed.

(** ** conditional transfer entropy *)
Lemma Ent_assoc {T1 T2 T3 : Type} `{EqDec T1} `{EqDec T2} `{EqDec T3} n (x : list T1) (y : list T2) (z : list T3) (dx : T1) (dy : T2) (dz : T3) : (0 < n)%nat ->
  length x = n -> length y = n -> length z = n -> Ent (combine (combine x y) z) = Ent (combine x (combine y z)).
Proof using.
  intros Hn Lx Ly Lz.
  assert (L1 : length (combine x y) = n) by (rewrite combine_length; lia). assert (L2 : length (combine y z) = n) by (rewrite combine_length; lia).
  rewrite (combine_seq (dx, dy) dz n _ z L1 Lz), (combine_seq dx (dy, dz) n x _ Lx L2). apply Ent_labels; [exact Hn|]. intros s t _ _.
  rewrite !combine_nth by congruence. split; intros Q; injection Q as -> -> ->; reflexivity.
Qed.

Theorem C118_cte source dest zs n ds dd l k c s : shaped n ds source -> shaped n dd dest -> length zs = n -> small2 n ->
  (1 <= l)%nat -> (1 <= k)%nat -> (1 <= c)%nat -> (1 <= s)%nat ->
  (Nat.max (Nat.max k l) c * s < n)%nat -> (2 <= nrows n (Nat.max (Nat.max k l) c * s) s)%nat ->
  kernel_cte E (box_args h w b) (encode f source) (encode f dest) (F1 (map f zs)) (kte_kw l k c s) = cte_discrete b source dest (RArr (A1 zs)) (PropsTE.cte_kw l k c s).
Proof using Hh HC HW HV SP.
  intros Ss Sd Lz HS Hl Hk Hc Hs Hd Hm.
  pose proof (shaped1 n zs Lz) as Sc. set (cond := A1 zs) in *. change (F1 (map f zs)) with (encode f cond).
  destruct (cte_gen_ok b None source dest cond l k c s n HV Logic.I (proj1 Ss) (proj1 Sd) (proj1 Sc) Hl Hk Hc Hs Hd HS) as [D _].
  unfold cte_discrete, cond. cbn [reduce_joint_space bind]. fold cond. rewrite D. clear D. rewrite Rplus_0_r.
  destruct (C62_cte_is_conditional_mi E h w b n ds dd 1 (encode f source) (encode f dest) (encode f cond) l k c s Hh HC HW HV
    (shaped_table f n ds source Ss) (shaped_table f n dd dest Sd) (shaped_table f n 1 cond Sc) Hl Hk Hc Hs Hd Hm) as (v & -> & -> & _).
  f_equal. rewrite !rows_enc, !past_enc, present_enc. unfold flat_pasts, flat_presents.
  set (ts := base_times n (Nat.max (Nat.max k l) c * s) s).
  assert (HT : forall t, In t ts -> (t < n)%nat). { intros t Ht. unfold ts in Ht. rewrite base_times_In in Ht by exact Hs. tauto. }
  assert (LT : length ts = nrows n (Nat.max (Nat.max k l) c * s) s) by apply base_times_length.
  pose proof (pasts_ztab n ds _ s l ts (shaped_ztab _ _ _ Ss) HT Hl) as TX. pose proof (pasts_ztab n dd _ s k ts (shaped_ztab _ _ _ Sd) HT Hk) as TZ.
  pose proof (pasts_ztab n 1 _ s c ts (shaped_ztab _ _ _ Sc) HT Hc) as TC.
  pose proof (presents_ztab n dd _ ts (shaped_ztab _ _ _ Sd) HT) as TY. rewrite LT in TX, TZ, TY, TC.
  set (m := nrows n (Nat.max (Nat.max k l) c * s) s) in *.
  set (X := map (@List.concat Z) (pasts [] (arr_rows source) s l ts)) in *. set (Z := map (@List.concat _) (pasts [] (arr_rows dest) s k ts)) in *.
  set (C := map (@List.concat _) (pasts [] (arr_rows cond) s c ts)) in *. set (Y := presents [] (arr_rows dest) ts) in *.
  assert (Q : CMI Y X (hcat [Z; C]) = CMI Y X (combine Z C)).
  { assert (P : same_partition (hcat [Z; C]) (combine Z C)).
    { apply (hcat_partition _ _ (k * dd)); [rewrite (proj1 TZ), (proj1 TC); reflexivity|]. apply Forall_forall. apply TZ. }
    apply CMI_partition; try apply same_partition_refl; [rewrite (proj1 TX), (proj1 TY); reflexivity| |exact P].
    rewrite (proj1 P), combine_length, (proj1 TZ), (proj1 TC), (proj1 TY). lia. }
  rewrite Q.
  assert (P4 : Permutation [zenc f X; zenc f Z; zenc f Y; zenc f C] [zenc f Y; zenc f X; zenc f Z; zenc f C]).
  { apply Permutation_sym. eapply Permutation_trans; [apply perm_swap|]. apply perm_skip, perm_swap. }
  rewrite (KH_perm_vars h m _ _ _ P4).
  rewrite (KH_perm_vars h m _ [zenc f Z; zenc f Y; zenc f C] [zenc f Y; zenc f Z; zenc f C]) by apply perm_swap.
  rewrite (K3 m _ _ _ _ X Z C ltac:(lia) TX TZ TC), (K3 m _ _ _ _ Y Z C ltac:(lia) TY TZ TC), (K4 m _ _ _ _ _ Y X Z C ltac:(lia) TY TX TZ TC), (K2 m _ _ _ Z C ltac:(lia) TZ TC).
  assert (L2 : length (combine Y X) = m) by (rewrite combine_length, (proj1 TX), (proj1 TY); lia).
  rewrite (Ent_assoc m X Z C [] [] [] ltac:(lia) (proj1 TX) (proj1 TZ) (proj1 TC)), (Ent_assoc m Y Z C [] [] [] ltac:(lia) (proj1 TY) (proj1 TZ) (proj1 TC)),
    (Ent_assoc m (combine Y X) Z C ([], []) [] [] ltac:(lia) L2 (proj1 TZ) (proj1 TC)).
  unfold CMI, Rdiv. rewrite !plus_INR. ring.
Qed.

(** ** cross-entropy and divergences of one-dimensional samples *)
Lemma near1 x y : near h [f x] [f y] = true <-> x = y.
Proof using Hh SP. change (near h (map f [x]) (map f [y]) = true <-> x = y). rewrite (near_sep h f Hh SP [x] [y] eq_refl). split; [intros Q; injection Q; auto|intros ->; reflexivity]. Qed.

Lemma nref_count qs x : nref h (zenc f (singles qs)) [f x] = count qs x.
Proof using Hh SP.
  unfold nref, count, zenc, singles. rewrite map_map. cbn [map]. induction qs as [|y qs IH]; [reflexivity|]. cbn [map filter count_occ].
  pose proof (near1 x y) as N. destruct (near h [f x] [f y]); destruct (eq_dec y x) as [D|D]; cbn [length].
  - f_equal. exact IH.
  - exfalso. apply D. symmetry. apply N. reflexivity.
  - exfalso. assert (false = true) by (apply N; congruence). discriminate.
  - exact IH.
Qed.

Theorem C118_cross_entropy ps qs : (2 <= length ps)%nat -> qs <> [] ->
  exists c, cross_discrete b (A1 ps) (A1 qs) = Ok c /\
    kernel_cross_entropy E (box_args h w b) (F1 (map f ps)) (F1 (map f qs)) = Ok (c + covered ps qs * (ln h / unit_of b)).
Proof using Hh HC HW HV SP.
  intros Hp NQ. assert (NP : ps <> []) by (intros ->; simpl in Hp; lia). exists (CrossEnt ps qs / unit_of b). split; [apply C99_discrete_value; assumption|].
  assert (Hq : (1 <= length qs)%nat) by (destruct qs; [congruence|simpl; lia]).
  rewrite (C64_cross_entropy E h w b (length ps) (length qs) 1 (F1 (map f ps)) (F1 (map f qs)) Hh HC HW HV Hp Hq);
    [|exact (shaped_table f _ 1 (A1 ps) (shaped1 _ ps eq_refl))|exact (shaped_table f _ 1 (A1 qs) (shaped1 _ qs eq_refl))].
  f_equal. rewrite !enc1. 
  assert (LP : 0 < INR (length ps)) by (apply lt_0_INR; lia). assert (LQ : 0 < INR (length qs)) by (apply lt_0_INR; lia).
  assert (G : mean (map (fun x => if Nat.eqb (nref h (zenc f (singles qs)) x) 0 then 0 else - ln (refdensity h 1 (zenc f (singles qs)) x)) (zenc f (singles ps)))
    = sumf (fun v => if in_dec eq_dec v qs then - ln (prob qs v) + ln h else 0) ps / INR (length ps)).
  { unfold zenc at 3, singles at 3. rewrite !map_map. rewrite mean_map. f_equal. apply sumf_ext. intros v _. cbn [map]. rewrite nref_count.
    destruct (in_dec eq_dec v qs) as [Y|N].
    - assert (CP : (0 < count qs v)%nat) by (apply count_occ_In; exact Y). destruct (Nat.eqb_spec (count qs v) 0) as [Z0|_]; [lia|].
      unfold refdensity. rewrite nref_count. unfold zenc, singles. rewrite !map_length. unfold prob.
      assert (P1 : 0 < INR (count qs v) / INR (length qs)) by (apply Rdiv_lt_0_compat; [apply lt_0_INR; exact CP|exact LQ]).
      unfold Rdiv at 1. rewrite (ln_mult _ (/ h ^ 1) P1) by (apply Rinv_0_lt_compat; cbn; lra). cbn [pow]. rewrite Rmult_1_r, ln_Rinv by exact Hh. ring.
    - unfold count. rewrite (proj1 (count_occ_not_In eq_dec qs v) N). reflexivity. }
  rewrite G. clear G.
  assert (G2 : sumf (fun v => if in_dec eq_dec v qs then - ln (prob qs v) + ln h else 0) ps
     = sumf (fun v => if in_dec eq_dec v qs then - ln (prob qs v) else 0) ps + INR (length (filter (fun v => if in_dec Z.eq_dec v qs then true else false) ps)) * ln h).
  { clear. induction ps as [|v ps IH]; [cbn; ring|]. cbn [sumf filter]. rewrite IH. destruct (in_dec eq_dec v qs); destruct (in_dec Z.eq_dec v qs); try contradiction; cbn [length]; rewrite ?S_INR; ring. }
  rewrite G2, points_group. clear G2.
  assert (G3 : sumf (fun v => INR (count ps v) * (if in_dec eq_dec v qs then - ln (prob qs v) else 0)) (distinct ps) / INR (length ps) = CrossEnt ps qs).
  { unfold CrossEnt, shared_sum, shared. induction (distinct ps) as [|v r IH]; [cbn; unfold Rdiv; ring|]. cbn [sumf filter].
    rewrite Rdiv_plus_distr, IH. destruct (in_dec eq_dec v qs); cbn [sumf]; [|unfold Rdiv; ring].
    change (prob ps v) with (INR (count ps v) / INR (length ps)). field. lra. }
  rewrite <- G3. unfold covered. field. split; [apply unit_neq0; exact HV|lra].
Qed.

Theorem C118_kld ps qs : (2 <= length ps)%nat -> incl ps qs ->
  kernel_kld E (box_args h w b) (F1 (map f ps)) (F1 (map f qs)) = kld_disc b (A1 ps) (A1 qs).
Proof using Hh HC HW HV SP.
  intros Hp I. assert (NP : ps <> []) by (intros ->; simpl in Hp; lia).
  assert (NQ : qs <> []) by (destruct ps as [|x r]; [congruence|intros ->; destruct (I x (or_introl eq_refl))]).
  destruct (C118_cross_entropy ps qs Hp NQ) as (c & Ec & Kc). destruct (C118_entropy (A1 ps) (length ps) 1 Hp (shaped1 _ ps eq_refl)) as (v & Ev & Kv).
  cbn [encode] in Kv. unfold kernel_kld. rewrite Kc, Kv. cbn [bind].
  assert (K : kld_disc b (A1 ps) (A1 qs) = Ok (c - v)).
  { unfold kld_disc, kld_of. fold (cross_of (fun b p q => discrete_cross b p q)). 
    unfold cross_discrete in Ec. revert Ec Ev. unfold entropy_discrete, simple_of, cross_of. rewrite !make_1d by assumption. cbn [bind]. intros -> ->. reflexivity. }
  rewrite K. f_equal. assert (C1 : covered ps qs = 1).
  { unfold covered. assert (FA : forall l : list Z, incl l qs -> filter (fun v => if in_dec Z.eq_dec v qs then true else false) l = l).
    { clear. induction l as [|x l IH]; intros I; [reflexivity|]. cbn [filter]. destruct (in_dec Z.eq_dec x qs) as [_|N]; [|destruct (N (I x (or_introl eq_refl)))].
      f_equal. apply IH. intros y Hy. apply I. right. exact Hy. }
    rewrite (FA ps I). apply Rinv_r. apply not_0_INR. lia. }
  rewrite C1. cbn [INR]. ring.
Qed.

Theorem C118_jsd n ds : (2 <= n)%nat -> ds <> [] -> Forall (fun d => length d = n) ds ->
  kernel_jsd E (box_args h w b) (map (fun d => F1 (map f d)) ds) = jsd_discrete b (map A1 ds).
Proof using Hh HC HW HV SP.
  intros Hn NE FL.
  assert (F : Forall (fun d : list Z => d <> []) ds) by (eapply Forall_impl; [|exact FL]; cbn; intros d L ->; simpl in L; lia).
  rewrite (proj1 (C28_jsd_discrete b ds HV NE F)).
  assert (FC : fconcat (map (fun d => F1 (map f d)) ds) = Ok (F1 (map f (List.concat ds)))).
  { destruct ds as [|d0 r]; [congruence|]. clear. unfold fconcat. cbn [map]. fold (map (fun d => F1 (map f d)) r). 
    change (F1 (map f d0) :: map (fun d => F1 (map f d)) r) with (map (fun d => F1 (map f d)) (d0 :: r)). generalize (d0 :: r) as l. intros l.
    assert (M : mapM (fun a => match a with F1 ys => Ok ys | F2 _ => Raise ValueError end) (map (fun d => F1 (map f d)) l) = Ok (map (map f) l)).
    { induction l as [|d l IH]; [reflexivity|]. cbn [map mapM bind]. rewrite IH. reflexivity. }
    rewrite M. cbn [rmap bind]. rewrite concat_map. reflexivity. }
  unfold kernel_jsd. rewrite FC. cbn [bind].
  assert (LC : (2 <= length (List.concat ds))%nat).
  { destruct ds as [|d0 r]; [congruence|]. inversion FL; subst. cbn [List.concat]. rewrite app_length. lia. }
  assert (KE : forall c, (2 <= length c)%nat -> kernel_entropy E (box_args h w b) (FArr (F1 (map f c))) = Ok ((Ent c + ln h) / unit_of b)).
  { intros c Lc. rewrite (proj2 (C59_kernel_entropy E h w b Hh HC HW HV (F1 (map f c)) (length c) 1 Lc (shaped_table f _ 1 (A1 c) (shaped1 _ c eq_refl)))).
    rewrite enc1, (K1 (length c) 1 1 (singles c) ltac:(lia) (singles_ztab _ c eq_refl)). rewrite (Ent_partition (singles c) c (singles_part c)). do 2 f_equal. cbn [INR]. ring. }
  rewrite (KE _ LC). cbn [bind]. rewrite map_length.
  rewrite mapM_map, (mapM_ok _ (fun c => (Ent c + ln h) / unit_of b)) by (intros c Hc; apply KE; rewrite Forall_forall in FL; rewrite (FL c Hc); exact Hn).
  cbn [bind]. f_equal.
  assert (NK : 0 < INR (length ds)) by (apply lt_0_INR; destruct ds; [congruence|simpl; lia]).
  assert (Nn : 0 < INR n) by (apply lt_0_INR; lia).
  assert (S1 : sumR (map (fun c => (Ent c + ln h) / unit_of b) ds) = (sumf Ent ds + INR (length ds) * ln h) / unit_of b).
  { clear. unfold sumR. induction ds as [|c r IH]; [cbn; unfold Rdiv; ring|]. cbn [map sumf length]. rewrite IH, S_INR. unfold Rdiv. ring. }
  rewrite S1, (JSD_pooled n ds ltac:(lia) NE FL). field. split; [lra|apply unit_neq0; exact HV].
Qed.
End Theorems.

(** integers are further apart than half a unit bandwidth; a copied fair coin carries ln 2 for both estimators *)
Lemma spread_Z h : 0 < h < 2 -> spread h IZR.
Proof.
  intros [H0 H2] x y N. rewrite <- minus_IZR, <- abs_IZR. assert (1 <= Z.abs (x - y))%Z by lia. apply IZR_le in H. lra.
Qed.

Example C118_example : forall E w, (0 < cpus E)%Z -> workers_ok w ->
  let xs := [0; 1; 1; 0]%Z in
  kernel_mi E (box_args 1 w BE) (Some 0%Z) false [F1 (map IZR xs); F1 (map IZR xs)] = Ok (ln 2) /\
  mi_discrete BE (Some 0%Z) [A1 xs; A1 xs] = Ok (ln 2) /\
  kernel_entropy E (box_args 1 w BE) (FArr (F1 (map IZR xs))) = Ok (ln 2).
Proof.
  intros E w HC HW xs.
  assert (B : big_base BE) by exact Logic.I. assert (V : valid_base BE) by exact Logic.I.
  assert (S2 : small2 4) by (unfold small2; simpl; lia).
  assert (EX : Ent xs = ln 2).
  { unfold Ent, xs. change (distinct [0; 1; 1; 0]%Z) with [1; 0]%Z. cbn [sumf]. unfold prob.
    change (count [0; 1; 1; 0]%Z 1%Z) with 2%nat. change (count [0; 1; 1; 0]%Z 0%Z) with 2%nat. cbn [length].
    replace (INR 2 / INR 4) with (/ 2) by (simpl; field). rewrite ln_Rinv by lra. lra. }
  assert (D : mi_discrete BE (Some 0%Z) [A1 xs; A1 xs] = Ok (ln 2)).
  { rewrite (mi2_api BE xs xs B eq_refl ltac:(discriminate) S2). f_equal. rewrite MI_self, EX. cbn [unit_of]. lra. }
  split; [|split; [exact D|]].
  - rewrite (C118_mi E 1 w BE IZR ltac:(lra) HC HW V (spread_Z 1 ltac:(lra)) xs xs 4 B ltac:(lia) eq_refl eq_refl S2). exact D.
  - destruct (C118_entropy E 1 w BE IZR ltac:(lra) HC HW V (spread_Z 1 ltac:(lra)) (A1 xs) 4 1 ltac:(lia) (shaped1 4 xs eq_refl)) as (v & Ev & K).
    cbn [encode] in K. rewrite K. rewrite (ent_any BE V (EArr (A1 xs))) in Ev by (apply usable_arr; cbn; lia).
    assert (EV : v = ln 2).
    { assert (Q : v = Ent (sample (EArr (A1 xs))) / unit_of BE) by (inversion Ev; reflexivity). rewrite Q. cbn [sample arr_rows unit_of].
      fold (singles xs). rewrite (Ent_partition (singles xs) xs (singles_part xs)), EX. lra. }
    rewrite EV, ln_1. f_equal. cbn [unit_of]. lra.
Qed.

(** the distance is needed: with a bandwidth of 2 neighbouring integers fall into the same box and the entropy of a
    fair coin vanishes (up to the volume term) *)
Theorem C118_too_wide : forall E w, (0 < cpus E)%Z -> workers_ok w ->
  kernel_entropy E (box_args 2 w BE) (FArr (F1 (map IZR [0; 1]%Z))) = Ok (0 + ln 2) /\
  entropy_discrete BE (EArr (A1 [0; 1]%Z)) = Ok (ln 2) /\ ~ spread 2 IZR.
Proof.
  intros E w HC HW. split; [|split].
  - assert (T : table 2 1 (rows2d (F1 (map IZR [0; 1]%Z)))) by (split; repeat constructor).
    rewrite (proj2 (C59_kernel_entropy E 2 w BE ltac:(lra) HC HW Logic.I (F1 (map IZR [0; 1]%Z)) 2 1 ltac:(lia) T)). f_equal.
    cbn [unit_of rows2d map]. unfold KH, mean, sumR. cbn [seq map sumf length]. unfold kdensity.
    assert (N : forall t, (t < 2)%nat -> nnear 2 2 [[[0]; [1]]] t = 2%nat).
    { intros t Ht. destruct t as [|[|t]]; try lia; unfold nnear; cbn [seq filter forallb nth]; unfold near; cbn [combine forallb fst snd];
        rewrite ?(Rminus_diag_eq 0 0 eq_refl), ?(Rminus_diag_eq 1 1 eq_refl), ?Rabs_R0;
        rewrite ?(Rabs_left (0 - 1)), ?(Rabs_pos_eq (1 - 0)) by lra;
        repeat match goal with |- context [Rle_dec ?a ?b] => destruct (Rle_dec a b) as [?|?]; [|exfalso; lra] end; reflexivity. }
    rewrite !N by lia. replace (INR 2 / INR 2 / 2 ^ 1) with (/ 2) by (simpl; field). rewrite ln_Rinv by lra. simpl INR. field.
  - rewrite (ent_any BE Logic.I (EArr (A1 [0; 1]%Z))) by (apply usable_arr; cbn; lia). f_equal. cbn [sample arr_rows map unit_of].
    unfold Ent. change (distinct [[0]; [1]]%Z) with [[0]; [1]]%Z. cbn [sumf]. unfold prob.
    change (count [[0]; [1]]%Z [0]%Z) with 1%nat. change (count [[0]; [1]]%Z [1]%Z) with 1%nat. cbn [length].
    replace (INR 1 / INR 2) with (/ 2) by (simpl; field). rewrite ln_Rinv by lra. lra.
  - intros S. pose proof (S 0%Z 1%Z ltac:(lia)) as Q. rewrite Rabs_left in Q by lra. lra.
Qed.
