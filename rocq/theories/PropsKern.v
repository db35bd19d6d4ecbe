(** C53, C59-C62: box-kernel densities, entropies, mutual information and transfer entropy. *)
From Coq Require Import Reals Lra Lia List ZArith Arith Bool Permutation.
From Verif Require Import Res RSum Spec SpecTE SpecTEc SpecBase MBase PBase MTE PTE2 MPct MNorm MCont SpecKern MKern PKern PKern2 PKern3 PKern4 PKern5 PTEc.
Import ListNotations.
Local Open Scope R_scope.

(** keyword arguments bandwidth=h, kernel="box", workers=w, base=b: [box_args h w b] (PKern3).
    An array [a] holds the points [rows2d a]: the rows of a 2-D array, or one-coordinate points. *)

(** ** C53 *)
Theorem C53_box_density : forall E h w a n d,
  0 < h -> workers_ok w -> (2 <= n)%nat -> table n d (rows2d a) ->
  kde E (rows2d a) (BwNum h) None KBox w = Ok (D1 (map (kdensity h n d [rows2d a]) (seq 0 n))) /\
  forall t, (t < n)%nat -> 1 / (INR n * h ^ d) <= kdensity h n d [rows2d a] t <= 1 / h ^ d.
Proof.
  intros E h w a n d Hh W Hn T. split.
  - rewrite <- (single_rows n (rows2d a)) at 1 by apply T.
    assert (T1 : tabs n [d] [rows2d a]) by (constructor; [exact T|constructor]).
    rewrite (kde_box E h n [d] [rows2d a] w Hh T1 ltac:(lia) W).
    rewrite squeeze_long by (rewrite map_length, seq_length; exact Hn).
    cbn [total_dim fold_right]. rewrite Nat.add_0_r. reflexivity.
  - intros t Ht. apply kdensity_bounds; assumption.
Qed.

Lemma split_sizes_concat {A} sizes (l : list A) : length l = fold_right Nat.add 0%nat sizes -> concat (split_sizes sizes l) = l.
Proof.
  revert l. induction sizes as [|k ks IH]; intros l L; cbn in *.
  - destruct l; [reflexivity|discriminate].
  - rewrite IH by (rewrite skipn_length; lia). apply firstn_skipn.
Qed.
Lemma split_sizes_lengths {A} sizes (l : list A) : length l = fold_right Nat.add 0%nat sizes ->
  map (@length A) (split_sizes sizes l) = sizes.
Proof.
  revert l. induction sizes as [|k ks IH]; intros l L; cbn in *; [reflexivity|].
  rewrite IH by (rewrite skipn_length; lia). rewrite firstn_length. f_equal. lia.
Qed.
Lemma sum_repeat k c : fold_right Nat.add 0%nat (repeat c k) = (k * c)%nat.
Proof. induction k; cbn; lia. Qed.
Lemma sum_app l1 l2 : fold_right Nat.add 0%nat (l1 ++ l2) = (fold_right Nat.add 0%nat l1 + fold_right Nat.add 0%nat l2)%nat.
Proof. induction l1; cbn; lia. Qed.

Lemma sizes_sum n k : (0 < k)%nat ->
  n = fold_right Nat.add 0%nat (repeat (S (n / k)) (n mod k) ++ repeat (n / k)%nat (k - n mod k)).
Proof.
  intros Hk. rewrite sum_app, !sum_repeat.
  pose proof (Nat.div_mod n k ltac:(lia)) as D. pose proof (Nat.mod_upper_bound n k ltac:(lia)) as B.
  set (q := (n / k)%nat) in *. set (r := (n mod k)%nat) in *. nia.
Qed.

(** the chunks of the query points: as many as asked for, nearly equal, and together all points in order *)
Theorem C53_chunks : forall {A} (l : list A) (w : Z), (0 < w)%Z ->
  exists chunks, array_split l w = Ok chunks /\ Z.of_nat (length chunks) = w /\ concat chunks = l /\
    forall c c', In c chunks -> In c' chunks -> (length c <= S (length c'))%nat.
Proof.
  intros A l w Hw. unfold array_split. destruct (Z.leb_spec w 0); [lia|].
  set (k := Z.to_nat w). assert (Hk : (0 < k)%nat) by (unfold k; lia).
  set (sizes := repeat (S (length l / k)) (length l mod k) ++ repeat (length l / k)%nat (k - length l mod k)).
  pose proof (sizes_sum (length l) k Hk) as HS. fold sizes in HS.
  pose proof (split_sizes_lengths sizes l HS) as HL.
  exists (split_sizes sizes l). split; [reflexivity|]. split.
  - rewrite <- (map_length (@length A)), HL. unfold sizes. rewrite app_length, !repeat_length.
    pose proof (Nat.mod_upper_bound (length l) k ltac:(lia)). unfold k in *. lia.
  - split; [apply split_sizes_concat; exact HS|].
    intros c c' Hc Hc'. apply (in_map (@length A)) in Hc, Hc'. rewrite HL in Hc, Hc'. unfold sizes in *.
    apply in_app_iff in Hc, Hc'.
    destruct Hc as [Hc|Hc], Hc' as [Hc'|Hc']; apply repeat_spec in Hc, Hc'; lia.
Qed.

Lemma concat_map_squeeze {A} (ev : A -> R) (chunks : list (list A)) : (forall c, In c chunks -> length c <> 1%nat) ->
  concat_d (map (fun c => squeeze (map ev c)) chunks) = Ok (D1 (map ev (concat chunks))).
Proof.
  intros H. unfold concat_d.
  replace (existsb _ _) with false.
  - f_equal. f_equal. rewrite map_map. rewrite concat_map. f_equal. apply map_ext. intros c. apply flat_squeeze.
  - symmetry. apply not_true_iff_false. intros E. apply existsb_exists in E as (d & Hd & E).
    apply in_map_iff in Hd as (c & <- & Hc). specialize (H c Hc).
    destruct c as [|a [|b c]]; cbn in *; try discriminate. lia.
Qed.

(** splitting the query points over any number of workers gives the densities of the sequential evaluation *)
Theorem C53_parallel_is_sequential : forall {A} (ev : A -> R) (n : nat) (qs : list A) (w : Z),
  (0 < w)%Z -> (2 <= length qs)%nat ->
  parallel_kde_evaluate (Ok ev) n qs w = Ok (D1 (map ev qs)) /\
  parallel_kde_evaluate (Ok ev) n qs w = parallel_kde_evaluate (Ok ev) n qs 1.
Proof.
  intros A ev n qs w Hw Hq.
  assert (S1 : squeeze (map ev qs) = D1 (map ev qs)) by (apply squeeze_long; rewrite map_length; exact Hq).
  assert (G : parallel_kde_evaluate (Ok ev) n qs w = Ok (D1 (map ev qs))).
  { unfold parallel_kde_evaluate. destruct (Z.eqb w 1 || Z.ltb (Z.of_nat n) 20000) eqn:B.
    - cbn [bind]. rewrite S1. reflexivity.
    - set (W := Z.min w (Z.max 1 (Z.of_nat (length qs) / 8000))).
      assert (HW : (0 < W)%Z) by (unfold W; lia).
      destruct (C53_chunks qs W HW) as (chunks & -> & LC & CC & EC). cbn [bind].
      rewrite (mapM_ok _ (fun c => squeeze (map ev c))) by (intros; reflexivity). cbn [bind].
      rewrite concat_map_squeeze, CC; [reflexivity|]. intros c Hc L1.
      assert (SL : forall cs : list (list A), (forall c', In c' cs -> (length c' <= 2)%nat) -> (length (concat cs) <= 2 * length cs)%nat).
      { induction cs as [|c0 cs IH]; intros Hcs; cbn; [lia|]. rewrite app_length.
        pose proof (Hcs c0 (or_introl eq_refl)). specialize (IH ltac:(intros; apply Hcs; right; assumption)). lia. }
      assert (B2 : (length qs <= 2 * length chunks)%nat).
      { rewrite <- CC at 1. apply SL. intros c' Hc'. specialize (EC c' c Hc' Hc). lia. }
      destruct (Z.le_gt_cases (Z.of_nat (length qs) / 8000) 1) as [Q|Q].
      + assert (W = 1)%Z by (unfold W; lia). rewrite H in LC.
        destruct chunks as [|c1 [|c2 cs]]; cbn in LC; try lia. cbn in CC. rewrite app_nil_r in CC. subst c1.
        destruct Hc as [->|[]]. lia.
      + assert (W <= Z.of_nat (length qs) / 8000)%Z by (unfold W; lia).
        assert (8000 * (Z.of_nat (length qs) / 8000) <= Z.of_nat (length qs))%Z by (apply Z.mul_div_le; lia).
        lia. }
  split; [exact G|]. rewrite G. unfold parallel_kde_evaluate. rewrite Z.eqb_refl. cbn [orb bind]. rewrite S1. reflexivity.
Qed.

(** kernel entropy: finite, and between ln h^d and ln (N h^d) *)
Theorem C53_entropy_bounds : forall E h w b a n d,
  0 < h -> (0 < cpus E)%Z -> workers_ok w -> valid_base b -> big_base b -> (2 <= n)%nat -> table n d (rows2d a) ->
  exists H, kernel_entropy E (box_args h w b) (FArr a) = Ok H /\
    ln (h ^ d) / unit_of b <= H <= ln (INR n * h ^ d) / unit_of b.
Proof.
  intros E h w b a n d Hh C W V B Hn T.
  destruct (kernel_entropy_rows E h w b n [d] [rows2d a] (FArr a)) as [_ R]; auto.
  { constructor; [exact T|constructor]. }
  { apply make_rows_arr. rewrite flen_rows. apply T. }
  eexists. split; [exact R|]. cbn [total_dim fold_right]. rewrite Nat.add_0_r.
  pose proof (KH_bounds h n d [rows2d a] Hh ltac:(lia)) as [B1 B2].
  assert (U : 0 < unit_of b) by (destruct b as [|r]; cbn in *; [lra|rewrite <- ln_1; apply ln_increasing; lra]).
  rewrite ln_pow, ln_mult, ln_pow; try assumption; [|apply lt_0_INR; lia|apply pow_lt; exact Hh].
  unfold Rdiv. split; apply Rmult_le_compat_r; try lra; left; apply Rinv_0_lt_compat; exact U.
Qed.

(** the hypotheses hold, e.g. for two points, and the bounds are strict there: density 1/2 each *)
Definition env1 : kenv := mkKenv 4%Z (fun _ _ => Raise ValueError).
Example C53_example : table 2 1 (rows2d (F1 [0; 3])) /\ nnear 1 2 [rows2d (F1 [0; 3])] 0 = 1%nat /\ nnear 6 2 [rows2d (F1 [0; 3])] 0 = 2%nat.
Proof.
  split; [split; repeat constructor|]. split; unfold nnear, near; cbn.
  - rewrite Rminus_diag_eq, Rabs_R0 by reflexivity. destruct (Rle_dec 0 (1/2)); [|lra].
    destruct (Rle_dec (Rabs (0 - 3)) (1 / 2)) as [X|_]; [|reflexivity].
    rewrite Rabs_left in X by lra. lra.
  - rewrite Rminus_diag_eq, Rabs_R0 by reflexivity. destruct (Rle_dec 0 (6/2)); [|lra].
    destruct (Rle_dec (Rabs (0 - 3)) (6 / 2)) as [_|X]; [reflexivity|].
    exfalso. apply X. rewrite Rabs_left by lra. lra.
Qed.

(** the sequential/parallel agreement needs two query points: one query point with 20000 or more samples and more
    than one worker is rejected, although a single worker evaluates it *)
Theorem C53_single_query_point_refuted : forall {A} (ev : A -> R) (n : nat) (q : A) (w : Z),
  (20000 <= Z.of_nat n)%Z -> (1 < w)%Z ->
  parallel_kde_evaluate (Ok ev) n [q] 1 = Ok (D0 (ev q)) /\
  parallel_kde_evaluate (Ok ev) n [q] w = Raise ValueError.
Proof.
  intros A ev n q w Hn Hw. split; [unfold parallel_kde_evaluate; rewrite Z.eqb_refl; reflexivity|].
  unfold parallel_kde_evaluate. destruct (Z.eqb_spec w 1); [lia|]. destruct (Z.ltb_spec (Z.of_nat n) 20000); [lia|].
  cbn [orb length]. replace (Z.min w (Z.max 1 (Z.of_nat 1 / 8000))) with 1%Z by (change (Z.of_nat 1 / 8000)%Z with 0%Z; lia).
  reflexivity.
Qed.

(** a single sample point is not accepted by the kernel entropy, whatever the kernel and base *)
Theorem C53_one_point_refuted : forall E h w b p,
  0 < h -> (0 < cpus E)%Z -> workers_ok w -> valid_base b ->
  kernel_entropy E (box_args h w b) (FArr (F2 [p])) = Raise TypeError.
Proof.
  intros E h w b p Hh C W V. unfold kernel_entropy, kernel_entropy_local. cbn [make_rows rows2d bind].
  assert (T : tabs 1 [length p] [[p]]) by (constructor; [split; [reflexivity|repeat constructor]|constructor]).
  rewrite <- (single_rows 1 [p]) at 1 by reflexivity.
  rewrite (kdens_box E h w b 1 [length p] [[p]]) by (auto; lia). cbn [seq map squeeze bind box_args k_base].
  destruct (base_guard_ok b V) as [-> ->]. reflexivity.
Qed.

Lemma tabs_cols n ds cols : Forall2 (fun d a => table n d (rows2d a)) ds cols -> tabs n ds (map rows2d cols).
Proof. induction 1; cbn; constructor; auto. Qed.

(** ** C59: kernel entropy *)
Section Entropy.
Variables (E : kenv) (h : R) (w : Z) (b : base).
Hypothesis (Hh : 0 < h) (HC : (0 < cpus E)%Z) (HW : workers_ok w) (HV : valid_base b).

(** local values and mean: minus the logarithm of the box-kernel densities *)
Theorem C59_kernel_entropy : forall a n d, (2 <= n)%nat -> table n d (rows2d a) ->
  kernel_entropy_local E (box_args h w b) (FArr a)
    = Ok (map (fun t => - ln (kdensity h n d [rows2d a] t) / unit_of b) (seq 0 n)) /\
  kernel_entropy E (box_args h w b) (FArr a) = Ok (KH h n d [rows2d a] / unit_of b).
Proof using Hh HC HW HV.
  intros a n d Hn T.
  destruct (kernel_entropy_rows E h w b n [d] [rows2d a] (FArr a)) as [L R]; auto.
  { constructor; [exact T|constructor]. }
  { apply make_rows_arr. rewrite flen_rows. apply T. }
  cbn [total_dim fold_right] in *. rewrite Nat.add_0_r in *. auto.
Qed.

(** a tuple of arrays: the entropy of the joint variable *)
Theorem C59_kernel_joint_entropy : forall cols n ds, (2 <= n)%nat -> cols <> [] ->
  Forall2 (fun d a => table n d (rows2d a)) ds cols ->
  kernel_entropy E (box_args h w b) (FTuple cols) = Ok (KH h n (fold_right Nat.add 0%nat ds) (map rows2d cols) / unit_of b).
Proof using Hh HC HW HV.
  intros cols n ds Hn Hc F.
  pose proof (tabs_cols n ds cols F) as T.
  apply (kernel_entropy_rows E h w b n ds (map rows2d cols) (FTuple cols)); auto.
  apply make_rows_tuple; [exact Hc|]. eapply tabs_tables. exact T.
Qed.
End Entropy.

Lemma rows2d_F2 rs : rows2d (F2 rs) = rs. Proof. reflexivity. Qed.
Lemma table_reorder n d v sigma : table n d v -> Permutation sigma (seq 0 n) -> table n d (reorder sigma v).
Proof.
  intros [L F] P. unfold reorder. split.
  - rewrite map_length. apply Permutation_length in P. rewrite seq_length in P. exact P.
  - rewrite Forall_forall in *. intros p Hp. apply in_map_iff in Hp as (t & <- & Ht). apply F. apply nth_In.
    apply (Permutation_in t P) in Ht. apply in_seq in Ht. lia.
Qed.
Lemma table_map n d d' v (g : list R -> list R) : table n d v -> (forall p, length p = d -> length (g p) = d') -> table n d' (map g v).
Proof.
  intros [L F] H. split; [rewrite map_length; exact L|]. rewrite Forall_forall in *. intros p Hp.
  apply in_map_iff in Hp as (q & <- & Hq). apply H. apply F. exact Hq.
Qed.
Lemma vadd_length c p : length p = length c -> length (vadd c p) = length c.
Proof. intros L. unfold vadd. rewrite map_length, combine_length. lia. Qed.

(** the entropy ignores the order of the samples, is unchanged by a translation, and multiplying data and bandwidth
    by [a] adds d ln a *)
Theorem C59_invariances : forall E h w b n d rs sigma c a,
  0 < h -> (0 < cpus E)%Z -> workers_ok w -> valid_base b -> (2 <= n)%nat -> table n d rs ->
  Permutation sigma (seq 0 n) -> length c = d -> 0 < a ->
  exists H, kernel_entropy E (box_args h w b) (FArr (F2 rs)) = Ok H /\
    kernel_entropy E (box_args h w b) (FArr (F2 (reorder sigma rs))) = Ok H /\
    kernel_entropy E (box_args h w b) (FArr (F2 (translate c rs))) = Ok H /\
    kernel_entropy E (box_args (a * h) w b) (FArr (F2 (rescale a rs))) = Ok (H + INR d * ln a / unit_of b).
Proof.
  intros E h w b n d rs sigma c a Hh HC HW HV Hn T P Lc Ha.
  exists (KH h n d [rs] / unit_of b). split; [|split; [|split]].
  - apply (C59_kernel_entropy E h w b Hh HC HW HV (F2 rs) n d Hn T).
  - rewrite (proj2 (C59_kernel_entropy E h w b Hh HC HW HV (F2 (reorder sigma rs)) n d Hn (table_reorder _ _ _ _ T P))).
    rewrite rows2d_F2. pose proof (KH_reorder h n d sigma [rs] P) as K. cbn [map] in K. rewrite K. reflexivity.
  - rewrite (proj2 (C59_kernel_entropy E h w b Hh HC HW HV (F2 (translate c rs)) n d Hn
      (table_map n d d rs (vadd c) T ltac:(intros p Hp; rewrite vadd_length; congruence)))).
    rewrite rows2d_F2. pose proof (KH_translate h n d [rs] [c]) as K. cbn [map combine fst snd] in K. rewrite K; [reflexivity|].
    constructor; [|constructor]. split; [apply T|]. rewrite Lc. apply T.
  - assert (Hah : 0 < a * h) by nra.
    rewrite (proj2 (C59_kernel_entropy E (a * h) w b Hah HC HW HV (F2 (rescale a rs)) n d Hn
      (table_map n d d rs (map (Rmult a)) T ltac:(intros p Hp; rewrite map_length; exact Hp)))).
    rewrite rows2d_F2. pose proof (KH_rescale h n d a [rs] Ha Hh ltac:(lia) ltac:(repeat constructor; apply T)) as K.
    cbn [map] in K. rewrite K. f_equal. unfold Rdiv. ring.
Qed.

(** adding variables: the joint entropy, per box, is at least that of each part *)
Theorem C59_joint_at_least_parts : forall E h w b cols n ds i,
  0 < h -> (0 < cpus E)%Z -> workers_ok w -> valid_base b -> big_base b -> (2 <= n)%nat ->
  Forall2 (fun d a => table n d (rows2d a)) ds cols -> (i < length cols)%nat ->
  exists H Hi, kernel_entropy E (box_args h w b) (FTuple cols) = Ok H /\
    kernel_entropy E (box_args h w b) (FArr (nth i cols (F1 []))) = Ok Hi /\
    Hi - ln (h ^ nth i ds 0%nat) / unit_of b <= H - ln (h ^ fold_right Nat.add 0%nat ds) / unit_of b.
Proof.
  intros E h w b cols n ds i Hh HC HW HV B Hn F Hi.
  assert (Ti : table n (nth i ds 0%nat) (rows2d (nth i cols (F1 [])))).
  { clear -F Hi. revert i Hi. induction F; intros [|i] Hi; cbn in *; try lia; [assumption|]. apply IHF. lia. }
  assert (Hc : cols <> []) by (destruct cols; cbn in Hi; [lia|discriminate]).
  eexists. eexists. split; [apply (C59_kernel_joint_entropy E h w b Hh HC HW HV cols n ds Hn Hc F)|].
  split; [apply (C59_kernel_entropy E h w b Hh HC HW HV _ n _ Hn Ti)|].
  assert (U : 0 < unit_of b) by (destruct b as [|r]; cbn in *; [lra|rewrite <- ln_1; apply ln_increasing; lra]).
  rewrite !ln_pow by exact Hh.
  assert (Ii : incl [rows2d (nth i cols (F1 []))] (map rows2d cols)).
  { intros v [<-|[]]. apply in_map. apply nth_In. exact Hi. }
  pose proof (KH_mono h n (nth i ds 0%nat) (fold_right Nat.add 0%nat ds) _ _ Hh ltac:(lia) Ii) as M.
  set (k1 := KH h n (nth i ds 0%nat) _) in *. set (k2 := KH h n _ (map rows2d cols)) in *.
  replace (k1 / unit_of b - INR (nth i ds 0%nat) * ln h / unit_of b) with ((k1 - INR (nth i ds 0%nat) * ln h) * / unit_of b)
    by (field; lra).
  replace (k2 / unit_of b - INR (fold_right Nat.add 0%nat ds) * ln h / unit_of b)
    with ((k2 - INR (fold_right Nat.add 0%nat ds) * ln h) * / unit_of b) by (field; lra).
  apply Rmult_le_compat_r; [left; apply Rinv_0_lt_compat; exact U|exact M].
Qed.
