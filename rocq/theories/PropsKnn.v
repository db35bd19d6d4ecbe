(** C67-C69: mutual information by nearest neighbours (KSG). *)
From Coq Require Import Reals Lra Lia List ZArith Arith Bool Permutation.
From Verif Require Import Res RSum Spec SpecBase SpecGamma MBase PBase MTE MPct MNorm MEst PEst MCont SpecKern PKern PKern3 MKnn SpecKnn PKnn PKnn2.
Import ListNotations.
Local Open Scope R_scope.

(** Keyword arguments k, ksg_id, minkowski_p, base, and noise_level=0: [ksg_args w m b k] (PKnn2).  An array [a] holds
    the points [rows2d a]: the rows of a 2-D array, or one-coordinate points.  [tables n vars]: every variable has n
    points with the same number of coordinates each.  [radii p n vars k es]: [es t] is the distance from sample t to
    its k-th nearest other sample in the joint space. *)

Lemma fmi_init_ok n vars : (2 <= length vars)%nat -> tables n (map rows2d vars) -> fmi_init (Some 0%Z) false vars = Ok (map rows2d vars).
Proof.
  intros Hv T. unfold fmi_init. destruct (Nat.ltb_spec (length vars) 2); [lia|].
  cbn [Z.eqb negb]. rewrite andb_false_r.
  replace (forallb _ vars) with true; [reflexivity|]. symmetry. apply forallb_forall. intros a Ha.
  pose proof (tables_map _ _ T) as L. rewrite Forall_forall in L.
  rewrite (L a Ha). apply Nat.eqb_eq. symmetry. apply L. destruct vars; [contradiction|left; reflexivity].
Qed.
Lemma id_ok_args w m b k : id_ok (ksg_args w m b k) = true. Proof. destruct w; reflexivity. Qed.
Lemma no_noise z vs : with_noise 0 z vs = Ok vs.
Proof. unfold with_noise. destruct (Req_EM_T 0 0); [reflexivity|congruence]. Qed.
Lemma rows_ne {A B} (f : A -> B) (vars : list A) : (2 <= length vars)%nat -> map f vars <> [].
Proof. destruct vars; cbn; [lia|discriminate]. Qed.

Section C67.
  Context (E : nenv) (w : variant) (m : mink) (b : base).
  Context (Hp : norm_ok (np_of m)) (V : valid_base b).
  Notation p := (np_of m).

  Lemma ksg_mi_local_form n vars k : (2 <= length vars)%nat -> tables n (map rows2d vars) ->
    ksg_mi_local E (ksg_args w m b k) (Some 0%Z) false vars = ksg_mi_form (ksg_args w m b k) (Z.of_nat k) (map rows2d vars).
  Proof.
    intros Hv T. unfold ksg_mi_local. rewrite (fmi_init_ok n) by assumption. cbn [bind]. rewrite id_ok_args. cbn [negb].
    change (n_noise (ksg_args w m b k)) with 0. rewrite no_noise. reflexivity.
  Qed.

  (** ** C67: every local value is the KSG expression of its k-th neighbour distance, and the result their mean *)
  Theorem C67_local_values : forall n vars k es,
    (2 <= length vars)%nat -> tables n (map rows2d vars) -> (1 <= k < n)%nat -> radii p n (map rows2d vars) k es ->
    ksg_mi_local E (ksg_args w m b k) (Some 0%Z) false vars
      = Ok (map (fun t => ksg_value w p n (map rows2d vars) k t (es t) / unit_of b) (seq 0 n)).
  Proof.
    intros n vars k es Hv T Hk He. rewrite (ksg_mi_local_form n) by assumption.
    apply ksg_mi_form_ok; try assumption. apply rows_ne. exact Hv.
  Qed.
  Theorem C67_value : forall n vars k es,
    (2 <= length vars)%nat -> tables n (map rows2d vars) -> (1 <= k < n)%nat -> radii p n (map rows2d vars) k es ->
    ksg_mi E (ksg_args w m b k) (Some 0%Z) false vars
      = Ok (mean (map (fun t => ksg_value w p n (map rows2d vars) k t (es t)) (seq 0 n)) / unit_of b).
  Proof.
    intros n vars k es Hv T Hk He. unfold ksg_mi. rewrite (C67_local_values n vars k es) by assumption. cbn [bind].
    rewrite mean_ok by (apply map_ne, seq_ne; lia). rewrite mean_map_div. reflexivity.
  Qed.
  (** the k-th neighbour distance exists for 1 <= k < n and is unique *)
  Theorem C67_neighbour_distance : forall n vars k t, (1 <= k < n)%nat -> (t < n)%nat ->
    exists e, kth_neighbour p n vars k t e /\ forall e', kth_neighbour p n vars k t e' -> e' = e.
  Proof.
    intros n vars k t Hk Ht. destruct (radii_exist p n vars k Hk) as (es & He). exists (es t). split; [apply He; exact Ht|].
    intros e' He'. eapply kth_unique; [exact He'|apply He; exact Ht].
  Qed.

  (** ** C68: invariances *)
  Lemma mi_transport n vars vars' k (sg : nat -> nat) a :
    (2 <= length vars)%nat -> length vars' = length vars -> tables n (map rows2d vars) -> tables n (map rows2d vars') -> (1 <= k < n)%nat ->
    0 < a -> Permutation (map sg (seq 0 n)) (seq 0 n) ->
    (forall t u, (t < n)%nat -> (u < n)%nat ->
       jdist p (map rows2d vars') (sg t) (sg u) = a * jdist p (map rows2d vars) t u) ->
    (forall t u, (t < n)%nat -> (u < n)%nat -> Forall2 (fun v v' => jdist p [v'] (sg t) (sg u) = a * jdist p [v] t u)
        (map rows2d vars) (map rows2d vars')) ->
    ksg_mi E (ksg_args w m b k) (Some 0%Z) false vars' = ksg_mi E (ksg_args w m b k) (Some 0%Z) false vars.
  Proof.
    intros Hv HL T T' Hk Ha P DJ DM.
    destruct (radii_exist p n (map rows2d vars) k Hk) as (es & He).
    destruct (radii_exist p n (map rows2d vars') k Hk) as (es' & He').
    assert (SB : forall t, (t < n)%nat -> (sg t < n)%nat).
    { intros t Ht. assert (X : In (sg t) (seq 0 n)) by (apply (Permutation_in _ P), in_map, in_seq; lia). apply in_seq in X. lia. }
    assert (INJ : forall t u, (t < n)%nat -> (u < n)%nat -> sg t = sg u -> t = u).
    { intros t u Ht Hu E0. assert (ND : NoDup (map sg (seq 0 n))) by (apply (Permutation_NoDup (Permutation_sym P)), seq_NoDup).
      assert (Lm : forall i, (i < n)%nat -> nth i (map sg (seq 0 n)) (sg 0%nat) = sg i) by (intros i Hi; rewrite map_nth, seq_nth by exact Hi; reflexivity).
      apply (proj1 (NoDup_nth (map sg (seq 0 n)) (sg 0%nat)) ND t u); rewrite ?map_length, ?seq_length; try assumption.
      rewrite !Lm by assumption. exact E0. }
    assert (PO : forall t, (t < n)%nat -> Permutation (map sg (others n t)) (others n (sg t))).
    { intros t Ht. apply NoDup_Permutation.
      - unfold others. assert (ND : NoDup (map sg (seq 0 n))) by (apply (Permutation_NoDup (Permutation_sym P)), seq_NoDup).
        revert ND. generalize (seq 0 n). induction l as [|x l IH]; cbn; intros ND; [constructor|]. inversion ND; subst.
        destruct (negb _); cbn; [|auto]. constructor; [|auto]. intros C. apply in_map_iff in C as (y & Ey & Iy). apply filter_In in Iy as [Iy _].
        match goal with H : ~ In _ _ |- _ => apply H end. rewrite <- Ey. apply in_map. exact Iy.
      - unfold others. apply NoDup_filter, seq_NoDup.
      - intros u. rewrite others_in. split.
        + intros Hu. apply in_map_iff in Hu as (v & <- & Hvv). apply others_in in Hvv as [V1 V2]. split; [apply SB; exact V1|].
          intros C. apply V2. apply INJ; assumption.
        + intros [Hu Nu]. assert (X : In u (map sg (seq 0 n))) by (apply (Permutation_in _ (Permutation_sym P)), in_seq; lia).
          apply in_map_iff in X as (v & <- & Hvv). apply in_seq in Hvv. apply in_map. apply others_in. split; [lia|]. intros ->. apply Nu. reflexivity. }
    rewrite (C67_value n vars k es), (C67_value n vars' k es') by (try assumption; lia). do 2 f_equal.
    rewrite !mean_map, !seq_length. f_equal.
    rewrite <- (sumf_perm _ _ _ P), sumf_map. apply sumf_ext. intros t Ht. apply in_seq in Ht.
    assert (Et : es' (sg t) = a * es t).
    { eapply kth_unique; [apply He', SB; lia|]. apply (kth_ext p p n (map rows2d vars) (map rows2d vars') k t (sg t) sg a); [exact Ha|apply PO; lia| |apply He; lia].
      intros u Hu. apply others_in in Hu as [Hu _]. apply DJ; lia. }
    unfold ksg_value. rewrite Et, !map_length, HL. f_equal. f_equal.
    assert (FF : forall u, (u < n)%nat -> Forall2 (fun v v' => jdist p [v'] (sg t) (sg u) = a * jdist p [v] t u) (map rows2d vars) (map rows2d vars'))
      by (intros u Hu; apply DM; lia).
    clear DM T T' DJ He He' Hv. revert FF. assert (L2 : length (map rows2d vars) = length (map rows2d vars')) by (rewrite !map_length; lia).
    revert L2. generalize (map rows2d vars) (map rows2d vars'). induction l as [|v l IH]; intros [|v' l'] L2 FF; try discriminate; [reflexivity|].
    unfold sumR in *. cbn [map sumf]. rewrite (IH l') by (try (cbn in L2; lia); intros u Hu; specialize (FF u Hu); inversion FF; assumption).
    do 3 f_equal. rewrite (nbs_ext w p p n [v] [v'] t (sg t) sg a); [reflexivity|exact Ha|apply PO; lia|].
    intros u Hu. apply others_in in Hu as [Hu _]. specialize (FF u Hu). inversion FF; assumption.
  Qed.

  (** the order of the variables does not matter *)
  Theorem C68_symmetric : forall n vars vars' k,
    (2 <= length vars)%nat -> tables n (map rows2d vars) -> (1 <= k < n)%nat -> Permutation vars vars' ->
    ksg_mi E (ksg_args w m b k) (Some 0%Z) false vars' = ksg_mi E (ksg_args w m b k) (Some 0%Z) false vars.
  Proof.
    intros n vars vars' k Hv T Hk P.
    assert (PR : Permutation (map rows2d vars) (map rows2d vars')) by (apply Permutation_map; exact P).
    assert (T' : tables n (map rows2d vars')) by (unfold tables in *; apply (Permutation_Forall PR); exact T).
    assert (Hv' : (2 <= length vars')%nat) by (rewrite <- (Permutation_length P); exact Hv).
    destruct (radii_exist p n (map rows2d vars) k Hk) as (es & He).
    assert (He' : radii p n (map rows2d vars') k es).
    { intros t Ht. apply (kth_perm p n (map rows2d vars)); auto. }
    rewrite (C67_value n vars k es), (C67_value n vars' k es) by assumption. do 3 f_equal. apply map_ext. intros t.
    unfold ksg_value. rewrite !map_length, (Permutation_length P). f_equal. f_equal.
    unfold sumR. apply sumf_perm. apply Permutation_map, Permutation_sym. exact PR.
  Qed.

  (** only the distances between the samples of each variable matter: applying isometries to the variables (shifts,
      reflections, and for minkowski_p=2 rotations), rescaling all of them by the same factor [a], or reordering the samples
      leaves the result unchanged *)
  Theorem C68_distances_only : forall n vars vars' k (sg : nat -> nat) a,
    (2 <= length vars)%nat -> tables n (map rows2d vars) -> tables n (map rows2d vars') -> (1 <= k < n)%nat ->
    0 < a -> Permutation (map sg (seq 0 n)) (seq 0 n) ->
    Forall2 (fun x x' => forall t u, (t < n)%nat -> (u < n)%nat ->
       dst p (nth (sg t) (rows2d x') []) (nth (sg u) (rows2d x') []) = a * dst p (nth t (rows2d x) []) (nth u (rows2d x) [])) vars vars' ->
    ksg_mi E (ksg_args w m b k) (Some 0%Z) false vars' = ksg_mi E (ksg_args w m b k) (Some 0%Z) false vars.
  Proof.
    intros n vars vars' k sg a Hv T T' Hk Ha P F.
    assert (SB : forall t, (t < n)%nat -> (sg t < n)%nat).
    { intros t Ht. assert (X : In (sg t) (seq 0 n)) by (apply (Permutation_in _ P), in_map, in_seq; lia). apply in_seq in X. lia. }
    assert (LL : length vars' = length vars) by (symmetry; clear - F; induction F; cbn; congruence).
    apply (mi_transport n vars vars' k sg a); try assumption.
    - intros t u Ht Hu. rewrite !(jdist_norm p n) by (try assumption; apply SB; assumption).
      rewrite <- norm_scale by (try assumption; lra). f_equal. rewrite !map_map. clear - F Ht Hu.
      induction F as [|x x' l l' H F IH]; cbn; [reflexivity|]. rewrite IH. f_equal. apply H; assumption.
    - intros t u Ht Hu. clear - F Ht Hu. induction F as [|x x' l l' H F IH]; cbn; constructor; [|exact IH].
      rewrite !jdist_1. apply H; assumption.
  Qed.
End C67.

(** particular cases for one-dimensional series *)
Definition tables_F1 n cols : all_len n cols -> tables n (map rows2d (map F1 cols)).
Proof.
  intros L. unfold tables. rewrite map_map. unfold all_len in L. apply Forall_forall. intros v Hv. apply in_map_iff in Hv as (c & <- & Hc).
  exists 1%nat. cbn. split; [rewrite map_length; rewrite Forall_forall in L; apply L; exact Hc|].
  apply Forall_forall. intros x Hx. apply in_map_iff in Hx as (y & <- & _). reflexivity.
Qed.
Lemma dst1 p x y : norm_ok p -> dst p [x] [y] = Rabs (x - y).
Proof.
  intros Hp. unfold dst, vsub. cbn. rewrite <- (norm_map_abs p [x - y]). cbn [map]. apply norm_1; [exact Hp|apply Rabs_pos].
Qed.
Lemma nth_F1 t xs n : length xs = n -> (t < n)%nat -> nth t (rows2d (F1 xs)) [] = [nth t xs 0].
Proof.
  intros L H. cbn. rewrite (nth_indep _ [] [0]) by (rewrite map_length; lia). rewrite (map_nth (fun x => [x])). reflexivity.
Qed.

(** a common positive factor, and a shift of each variable *)
Theorem C68_affine : forall E w m b n cols k a (c : list R -> R),
  norm_ok (np_of m) -> valid_base b -> (2 <= length cols)%nat -> all_len n cols -> (1 <= k < n)%nat -> a <> 0 ->
  ksg_mi E (ksg_args w m b k) (Some 0%Z) false (map (fun xs => F1 (map (fun x => a * x + c xs) xs)) cols)
    = ksg_mi E (ksg_args w m b k) (Some 0%Z) false (map F1 cols).
Proof.
  intros E w m b n cols k a c Hp V Hc L Hk Ha.
  assert (TL : all_len n (map (fun xs => map (fun x => a * x + c xs) xs) cols)).
  { unfold all_len in *. apply Forall_forall. intros v Hv. apply in_map_iff in Hv as (x & <- & Hx). rewrite map_length. rewrite Forall_forall in L. auto. }
  apply (C68_distances_only E w m b Hp V n _ _ k (fun t => t) (Rabs a)).
  - rewrite map_length. exact Hc.
  - apply tables_F1. exact L.
  - pose proof (tables_F1 n _ TL) as T. rewrite !map_map in T. rewrite !map_map. exact T.
  - exact Hk.
  - apply Rabs_pos_lt. exact Ha.
  - rewrite map_id. apply Permutation_refl.
  - clear TL Hc. induction L as [|xs cols Lx L IH]; cbn [map]; constructor; [|exact IH].
    intros t u Ht Hu. rewrite !(nth_F1 _ _ n) by (rewrite ?map_length; assumption). rewrite !dst1 by exact Hp.
    rewrite <- Rabs_mult. f_equal.
    rewrite !(nth_indep (map _ xs) 0 (a * 0 + c xs)) by (rewrite map_length; lia).
    rewrite !(map_nth (fun x => a * x + c xs)). ring.
Qed.
(** the same reordering of the samples of all variables *)
Theorem C68_reorder : forall E w m b n cols k (sg : list nat),
  norm_ok (np_of m) -> valid_base b -> (2 <= length cols)%nat -> all_len n cols -> (1 <= k < n)%nat -> Permutation sg (seq 0 n) ->
  ksg_mi E (ksg_args w m b k) (Some 0%Z) false (map (fun xs => F1 (map (fun i => nth i xs 0) sg)) cols)
    = ksg_mi E (ksg_args w m b k) (Some 0%Z) false (map F1 cols).
Proof.
  intros E w m b n cols k sg Hp V Hc L Hk P.
  assert (Ls : length sg = n) by (rewrite (Permutation_length P), seq_length; reflexivity).
  assert (TL : all_len n (map (fun xs => map (fun i => nth i xs 0) sg) cols)).
  { unfold all_len in *. apply Forall_forall. intros v Hv. apply in_map_iff in Hv as (x & <- & Hx). rewrite map_length. exact Ls. }
  assert (LL : (2 <= length (map (fun xs => F1 (map (fun i => nth i xs 0%R) sg)) cols))%nat) by (rewrite map_length; exact Hc).
  assert (T1 : tables n (map rows2d (map (fun xs => F1 (map (fun i => nth i xs 0) sg)) cols))).
  { pose proof (tables_F1 n _ TL) as T. rewrite !map_map in T. rewrite !map_map. exact T. }
  pose proof (tables_F1 n _ L) as T2.
  symmetry.
  apply (C68_distances_only E w m b Hp V n _ _ k (fun t => nth t sg 0%nat) 1); try assumption; try lra.
  - replace (map (fun t => nth t sg 0%nat) (seq 0 n)) with sg; [exact P|].
    apply nth_ext with 0%nat 0%nat; [rewrite map_length, seq_length; exact Ls|].
    intros i Hi. rewrite (nth_indep (map _ _) 0%nat ((fun t => nth t sg 0%nat) 0%nat)) by (rewrite map_length, seq_length; lia).
    rewrite (map_nth (fun t => nth t sg 0%nat)), seq_nth by lia. reflexivity.
  - clear TL Hc LL T1 T2. induction L as [|xs cols Lx L IH]; cbn [map]; constructor; [|exact IH].
    assert (SB : forall t, (t < n)%nat -> (nth t sg 0 < n)%nat).
    { intros t Ht. assert (X : In (nth t sg 0%nat) (seq 0 n)) by (apply (Permutation_in _ P), nth_In; lia). apply in_seq in X. lia. }
    intros t u Ht Hu. rewrite !(nth_F1 _ xs n) by (try assumption; apply SB; assumption).
    rewrite !(nth_F1 _ (map _ sg) n) by (try assumption; rewrite map_length; exact Ls).
    rewrite Rmult_1_l.
    assert (N : forall i, (i < n)%nat -> nth i (map (fun i => nth i xs 0) sg) 0 = nth (nth i sg 0%nat) xs 0).
    { intros i Hi. rewrite (nth_indep _ 0 ((fun i => nth i xs 0) 0%nat)) by (rewrite map_length; lia).
      rewrite (map_nth (fun i => nth i xs 0)). reflexivity. }
    rewrite !N by assumption. reflexivity.
Qed.

(** ** C69: bounds *)
Section C69.
  Context (E : nenv) (m : mink) (b : base).
  Context (Hp : norm_ok (np_of m)) (V : valid_base b) (B : big_base b).
  Notation p := (np_of m).
  Lemma upos : 0 < unit_of b.
  Proof. clear - V B. destruct b as [|r]; cbn in *; [lra|]. rewrite <- ln_1. apply ln_increasing; lra. Qed.
  Lemma sum_psi_bounds n data (f : list pt -> nat) lo : (1 <= lo)%nat -> (forall v, In v data -> (lo <= f v <= n)%nat) ->
    INR (length data) * psi lo <= sumR (map (fun v => psi (f v)) data) <= INR (length data) * psi n.
  Proof.
    intros Hlo H. unfold sumR. rewrite sumf_map. split.
    - rewrite <- sumf_const. apply sumf_le. intros v Hv. apply psi_mono. specialize (H v Hv). lia.
    - rewrite <- sumf_const. apply sumf_le. intros v Hv. apply psi_mono. specialize (H v Hv). lia.
  Qed.
  Lemma single_sub (v : list pt) data : In v data -> exists r, Permutation data ([v] ++ r).
  Proof. intros H. apply in_split in H as (l1 & l2 & ->). exists (l1 ++ l2). cbn. apply Permutation_sym, Permutation_middle. Qed.

  Lemma value_lower w n data k t e : (1 <= k < n)%nat -> (t < n)%nat -> psi k - corr w k - psi n <= ksg_value w p n data k t e.
  Proof.
    intros Hk Ht. unfold ksg_value.
    pose proof (sum_psi_bounds n data (fun v => (nbs w p n [v] t e + 1)%nat) 1 ltac:(lia)) as S.
    assert (H : forall v, In v data -> (1 <= nbs w p n [v] t e + 1 <= n)%nat) by (intros v _; pose proof (nbs_lt w n p [v] t e Ht); lia).
    destruct (S H) as [_ S2]. cbv beta in S2. lra.
  Qed.
  Lemma value_upper w n data k t e lo : (1 <= lo)%nat -> (t < n)%nat ->
    (forall v, In v data -> (lo <= nbs w p n [v] t e + 1)%nat) ->
    ksg_value w p n data k t e <= psi k - corr w k - INR (length data) * psi lo + (INR (length data) - 1) * psi n.
  Proof.
    intros Hlo Ht H. unfold ksg_value.
    pose proof (sum_psi_bounds n data (fun v => (nbs w p n [v] t e + 1)%nat) lo Hlo) as S.
    assert (H2 : forall v, In v data -> (lo <= nbs w p n [v] t e + 1 <= n)%nat)
      by (intros v Hv; pose proof (nbs_lt w n p [v] t e Ht); specialize (H v Hv); lia).
    destruct (S H2) as [S1 _]. cbv beta in S1. lra.
  Qed.
  Lemma div_le a c : a <= c -> a / unit_of b <= c / unit_of b.
  Proof. intros H. unfold Rdiv. apply Rmult_le_compat_r; [left; apply Rinv_0_lt_compat, upos|exact H]. Qed.

  (** with non-strict counts (ksg_id=2), for all data *)
  Theorem C69_bounds_nonstrict : forall n vars k,
    (2 <= length vars)%nat -> tables n (map rows2d vars) -> (1 <= k < n)%nat ->
    exists v, ksg_mi E (ksg_args NonStrict m b k) (Some 0%Z) false vars = Ok v /\
      (psi k - / INR k - psi n) / unit_of b <= v
        <= ((INR (length vars) - 1) * (psi n - psi k) - (INR (length vars) + 1) / INR k) / unit_of b.
  Proof.
    intros n vars k Hv T Hk. destruct (radii_exist p n (map rows2d vars) k Hk) as (es & He).
    eexists. split; [apply (C67_value E NonStrict m b Hp V n vars k es Hv T Hk He)|].
    split; apply div_le.
    - apply mean_ge; [apply seq_ne; lia|]. intros t Ht. apply in_seq in Ht. apply (value_lower NonStrict); lia.
    - apply mean_le; [apply seq_ne; lia|]. intros t Ht. apply in_seq in Ht.
      eapply Rle_trans; [apply (value_upper NonStrict n (map rows2d vars) k t (es t) (S k)); try lia|].
      + intros v Hin. destruct (He t ltac:(lia)) as (_ & _ & W).
        pose proof (nbs_mono NonStrict p n [v] (map rows2d vars) t (es t) Hp T ltac:(lia) (single_sub _ _ Hin)) as M. cbn [nbs] in *. lia.
      + rewrite map_length, psi_S by lia. cbn [corr]. right. field. apply not_0_INR. lia.
  Qed.
  (** with strict counts (ksg_id=1), if no sample has two other samples at the same distance in the joint space *)
  Theorem C69_bounds_strict : forall n vars k,
    (2 <= length vars)%nat -> tables n (map rows2d vars) -> (1 <= k < n)%nat ->
    exists v, ksg_mi E (ksg_args Strict m b k) (Some 0%Z) false vars = Ok v /\
      (psi k - psi n) / unit_of b <= v /\
      ((forall t u u', (t < n)%nat -> (u < n)%nat -> (u' < n)%nat -> t <> u -> t <> u' -> u <> u' ->
          jdist p (map rows2d vars) t u <> jdist p (map rows2d vars) t u') ->
       v <= ((INR (length vars) - 1) * (psi n - psi k)) / unit_of b).
  Proof.
    intros n vars k Hv T Hk. destruct (radii_exist p n (map rows2d vars) k Hk) as (es & He).
    eexists. split; [apply (C67_value E Strict m b Hp V n vars k es Hv T Hk He)|].
    split; [apply div_le|intros ND; apply div_le].
    - apply mean_ge; [apply seq_ne; lia|]. intros t Ht. apply in_seq in Ht.
      pose proof (value_lower Strict n (map rows2d vars) k t (es t) Hk ltac:(lia)) as G. cbn [corr] in G. lra.
    - apply mean_le; [apply seq_ne; lia|]. intros t Ht. apply in_seq in Ht.
      eapply Rle_trans; [apply (value_upper Strict n (map rows2d vars) k t (es t) k); try lia|].
      + intros v Hin. destruct (He t ltac:(lia)) as ((u & Hu & Nu & Eu) & C & W).
        pose proof (nbs_mono Strict p n [v] (map rows2d vars) t (es t) Hp T ltac:(lia) (single_sub _ _ Hin)) as M. cbn [nbs] in M.
        assert (within p n (map rows2d vars) t (es t) <= S (closer p n (map rows2d vars) t (es t)))%nat; [|cbn [nbs]; lia].
        unfold within, closer. rewrite (filter_negb_split _ (fun u' => negb (Nat.eqb u' u)) (others n t)).
        assert (X1 : (length (filter (fun u0 => if Rle_dec (jdist p (map rows2d vars) t u0) (es t) then true else false)
            (filter (fun u' => negb (Nat.eqb u' u)) (others n t))) <= length (filter (fun u0 => if Rlt_dec (jdist p (map rows2d vars) t u0) (es t) then true else false)
            (filter (fun u' => negb (Nat.eqb u' u)) (others n t))))%nat).
        { apply filter_mono_len. intros x Hx. apply filter_In in Hx as [Hx Nx]. apply others_in in Hx as [Hx1 Hx2].
          apply negb_true_iff, Nat.eqb_neq in Nx.
          destruct (Rle_dec _ _) as [L|]; [|discriminate]. intros _. destruct (Rlt_dec _ _) as [|NL]; [reflexivity|exfalso].
          apply (ND t x u); try lia. lra. }
        assert (X2 : (length (filter (fun u0 => if Rlt_dec (jdist p (map rows2d vars) t u0) (es t) then true else false)
            (filter (fun u' => negb (Nat.eqb u' u)) (others n t))) <= length (filter (fun u0 => if Rlt_dec (jdist p (map rows2d vars) t u0) (es t) then true else false)
            (others n t)))%nat).
        { clear. induction (others n t) as [|x l IH]; cbn; [lia|]. destruct (negb _); cbn; destruct (Rlt_dec _ _); cbn; lia. }
        assert (X3 : (length (filter (fun u0 => if Rle_dec (jdist p (map rows2d vars) t u0) (es t) then true else false)
            (filter (fun x => negb (negb (Nat.eqb x u))) (others n t))) <= 1)%nat).
        { eapply Nat.le_trans; [apply filter_le_len|]. unfold others.
          assert (ND2 : NoDup (filter (fun x => negb (negb (Nat.eqb x u))) (filter (fun u0 => negb (Nat.eqb u0 t)) (seq 0 n)))) by (do 2 apply NoDup_filter; apply seq_NoDup).
          assert (INC : incl (filter (fun x => negb (negb (Nat.eqb x u))) (filter (fun u0 => negb (Nat.eqb u0 t)) (seq 0 n))) [u]).
          { intros x Hx. apply filter_In in Hx as [_ Hx]. rewrite negb_involutive in Hx. apply Nat.eqb_eq in Hx. left. auto. }
          pose proof (NoDup_incl_length ND2 INC) as G. cbn in G. exact G. }
        lia.
      + rewrite map_length. cbn [corr]. right. ring.
  Qed.
End C69.

(** the hypotheses of C67-C69 are met, e.g. by these three samples of two variables, k = 1 *)
Example C67_example : tables 3 (map rows2d [F1 [0; 1; 5]; F1 [0; 2; 3]]) /\ (1 <= 1 < 3)%nat /\ norm_ok (np_of MInf) /\
  kth_neighbour None 3 (map rows2d [F1 [0; 1; 5]; F1 [0; 2; 3]]) 1 0 2.
Proof.
  assert (D1 : jdist None (map rows2d [F1 [0; 1; 5]; F1 [0; 2; 3]]) 0 1 = 2).
  { unfold jdist, dst, vsub, sample. cbn. rewrite !Rminus_0_l, !Rabs_Ropp, !Rabs_pos_eq by lra. unfold Rmax. repeat destruct (Rle_dec _ _); lra. }
  assert (D2 : jdist None (map rows2d [F1 [0; 1; 5]; F1 [0; 2; 3]]) 0 2 = 5).
  { unfold jdist, dst, vsub, sample. cbn. rewrite !Rminus_0_l, !Rabs_Ropp, !Rabs_pos_eq by lra. unfold Rmax. repeat destruct (Rle_dec _ _); lra. }
  split; [apply (tables_F1 3 [[0; 1; 5]; [0; 2; 3]]); repeat constructor|]. split; [lia|]. split; [exact Logic.I|].
  split; [|split].
  - exists 1%nat. split; [lia|]. split; [lia|]. symmetry. exact D1.
  - unfold closer, others. cbn [seq filter Nat.eqb negb]. rewrite D1, D2. destruct (Rlt_dec 2 2); [lra|]. destruct (Rlt_dec 5 2); [lra|]. cbn. lia.
  - unfold within, others. cbn [seq filter Nat.eqb negb]. rewrite D1, D2. destruct (Rle_dec 2 2); [|lra]. cbn. lia.
Qed.
