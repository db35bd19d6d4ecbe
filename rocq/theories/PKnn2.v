(** Proofs: the KSG forms of mutual information, conditional mutual information and transfer entropy. *)
From Coq Require Import Reals Lra Lia List ZArith Arith Bool Permutation.
From Verif Require Import Res RSum Spec SpecBase SpecGamma MBase PBase MTE MPct MNorm MEst PEst PEst2 MCont SpecKern PKern PKern3 MKnn SpecKnn PKnn.
Import ListNotations.
Local Open Scope R_scope.

Definition radii p n vars k (es : nat -> R) : Prop := forall t, (t < n)%nat -> kth_neighbour p n vars k t (es t).

Lemma kth_exists m n vars k : (1 <= k < n)%nat -> exists es, radii (np_of m) n vars k es.
Proof.
  intros Hk.
  exists (fun t => match query m (jrows n vars) (S k) (jrow vars t) with Some e => e | None => 0 end).
  intros t Ht. destruct (query_kth m n vars k t Ht Hk) as (e & -> & H). exact H.
Qed.
Lemma norm_mink p : exists m, np_of m = p. Proof. destruct p as [p|]; [exists (MP p)|exists MInf]; reflexivity. Qed.
Lemma radii_exist p n vars k : (1 <= k < n)%nat -> exists es, radii p n vars k es.
Proof. destruct (norm_mink p) as (m & <-). apply kth_exists. Qed.
Lemma kth_nonneg p n vars k t e : kth_neighbour p n vars k t e -> 0 <= e.
Proof. intros ((u & _ & _ & ->) & _). apply jdist_nonneg. Qed.

Lemma jrows_nth n vars t : (t < n)%nat -> nth t (jrows n vars) [] = jrow vars t.
Proof.
  intros H. unfold jrows. rewrite (nth_indep _ [] (jrow vars 0)) by (rewrite map_length, seq_length; exact H).
  rewrite map_nth, seq_nth by exact H. reflexivity.
Qed.
Lemma kth_query_ok m tree k : norm_ok (np_of m) -> (1 <= k)%nat -> kth_query m tree (Z.of_nat k + 1) = Ok (query m tree (S k)).
Proof.
  intros Hp Hk. unfold kth_query. rewrite (proj2 (mink_ok_norm m) Hp). cbn [negb].
  destruct (Z.ltb_spec (Z.of_nat k + 1) 1); [lia|]. destruct (Z.eqb_spec (Z.of_nat k + 1) 1); [lia|].
  do 2 f_equal. lia.
Qed.

Section forms.
  Context (w : variant) (m : mink) (b : base) (E : nenv).
  Context (Hp : norm_ok (np_of m)) (V : valid_base b).
  Notation p := (np_of m).
  (** keyword arguments k, ksg_id, minkowski_p and base, with noise_level=0 *)
  Definition ksg_args (k : nat) : nargs := mkNargs (NInt (Z.of_nat k)) (id_of w) 0 m b.

  Lemma psi_vars n data t e : tables n data -> (t < n)%nat -> 0 <= e ->
    mapM (fun v => ksg_psi (id_of w) m v (nth t v []) (Some e)) data = Ok (map (fun v => psi (nbs w p n [v] t e + 1)) data).
  Proof.
    intros T Ht He. apply mapM_ok. intros v Hv. unfold tables in T. rewrite Forall_forall in T. destruct (T v Hv) as (d & L & _).
    rewrite <- (single_jrow v t), <- (single_jrows n v L) at 1. apply ksg_psi_ok; assumption.
  Qed.
  Lemma hd_length n (data : list (list pt)) : data <> [] -> tables n data -> length (hd [] data) = n.
  Proof. intros H T. destruct data as [|v data]; [congruence|]. inversion T as [|? ? (d & L & _)]. exact L. Qed.

  Lemma ksg_mi_form_ok n data k es : data <> [] -> tables n data -> (1 <= k < n)%nat -> radii p n data k es ->
    ksg_mi_form (ksg_args k) (Z.of_nat k) data = Ok (map (fun t => ksg_value w p n data k t (es t) / unit_of b) (seq 0 n)).
  Proof.
    intros Hd T Hk He. unfold ksg_mi_form. rewrite (cstack_ok n) by assumption. cbn [bind ksg_args n_p n_id n_base].
    rewrite kth_query_ok by (try assumption; lia). cbn [bind]. rewrite psi_k_ok by lia. cbn [bind].
    rewrite jrows_length, (hd_length n data) by assumption. apply mapM_ok. intros t Ht. apply in_seq in Ht.
    rewrite jrows_nth by lia. specialize (He t ltac:(lia)). rewrite (query_is_kth m n data k t (es t)) by (try assumption; lia).
    rewrite (psi_vars n) by (try assumption; try lia; eapply kth_nonneg; exact He). cbn [bind].
    rewrite digamma_ok by lia. cbn [bind]. rewrite to_base_ok by exact V. reflexivity.
  Qed.
  Lemma psi_vars_inf n data t : tables n data -> (1 <= n)%nat ->
    mapM (fun v => ksg_psi (id_of w) m v (nth t v []) None) data = Ok (map (fun _ => psi n) data).
  Proof.
    intros T Hn. apply mapM_ok. intros v Hv. unfold tables in T. rewrite Forall_forall in T. destruct (T v Hv) as (d & L & _).
    rewrite <- (single_jrows n v L) at 1. apply ksg_psi_inf. exact Hn.
  Qed.
  Lemma ksg_mi_form_inf n data k : data <> [] -> tables n data -> (1 <= n)%nat -> (n <= k)%nat ->
    ksg_mi_form (ksg_args k) (Z.of_nat k) data = Ok (map (fun t => (psi k - corr w k - psi n) / unit_of b) (seq 0 n)).
  Proof.
    intros Hd T Hn Hk. unfold ksg_mi_form. rewrite (cstack_ok n) by assumption. cbn [bind ksg_args n_p n_id n_base].
    rewrite kth_query_ok by (try assumption; lia). cbn [bind]. rewrite psi_k_ok by lia. cbn [bind].
    rewrite jrows_length, (hd_length n data) by assumption. apply mapM_ok. intros t Ht. apply in_seq in Ht.
    rewrite query_none by lia. rewrite (psi_vars_inf n) by assumption. cbn [bind]. rewrite digamma_ok by lia. cbn [bind].
    rewrite to_base_ok by exact V. do 2 f_equal. unfold sumR. rewrite sumf_map, sumf_const. ring.
  Qed.

  Lemma marg_ok n data z : tables n data -> tables n [z] -> mapM (fun v => cstack [v; z]) data = Ok (map (fun v => jrows n [v; z]) data).
  Proof.
    intros T Tz. apply mapM_ok. intros v Hv. apply cstack_ok; [discriminate|]. unfold tables in *. rewrite Forall_forall in T.
    constructor; [apply T; exact Hv|exact Tz].
  Qed.
  Lemma ksg_cmi_form_ok n data z k es : tables n data -> tables n [z] -> (1 <= k < n)%nat -> radii p n (data ++ [z]) k es ->
    ksg_cmi_form (ksg_args k) (Z.of_nat k) data z
      = Ok (map (fun t => ksg_cond_value w p n data z k t (es t) / unit_of b) (seq 0 n)).
  Proof.
    intros T Tz Hk He. unfold ksg_cmi_form.
    assert (TA : tables n (data ++ [z])) by (unfold tables in *; apply Forall_app; auto).
    rewrite (cstack_ok n) by (try assumption; destruct data; discriminate). cbn [bind ksg_args n_p n_id n_base].
    rewrite kth_query_ok by (try assumption; lia). cbn [bind]. rewrite (marg_ok n) by assumption. cbn [bind].
    rewrite psi_k_ok by lia. cbn [bind]. rewrite jrows_length. apply mapM_ok. intros t Ht. apply in_seq in Ht.
    rewrite jrows_nth by lia. specialize (He t ltac:(lia)). pose proof (kth_nonneg _ _ _ _ _ _ He) as He0.
    rewrite (query_is_kth m n (data ++ [z]) k t (es t)) by (try assumption; lia).
    assert (Lz : length z = n) by (inversion Tz as [|? ? (d & L & _)]; exact L).
    rewrite <- (single_jrow z t), <- (single_jrows n z Lz) at 1. rewrite ksg_psi_ok by (try assumption; lia). cbn [bind].
    rewrite (mapM_map_ok (fun v => jrows n [v; z]) _ (fun v => psi (nbs w p n [v; z] t (es t) + 1))).
    - cbn [bind]. rewrite to_base_ok by exact V. reflexivity.
    - intros v Hv. rewrite jrows_nth by lia. apply ksg_psi_ok; [lia|assumption].
  Qed.

  Lemma ksg_cmi_form_inf n data z k : tables n data -> tables n [z] -> (1 <= n)%nat -> (n <= k)%nat ->
    ksg_cmi_form (ksg_args k) (Z.of_nat k) data z
      = Ok (map (fun t => (psi k - corr w k - (INR (length data) - 1) * psi n) / unit_of b) (seq 0 n)).
  Proof.
    intros T Tz Hn Hk. unfold ksg_cmi_form.
    assert (TA : tables n (data ++ [z])) by (unfold tables in *; apply Forall_app; auto).
    rewrite (cstack_ok n) by (try assumption; destruct data; discriminate). cbn [bind ksg_args n_p n_id n_base].
    rewrite kth_query_ok by (try assumption; lia). cbn [bind]. rewrite (marg_ok n) by assumption. cbn [bind].
    rewrite psi_k_ok by lia. cbn [bind]. rewrite jrows_length. apply mapM_ok. intros t Ht. apply in_seq in Ht.
    rewrite query_none by lia.
    assert (Lz : length z = n) by (inversion Tz as [|? ? (d & L & _)]; exact L).
    rewrite <- (single_jrows n z Lz) at 1. rewrite ksg_psi_inf by assumption. cbn [bind].
    rewrite (mapM_map_ok (fun v => jrows n [v; z]) _ (fun v => psi n)).
    - cbn [bind]. rewrite to_base_ok by exact V. do 2 f_equal. unfold sumR. rewrite sumf_map, sumf_const. ring.
    - intros v Hv. apply ksg_psi_inf; assumption.
  Qed.

  (** the four spaces of transfer entropy *)
  Definition te_value n (J P M1 M2 : list (list pt)) k t e : R :=
    psi k - corr w k - psi (nbs w p n M2 t e + 1) - psi (nbs w p n M1 t e + 1) + psi (nbs w p n P t e + 1).
  Lemma ksg_te_form_ok n J P M1 M2 k es : (1 <= k < n)%nat -> radii p n J k es ->
    ksg_te_form (ksg_args k) (Z.of_nat k) (jrows n J) (jrows n P) (jrows n M1) (jrows n M2)
      = Ok (map (fun t => te_value n J P M1 M2 k t (es t) / unit_of b) (seq 0 n)).
  Proof.
    intros Hk He. unfold ksg_te_form. cbn [bind ksg_args n_p n_id n_base].
    rewrite kth_query_ok by (try assumption; lia). cbn [bind].
    rewrite psi_k_ok by lia. cbn [bind]. rewrite jrows_length. apply mapM_ok. intros t Ht. apply in_seq in Ht.
    rewrite !jrows_nth by lia. specialize (He t ltac:(lia)). pose proof (kth_nonneg _ _ _ _ _ _ He) as He0.
    rewrite (query_is_kth m n J k t (es t)) by (try assumption; lia).
    rewrite !ksg_psi_ok by (try assumption; lia). cbn [bind]. rewrite to_base_ok by exact V. reflexivity.
  Qed.
  Lemma ksg_te_form_inf n J P M1 M2 k : (1 <= n)%nat -> (n <= k)%nat ->
    ksg_te_form (ksg_args k) (Z.of_nat k) (jrows n J) (jrows n P) (jrows n M1) (jrows n M2)
      = Ok (map (fun t => (psi k - corr w k - psi n) / unit_of b) (seq 0 n)).
  Proof.
    intros Hn Hk. unfold ksg_te_form. cbn [bind ksg_args n_p n_id n_base].
    rewrite kth_query_ok by (try assumption; lia). cbn [bind].
    rewrite psi_k_ok by lia. cbn [bind]. rewrite jrows_length. apply mapM_ok. intros t Ht. apply in_seq in Ht.
    rewrite query_none by lia. rewrite !ksg_psi_inf by assumption. cbn [bind]. rewrite to_base_ok by exact V. do 2 f_equal. ring.
  Qed.
End forms.

(** ** neighbour counts depend on the data only through the distances *)
Lemma nbs_ext w p p' n vars vars' t t' (sg : nat -> nat) a e : 0 < a ->
  Permutation (map sg (others n t)) (others n t') ->
  (forall u, In u (others n t) -> jdist p' vars' t' (sg u) = a * jdist p vars t u) ->
  nbs w p' n vars' t' (a * e) = nbs w p n vars t e.
Proof.
  intros Ha P D.
  assert (G : forall (f g : R -> bool), (forall x, f (a * x) = g x) ->
    length (filter (fun u => f (jdist p' vars' t' u)) (others n t')) = length (filter (fun u => g (jdist p vars t u)) (others n t))).
  { intros f g FG. rewrite <- (filter_len_perm (fun u => f (jdist p' vars' t' u)) _ _ P).
    rewrite (filter_map_length sg (fun u => f (jdist p' vars' t' u))). f_equal. apply filter_ext_in. intros u Hu. rewrite D by exact Hu. apply FG. }
  destruct w; cbn [nbs]; unfold closer, within.
  - apply (G (fun r => if Rlt_dec r (a * e) then true else false) (fun r => if Rlt_dec r e then true else false)).
    intros x. destruct (Rlt_dec (a * x) (a * e)), (Rlt_dec x e); try reflexivity; exfalso; nra.
  - apply (G (fun r => if Rle_dec r (a * e) then true else false) (fun r => if Rle_dec r e then true else false)).
    intros x. destruct (Rle_dec (a * x) (a * e)), (Rle_dec x e); try reflexivity; exfalso; nra.
Qed.
Lemma kth_ext p p' n vars vars' k t t' (sg : nat -> nat) a e : 0 < a ->
  Permutation (map sg (others n t)) (others n t') ->
  (forall u, In u (others n t) -> jdist p' vars' t' (sg u) = a * jdist p vars t u) ->
  kth_neighbour p n vars k t e -> kth_neighbour p' n vars' k t' (a * e).
Proof.
  intros Ha P D ((u & Hu & Nu & ->) & C & W).
  assert (Iu : In u (others n t)) by (apply others_in; auto).
  split; [|split].
  - exists (sg u). assert (X : In (sg u) (others n t')) by (apply (Permutation_in _ P), in_map; exact Iu).
    apply others_in in X as [X1 X2]. split; [exact X1|split; [exact X2|]]. symmetry. apply D. exact Iu.
  - pose proof (nbs_ext Strict p p' n vars vars' t t' sg a (jdist p vars t u) Ha P D) as G. cbn [nbs] in G. rewrite G. exact C.
  - pose proof (nbs_ext NonStrict p p' n vars vars' t t' sg a (jdist p vars t u) Ha P D) as G. cbn [nbs] in G. rewrite G. exact W.
Qed.
Lemma map_id_perm n t : Permutation (map (fun u => u) (others n t)) (others n t).
Proof. rewrite map_id. apply Permutation_refl. Qed.
Lemma nbs_perm w p n vars vars' t e : norm_ok p -> tables n vars -> (t < n)%nat -> Permutation vars vars' ->
  nbs w p n vars t e = nbs w p n vars' t e.
Proof.
  intros Hp T Ht P. symmetry. rewrite <- (Rmult_1_l e) at 1. apply (nbs_ext w p p n vars vars' t t (fun u => u)); [lra|apply map_id_perm|].
  intros u Hu. apply others_in in Hu as [Hu _]. rewrite (jdist_perm p n vars vars') by assumption. ring.
Qed.
Lemma kth_perm p n vars vars' k t e : norm_ok p -> tables n vars -> (t < n)%nat -> Permutation vars vars' ->
  kth_neighbour p n vars k t e -> kth_neighbour p n vars' k t e.
Proof.
  intros Hp T Ht P H. rewrite <- (Rmult_1_l e). apply (kth_ext p p n vars vars' k t t (fun u => u)); [lra|apply map_id_perm| |exact H].
  intros u Hu. apply others_in in Hu as [Hu _]. rewrite (jdist_perm p n vars vars') by assumption. ring.
Qed.
Lemma nbs_mono w p n vars vars' t e : norm_ok p -> tables n vars' -> (t < n)%nat -> (exists r, Permutation vars' (vars ++ r)) ->
  (nbs w p n vars' t e <= nbs w p n vars t e)%nat.
Proof.
  intros Hp T Ht X.
  assert (D : forall u, In u (others n t) -> jdist p vars t u <= jdist p vars' t u).
  { intros u Hu. apply others_in in Hu as [Hu _]. apply (jdist_mono p n); assumption. }
  destruct w; cbn [nbs]; unfold closer, within; apply filter_mono_len; intros u Hu; specialize (D u Hu).
  - destruct (Rlt_dec (jdist p vars' t u) e), (Rlt_dec (jdist p vars t u) e); intros; try reflexivity; try discriminate; exfalso; lra.
  - destruct (Rle_dec (jdist p vars' t u) e), (Rle_dec (jdist p vars t u) e); intros; try reflexivity; try discriminate; exfalso; lra.
Qed.

Lemma joined_jrows n vars : joined n vars = jrows n vars. Proof. reflexivity. Qed.
Lemma joined_sample n vars ws t : (t < n)%nat -> sample (vars ++ [joined n ws]) t = sample (vars ++ ws) t.
Proof.
  intros Ht. unfold sample. rewrite !map_app, !concat_app. f_equal. cbn [map concat].
  rewrite app_nil_r, joined_jrows, jrows_nth by exact Ht. reflexivity.
Qed.
Lemma joined_jdist p n vars ws t u : (t < n)%nat -> (u < n)%nat -> jdist p (vars ++ [joined n ws]) t u = jdist p (vars ++ ws) t u.
Proof. intros Ht Hu. unfold jdist. rewrite !joined_sample by assumption. reflexivity. Qed.
Lemma joined_nbs w p n vars ws t e : (t < n)%nat -> nbs w p n (vars ++ [joined n ws]) t e = nbs w p n (vars ++ ws) t e.
Proof.
  intros Ht. rewrite <- (Rmult_1_l e) at 1. apply (nbs_ext w p p n _ _ t t (fun u => u)); [lra|apply map_id_perm|].
  intros u Hu. apply others_in in Hu as [Hu _]. rewrite joined_jdist by assumption. ring.
Qed.
Lemma joined_kth p n vars ws k t e : (t < n)%nat -> kth_neighbour p n (vars ++ [joined n ws]) k t e -> kth_neighbour p n (vars ++ ws) k t e.
Proof.
  intros Ht H. rewrite <- (Rmult_1_l e). apply (kth_ext p p n (vars ++ [joined n ws]) (vars ++ ws) k t t (fun u => u)); [lra|apply map_id_perm| |exact H].
  intros u Hu. apply others_in in Hu as [Hu _]. rewrite joined_jdist by assumption. ring.
Qed.
Lemma joined_table n ds ws : tabs n ds ws -> table n (total_dim ds) (joined n ws).
Proof.
  intros T. split; [rewrite joined_jrows; apply jrows_length|].
  apply Forall_forall. intros x Hx. apply in_map_iff in Hx as (t & <- & Ht). apply in_seq in Ht. apply (jrow_length n); [exact T|lia].
Qed.
