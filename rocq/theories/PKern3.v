(** Proofs: the kernel estimators compute the specified measures. *)
From Coq Require Import Reals Lra Lia List ZArith Arith Bool Permutation.
From Verif Require Import Res RSum Spec SpecBase MBase PBase MTE MPct MNorm MCont SpecKern MKern PKern PKern2.
Import ListNotations.
Local Open Scope R_scope.

Lemma cstack_ok n vars : vars <> [] -> tables n vars -> cstack vars = Ok (jrows n vars).
Proof.
  intros Hv T. unfold cstack. destruct vars as [|v vars]; [congruence|].
  assert (L : length v = n) by (inversion T as [|? ? (d & L & _)]; exact L).
  rewrite L. replace (forallb _ _) with true.
  - unfold rows_of, jrows, jrow. rewrite map_map. reflexivity.
  - symmetry. apply forallb_forall. intros c Hc. unfold tables in T; rewrite Forall_forall in T. destruct (T c Hc) as (d & L' & _).
    apply Nat.eqb_eq. lia.
Qed.

Lemma flen_rows a : flen a = length (rows2d a).
Proof. destruct a; cbn; [rewrite map_length|]; reflexivity. Qed.

Lemma tables_map n cols : tables n (map rows2d cols) -> Forall (fun a => flen a = n) cols.
Proof.
  intros T. apply Forall_forall. intros a Ha. rewrite flen_rows. unfold tables in T. rewrite Forall_forall in T.
  destruct (T (rows2d a)) as (d & L & _); [apply in_map; exact Ha|exact L].
Qed.

Lemma make_rows_tuple n cols : cols <> [] -> tables n (map rows2d cols) ->
  make_rows (FTuple cols) = Ok (jrows n (map rows2d cols)).
Proof.
  intros Hc T. unfold make_rows. pose proof (tables_map _ _ T) as L.
  replace (existsb _ _) with false.
  - apply cstack_ok; [destruct cols; cbn; congruence|exact T].
  - symmetry. apply not_true_iff_false. intros E. apply existsb_exists in E as (c & Hin & E).
    rewrite Forall_forall in L. apply negb_true_iff in E. apply Nat.eqb_neq in E. apply E.
    rewrite (L c Hin). destruct cols as [|a cols]; [congruence|]. symmetry. apply L. left. reflexivity.
Qed.

Lemma make_rows_arr n a : flen a = n -> make_rows (FArr a) = Ok (jrows n [rows2d a]).
Proof. intros L. cbn. rewrite single_rows; [reflexivity|]. rewrite <- flen_rows. exact L. Qed.

Lemma n_workers_ok E w : workers_ok w -> (0 < cpus E)%Z -> forall bw k b, workers_ok (n_workers E (mkKargs bw k w b)).
Proof.
  intros W C bw k b. unfold n_workers. cbn. destruct (Z.eqb_spec w (-1)); [left; exact C|].
  destruct W; [left; assumption|congruence].
Qed.

Definition box_args (h : R) (w : Z) (b : base) : kargs := mkKargs (BwNum h) KBox w b.

Lemma kdens_box E h w b n ds vars : 0 < h -> (0 < cpus E)%Z -> workers_ok w -> tabs n ds vars -> (0 < n)%nat ->
  kdens E (box_args h w b) (jrows n vars) = Ok (squeeze (map (kdensity h n (total_dim ds) vars) (seq 0 n))).
Proof.
  intros Hh C W T Hn. unfold kdens, box_args. cbn [k_bw k_kern]. apply kde_box; auto. apply n_workers_ok; auto.
Qed.

Lemma seq_ne n : (0 < n)%nat -> seq 0 n <> [].
Proof. destruct n; [lia|discriminate]. Qed.
Lemma map_ne {A B} (f : A -> B) l : l <> [] -> map f l <> [].
Proof. destruct l; [congruence|discriminate]. Qed.

Lemma kernel_entropy_rows E h w b n ds vars i : 0 < h -> (0 < cpus E)%Z -> workers_ok w -> valid_base b ->
  (2 <= n)%nat -> tabs n ds vars -> make_rows i = Ok (jrows n vars) ->
  kernel_entropy_local E (box_args h w b) i
    = Ok (map (fun t => - ln (kdensity h n (total_dim ds) vars t) / unit_of b) (seq 0 n)) /\
  kernel_entropy E (box_args h w b) i = Ok (KH h n (total_dim ds) vars / unit_of b).
Proof.
  intros Hh C W V Hn T M.
  assert (L : kernel_entropy_local E (box_args h w b) i
     = Ok (map (fun t => - ln (kdensity h n (total_dim ds) vars t) / unit_of b) (seq 0 n))).
  { unfold kernel_entropy_local. rewrite M. cbn [bind]. rewrite (kdens_box E h w b n ds) by (auto; lia).
    cbn [bind]. cbn [box_args k_base]. destruct (base_guard_ok b V) as [-> ->]. cbn [bind].
    rewrite squeeze_long by (rewrite map_length, seq_length; exact Hn).
    rewrite (mapM_ok _ (fun p => - (ln p / unit_of b))).
    - rewrite map_map. f_equal. apply map_ext. intros t. unfold Rdiv. ring.
    - intros p Hp. apply in_map_iff in Hp as (t & <- & Ht). apply in_seq in Ht.
      apply kent_local_ok; [exact V|]. apply kdensity_pos; [exact Hh|lia]. }
  split; [exact L|]. unfold kernel_entropy. rewrite L. cbn [bind].
  rewrite mean_ok by (apply map_ne, seq_ne; lia). f_equal. unfold KH.
  apply (mean_map_div (fun t => - ln (kdensity h n (total_dim ds) vars t))).
Qed.

(** ** mutual information *)
Lemma rows_of_maps (n : nat) (fs : list (nat -> R)) :
  rows_of 0 n (map (fun f => map f (seq 0 n)) fs) = map (fun t => map (fun f => f t) fs) (seq 0 n).
Proof.
  unfold rows_of. apply map_ext_in. intros t Ht. apply in_seq in Ht. rewrite map_map. apply map_ext. intros f.
  rewrite (nth_map_lt f (seq 0 n) 0%nat) by (rewrite seq_length; lia). rewrite seq_nth by lia. reflexivity.
Qed.

Lemma prod_pos l : Forall (fun x => 0 < x) l -> 0 < fold_right Rmult 1 l.
Proof. induction 1; cbn; [lra|]. nra. Qed.
Lemma ln_prod l : Forall (fun x => 0 < x) l -> ln (fold_right Rmult 1 l) = sumR (map ln l).
Proof.
  induction 1 as [|x l Hx Hl IH]; cbn; [apply ln_1|]. rewrite ln_mult by (auto; apply prod_pos; auto).
  rewrite IH. reflexivity.
Qed.

(** the entropies of the single variables *)
Definition KHs (h : R) (n : nat) (ds : list nat) (vars : list (list pt)) : R :=
  sumR (map (fun dv => KH h n (fst dv) [snd dv]) (combine ds vars)).

Lemma tabs_each n ds vars : tabs n ds vars ->
  Forall (fun dv => tabs n [fst dv] [snd dv] /\ jrows n [snd dv] = snd dv) (combine ds vars).
Proof.
  induction 1 as [|d v ds vars H T IH]; cbn; constructor; [|exact IH]. cbn. split; [constructor; [exact H|constructor]|].
  apply single_rows. apply H.
Qed.

Lemma combine_snd {A B} (l : list A) (l' : list B) : length l = length l' -> map snd (combine l l') = l'.
Proof. revert l'; induction l; intros [|b l'] L; cbn in *; try congruence; try lia. f_equal. apply IHl. lia. Qed.

Lemma mapM_map {A B C} (f : B -> res C) (g : A -> B) l : mapM f (map g l) = mapM (fun a => f (g a)) l.
Proof. induction l as [|a l IH]; cbn; [reflexivity|]. rewrite IH. reflexivity. Qed.

Lemma Forall2_len {A B} (P : A -> B -> Prop) l l' : Forall2 P l l' -> length l = length l'.
Proof. induction 1; cbn; congruence. Qed.

Lemma kernel_mi_form_ok E h w b n ds vars : 0 < h -> (0 < cpus E)%Z -> workers_ok w -> valid_base b ->
  (0 < n)%nat -> vars <> [] -> tabs n ds vars ->
  kernel_mi_form E (box_args h w b) vars =
    Ok (map (fun t => (ln (kdensity h n (total_dim ds) vars t)
                       - sumR (map (fun dv => ln (kdensity h n (fst dv) [snd dv] t)) (combine ds vars))) / unit_of b)
            (seq 0 n)).
Proof.
  intros Hh C W V Hn Hv T. unfold kernel_mi_form.
  rewrite (cstack_ok n) by (auto; eapply tabs_tables; exact T). cbn [bind].
  rewrite (kdens_box E h w b n ds) by auto. cbn [bind].
  assert (P : mapM (kdens E (box_args h w b)) vars
    = Ok (map (fun dv => squeeze (map (kdensity h n (fst dv) [snd dv]) (seq 0 n))) (combine ds vars))).
  { rewrite <- (combine_snd ds vars) at 1 by (eapply Forall2_len; exact T). rewrite mapM_map. apply mapM_ok.
    intros dv Hdv. pose proof (tabs_each _ _ _ T) as TE. rewrite Forall_forall in TE. destruct (TE _ Hdv) as [T1 J].
    rewrite <- J at 1. rewrite (kdens_box E h w b n [fst dv]) by auto. cbn [total_dim fold_right].
    rewrite Nat.add_0_r. reflexivity. }
  rewrite P. cbn [bind k_base box_args]. destruct (base_guard_ok b V) as [-> _]. cbn [bind].
  rewrite !flat_squeeze, map_map, map_length, seq_length.
  replace (map (kdensity h n (total_dim ds) vars) (seq 0 n) ::
     map (fun dv => flat (squeeze (map (kdensity h n (fst dv) [snd dv]) (seq 0 n)))) (combine ds vars))
    with (map (fun f => map f (seq 0 n)) (kdensity h n (total_dim ds) vars ::
       map (fun dv => kdensity h n (fst dv) [snd dv]) (combine ds vars))).
  2:{ cbn [map]. f_equal. rewrite map_map. apply map_ext. intros dv. rewrite flat_squeeze. reflexivity. }
  rewrite rows_of_maps, mapM_map. apply mapM_ok. intros t Ht. apply in_seq in Ht. cbn [map hd tl].
  rewrite map_map.
  set (ps := map (fun dv => kdensity h n (fst dv) [snd dv] t) (combine ds vars)).
  assert (HF : Forall (fun x => 0 < x) ps).
  { unfold ps. apply Forall_forall. intros x Hx. apply in_map_iff in Hx as (dv & <- & _). apply kdensity_pos; [exact Hh|lia]. }
  pose proof (prod_pos _ HF) as PP.
  pose proof (kdensity_pos h n (total_dim ds) vars t Hh ltac:(lia)) as PJ.
  unfold np_div. destruct (Req_EM_T _ _) as [X|_]; [lra|]. cbn [bind].
  rewrite log_base_ok; [|exact V|apply Rdiv_lt_0_compat; assumption]. do 2 f_equal.
  unfold Rdiv. rewrite ln_mult, ln_Rinv, ln_prod; try assumption; [|apply Rinv_0_lt_compat; assumption].
  unfold ps. rewrite map_map. unfold Rminus. f_equal.
Qed.

Lemma sumR_swap {A B} (f : A -> B -> R) (l : list A) (m : list B) :
  sumf (fun a => sumR (map (fun b => f a b) m)) l = sumR (map (fun b => sumf (fun a => f a b) l) m).
Proof.
  induction m as [|b m IH]; cbn; [apply sumf_zero|]. unfold sumR in *. cbn [map sumf]. rewrite sumf_plus, IH. reflexivity.
Qed.

Lemma KH_combination h n ds vars u : (0 < n)%nat ->
  mean (map (fun t => (ln (kdensity h n (total_dim ds) vars t)
       - sumR (map (fun dv => ln (kdensity h n (fst dv) [snd dv] t)) (combine ds vars))) / u) (seq 0 n))
  = (KHs h n ds vars - KH h n (total_dim ds) vars) / u.
Proof.
  intros Hn. rewrite (mean_map_div (fun t => ln (kdensity h n (total_dim ds) vars t)
       - sumR (map (fun dv => ln (kdensity h n (fst dv) [snd dv] t)) (combine ds vars)))). f_equal.
  rewrite mean_map, sumf_minus, sumR_swap. unfold KHs, KH. rewrite mean_map, sumf_opp.
  rewrite (map_ext (fun dv => mean _) (fun dv => - (sumf (fun t => ln (kdensity h n (fst dv) [snd dv] t)) (seq 0 n)) / INR (length (seq 0 n))))
    by (intros dv; rewrite mean_map, sumf_opp; reflexivity).
  assert (E : forall l : list (nat * list pt),
    sumR (map (fun dv => - sumf (fun t => ln (kdensity h n (fst dv) [snd dv] t)) (seq 0 n) / INR (length (seq 0 n))) l)
    = - sumR (map (fun dv => sumf (fun t => ln (kdensity h n (fst dv) [snd dv] t)) (seq 0 n)) l) / INR (length (seq 0 n))).
  { induction l as [|dv l IH]; unfold sumR in *; cbn [map sumf]; [unfold Rdiv; ring|]. rewrite IH. unfold Rdiv. ring. }
  rewrite E. unfold Rdiv. ring.
Qed.

Lemma kernel_mi_ok E h w b n ds vars : 0 < h -> (0 < cpus E)%Z -> workers_ok w -> valid_base b ->
  (0 < n)%nat -> (2 <= length vars)%nat -> tabs n ds (map rows2d vars) ->
  kernel_mi E (box_args h w b) (Some 0%Z) false vars
   = Ok ((KHs h n ds (map rows2d vars) - KH h n (total_dim ds) (map rows2d vars)) / unit_of b).
Proof.
  intros Hh C W V Hn Hv T. unfold kernel_mi, kernel_mi_local.
  assert (I : fmi_init (Some 0%Z) false vars = Ok (map rows2d vars)).
  { unfold fmi_init. destruct (Nat.ltb_spec (length vars) 2); [lia|].
    cbn [Z.eqb negb]. rewrite andb_false_r.
    replace (forallb _ vars) with true; [reflexivity|]. symmetry. apply forallb_forall. intros a Ha.
    pose proof (tables_map _ _ (tabs_tables _ _ _ T)) as L. rewrite Forall_forall in L.
    rewrite (L a Ha). apply Nat.eqb_eq. symmetry. apply L. destruct vars; [contradiction|left; reflexivity]. }
  rewrite I. cbn [bind]. rewrite (kernel_mi_form_ok E h w b n ds); auto.
  2:{ destruct vars; cbn in *; [lia|discriminate]. }
  cbn [bind]. rewrite mean_ok by (apply map_ne, seq_ne; exact Hn). f_equal. apply KH_combination. exact Hn.
Qed.
