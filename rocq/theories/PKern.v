(** Proofs: box-kernel densities. *)
From Coq Require Import Reals Lra Lia List ZArith Arith Bool Permutation.
From Verif Require Import Res RSum Spec SpecBase MBase PBase MTE MPct MNorm MCont SpecKern MKern.
Import ListNotations.
Local Open Scope R_scope.

Lemma maxl_le r l : 0 <= r -> (maxl l <= r <-> Forall (fun x => x <= r) l).
Proof.
  intros Hr. induction l as [|x l IH]; cbn.
  - split; auto.
  - split.
    + intros H. constructor; [pose proof (Rmax_l x (maxl l)); unfold maxl in *; lra|].
      apply IH. pose proof (Rmax_r x (maxl l)). unfold maxl in *. lra.
    + intros H. inversion H; subst. apply Rmax_lub; [assumption|]. apply IH. assumption.
Qed.

Lemma near_dist h x y : 0 < h -> near h x y = (if Rle_dec (dist MInf x y) (h / 2) then true else false).
Proof.
  intros Hh. cbn [dist]. unfold near, diffs.
  assert (Hr : 0 <= h / 2) by lra.
  destruct (Rle_dec _ _) as [H|H].
  - apply (proj1 (maxl_le _ _ Hr)) in H. apply forallb_forall. intros ab Hab.
    rewrite Forall_forall in H. specialize (H _ (in_map _ _ _ Hab)). cbn in H.
    destruct (Rle_dec _ _); [reflexivity|contradiction].
  - apply not_true_iff_false. intros E. apply H. apply (maxl_le _ _ Hr). apply Forall_forall.
    intros z Hz. apply in_map_iff in Hz as (ab & <- & Hab). rewrite forallb_forall in E. specialize (E _ Hab).
    destruct (Rle_dec _ _); [assumption|discriminate].
Qed.

Lemma near_refl h x : 0 < h -> near h x x = true.
Proof.
  intros Hh. unfold near. apply forallb_forall. intros [a b] Hab.
  assert (a = b).
  { clear -Hab. induction x as [|c x IH]; cbn in Hab; [contradiction|]. destruct Hab as [E|E]; [congruence|auto]. }
  subst. cbn. rewrite Rminus_diag_eq by reflexivity. rewrite Rabs_R0. destruct (Rle_dec _ _); [reflexivity|lra].
Qed.

Lemma near_app h x y x' y' : length x = length x' -> near h (x ++ y) (x' ++ y') = near h x x' && near h y y'.
Proof.
  intros L. unfold near. revert x' L. induction x as [|a x IH]; intros [|b x'] L; try discriminate; [reflexivity|].
  cbn [app combine forallb]. rewrite IH by (cbn in L; lia). apply andb_assoc.
Qed.

Lemma near_concat h (xs ys : list (list R)) :
  Forall2 (fun x y => length x = length y) xs ys ->
  near h (concat xs) (concat ys) = forallb (fun xy => near h (fst xy) (snd xy)) (combine xs ys).
Proof.
  induction 1 as [|x y xs ys L H IH]; [reflexivity|]. cbn [concat combine forallb fst snd]. rewrite near_app by exact L. rewrite IH. reflexivity.
Qed.

Lemma forallb_combine_map {A B C} (f : A -> B) (g : A -> C) (p : B * C -> bool) l :
  forallb p (combine (map f l) (map g l)) = forallb (fun a => p (f a, g a)) l.
Proof. induction l as [|a l IH]; cbn; [reflexivity|]. rewrite IH. reflexivity. Qed.

(** a table is well-formed at each index *)
Lemma table_nth n d v t : table n d v -> (t < n)%nat -> length (nth t v []) = d.
Proof. intros [L F] Ht. rewrite Forall_forall in F. apply F. apply nth_In. lia. Qed.

Definition tables (n : nat) (vars : list (list pt)) : Prop := Forall (fun v => exists d, table n d v) vars.

Definition jrow (vars : list (list pt)) (t : nat) : pt := concat (map (fun v => nth t v []) vars).

Lemma near_jrow h n vars t u : tables n vars -> (t < n)%nat -> (u < n)%nat ->
  near h (jrow vars t) (jrow vars u) = forallb (fun v => near h (nth t v []) (nth u v [])) vars.
Proof.
  intros T Ht Hu. unfold jrow. rewrite near_concat.
  - rewrite forallb_combine_map. reflexivity.
  - induction T as [|v vars (d & Hv) T IH]; cbn; constructor; [|exact IH].
    rewrite (table_nth n d), (table_nth n d) by assumption. reflexivity.
Qed.

Definition jrows (n : nat) (vars : list (list pt)) : list pt := map (jrow vars) (seq 0 n).

Lemma filter_map_length {A B} (f : A -> B) (p : B -> bool) l :
  length (filter p (map f l)) = length (filter (fun a => p (f a)) l).
Proof. induction l as [|a l IH]; cbn; [reflexivity|]. destruct (p (f a)); cbn; rewrite IH; reflexivity. Qed.

Lemma filter_ext_in' {A} (f g : A -> bool) l : (forall x, In x l -> f x = g x) -> filter f l = filter g l.
Proof.
  induction l as [|a l IH]; intros H; cbn; [reflexivity|].
  rewrite (H a) by (left; reflexivity). rewrite IH by (intros; apply H; right; assumption). reflexivity.
Qed.

Lemma ball_nnear h n vars t : 0 < h -> tables n vars -> (t < n)%nat ->
  ball_le MInf (jrows n vars) (jrow vars t) (Some (h / 2)) = nnear h n vars t.
Proof.
  intros Hh T Ht. unfold ball_le, nnear, jrows. rewrite filter_map_length. f_equal. apply filter_ext_in'.
  intros u Hu. apply in_seq in Hu. rewrite <- near_dist by exact Hh. apply (near_jrow h n); auto; lia.
Qed.

Lemma nnear_pos h n vars t : 0 < h -> (t < n)%nat -> (1 <= nnear h n vars t)%nat.
Proof.
  intros Hh Ht. unfold nnear.
  assert (In t (filter (fun u => forallb (fun v => near h (nth t v []) (nth u v [])) vars) (seq 0 n))).
  { apply filter_In. split; [apply in_seq; lia|]. apply forallb_forall. intros v _. apply near_refl. exact Hh. }
  destruct (filter _ _); [contradiction|cbn; lia].
Qed.

Lemma filter_len {A} (p : A -> bool) l : (length (filter p l) <= length l)%nat.
Proof. induction l as [|a l IH]; cbn; [lia|]. destruct (p a); cbn; lia. Qed.

Lemma nnear_le h n vars t : (nnear h n vars t <= n)%nat.
Proof. unfold nnear. etransitivity; [apply filter_len|]. rewrite seq_length. lia. Qed.

Lemma filter_le_incl {A} (p q : A -> bool) l : (forall x, In x l -> p x = true -> q x = true) ->
  (length (filter p l) <= length (filter q l))%nat.
Proof.
  induction l as [|a l IH]; intros H; cbn; [lia|].
  assert (length (filter p l) <= length (filter q l))%nat by (apply IH; intros; apply H; [right; assumption|assumption]).
  destruct (p a) eqn:E; [rewrite (H a (or_introl eq_refl) E); cbn; lia|].
  destruct (q a); cbn; lia.
Qed.

(** more variables: fewer near samples *)
Lemma nnear_incl h n vars vars' t : incl vars' vars -> (nnear h n vars t <= nnear h n vars' t)%nat.
Proof.
  intros I. apply filter_le_incl. intros u _ H. apply forallb_forall. intros v Hv.
  rewrite forallb_forall in H. apply H. apply I. exact Hv.
Qed.

Lemma nnear_perm h n vars vars' t : Permutation vars vars' -> nnear h n vars t = nnear h n vars' t.
Proof.
  intros P. apply Nat.le_antisymm; apply nnear_incl; intros v Hv;
    [apply (Permutation_in v (Permutation_sym P)) | apply (Permutation_in v P)]; exact Hv.
Qed.

(** ** densities *)
Definition total_dim (ds : list nat) : nat := fold_right Nat.add 0%nat ds.
Definition tabs (n : nat) (ds : list nat) (vars : list (list pt)) : Prop := Forall2 (fun d v => table n d v) ds vars.

Lemma tabs_tables n ds vars : tabs n ds vars -> tables n vars.
Proof. induction 1; constructor; eauto. Qed.

Lemma jrow_length n ds vars t : tabs n ds vars -> (t < n)%nat -> length (jrow vars t) = total_dim ds.
Proof.
  intros T Ht. unfold jrow. induction T as [|d v ds vars Hv T IH]; cbn; [reflexivity|].
  rewrite app_length, IH, (table_nth n d) by assumption. reflexivity.
Qed.

Lemma jrows_length n vars : length (jrows n vars) = n.
Proof. unfold jrows. rewrite map_length, seq_length. reflexivity. Qed.

Lemma jrows_width n ds vars : tabs n ds vars -> (0 < n)%nat -> width (jrows n vars) = total_dim ds.
Proof.
  intros T Hn. unfold width, jrows. destruct n as [|n]; [lia|]. cbn [seq map hd].
  apply (jrow_length (S n)); [exact T|lia].
Qed.


Lemma kde_box E h n ds vars w : 0 < h -> tabs n ds vars -> (0 < n)%nat -> workers_ok w ->
  kde E (jrows n vars) (BwNum h) None KBox w = Ok (squeeze (map (kdensity h n (total_dim ds) vars) (seq 0 n))).
Proof.
  intros Hh T Hn W. unfold kde. destruct (Rle_dec h 0) as [X|_]; [lra|]. cbn [bind].
  assert (WW : (Z.leb w 0 && negb (Z.eqb w (-1))) = false).
  { destruct W as [W| ->]; [|reflexivity]. destruct (Z.leb_spec w 0); [lia|reflexivity]. }
  rewrite WW, (jrows_width n ds) by assumption.
  rewrite (mapM_ok _ (fun x => INR (ball_le MInf (jrows n vars) x (Some (h / 2))) / (INR n * h ^ total_dim ds))).
  - cbn [rmap bind]. unfold jrows at 2. rewrite map_map. do 2 f_equal. apply map_ext_in. intros t Ht. apply in_seq in Ht.
    rewrite (ball_nnear h n vars t Hh (tabs_tables _ _ _ T)) by lia.
    unfold kdensity. field. split; [apply not_0_INR; lia|apply pow_nonzero; lra].
  - intros x _. rewrite jrows_length. unfold np_div. destruct (Req_EM_T _ _) as [X|_]; [|reflexivity].
    exfalso. apply Rmult_integral in X as [X|X]; [apply (not_0_INR n); [lia|exact X]|].
    revert X. apply pow_nonzero. lra.
Qed.

Lemma kdensity_bounds h n d vars t : 0 < h -> (t < n)%nat ->
  1 / (INR n * h ^ d) <= kdensity h n d vars t <= 1 / h ^ d.
Proof.
  intros Hh Ht. unfold kdensity.
  assert (Hn : 0 < INR n) by (apply lt_0_INR; lia).
  pose proof (pow_lt h d Hh) as Hd.
  pose proof (le_INR _ _ (nnear_pos h n vars t Hh Ht)) as H1. cbn [INR] in H1.
  pose proof (le_INR _ _ (nnear_le h n vars t)) as H2.
  split.
  - replace (INR (nnear h n vars t) / INR n / h ^ d) with (INR (nnear h n vars t) * / (INR n * h ^ d)) by (field; lra).
    unfold Rdiv. apply Rmult_le_compat_r; [|lra]. left. apply Rinv_0_lt_compat. nra.
  - unfold Rdiv. apply Rmult_le_compat_r; [left; apply Rinv_0_lt_compat; lra|].
    apply (Rmult_le_reg_r (INR n)); [exact Hn|]. rewrite Rmult_assoc, Rinv_l by lra. lra.
Qed.

Lemma kdensity_pos h n d vars t : 0 < h -> (t < n)%nat -> 0 < kdensity h n d vars t.
Proof.
  intros Hh Ht. eapply Rlt_le_trans; [|apply kdensity_bounds; eassumption].
  apply Rdiv_lt_0_compat; [lra|]. apply Rmult_lt_0_compat; [apply lt_0_INR; lia|apply pow_lt; exact Hh].
Qed.

(** ** entropies *)
Lemma single_rows n v : length v = n -> jrows n [v] = v.
Proof.
  intros L. unfold jrows, jrow. cbn. subst n.
  transitivity (map (fun t => nth t v []) (seq 0 (length v))).
  - apply map_ext. intros t. apply app_nil_r.
  - clear. induction v as [|x v IH]; [reflexivity|]. cbn [length seq map nth]. f_equal.
    rewrite <- seq_shift, map_map. exact IH.
Qed.

Lemma kent_local_ok b p : valid_base b -> 0 < p -> kent_local b p = Ok (- (ln p / unit_of b)).
Proof.
  intros V Hp. unfold kent_local. destruct (Req_EM_T p 0) as [X|_]; [lra|].
  assert (E : base_is b 1 = false).
  { destruct b as [|r]; [reflexivity|]. cbn in *. destruct (Req_EM_T r 1); [tauto|reflexivity]. }
  rewrite E. cbn [andb]. rewrite (log_base_ok b p V Hp). reflexivity.
Qed.

Lemma base_guard_ok b : valid_base b -> base_guard b = Ok tt /\ base_is b 0 = false.
Proof.
  destruct b as [|r]; cbn; [auto|]. intros [H H1]. destruct (Rlt_dec r 0); [lra|].
  destruct (Req_EM_T r 0); [lra|]. auto.
Qed.

Lemma squeeze_long l : (2 <= length l)%nat -> squeeze l = D1 l.
Proof. destruct l as [|a [|b l]]; cbn; [lia|lia|reflexivity]. Qed.

Lemma flat_squeeze l : flat (squeeze l) = l.
Proof. destruct l as [|a [|b l]]; reflexivity. Qed.

Lemma mean_ok ls : ls <> [] -> mean_res ls = Ok (mean ls).
Proof. destruct ls; [congruence|reflexivity]. Qed.

Lemma mean_map {A} (f : A -> R) l : mean (map f l) = sumf f l / INR (length l).
Proof. unfold mean, sumR. rewrite map_length, sumf_map. reflexivity. Qed.

Lemma mean_map_div {A} (f : A -> R) c l : mean (map (fun t => f t / c) l) = mean (map f l) / c.
Proof. rewrite !mean_map, sumf_div. unfold Rdiv. ring. Qed.

Lemma mean_ge {A} (f : A -> R) lo l : l <> [] -> (forall t, In t l -> lo <= f t) -> lo <= mean (map f l).
Proof.
  intros Hl H. rewrite mean_map. assert (0 < INR (length l)) by (apply lt_0_INR; destruct l; [congruence|cbn; lia]).
  apply (Rmult_le_reg_r (INR (length l))); [assumption|]. unfold Rdiv. rewrite Rmult_assoc, Rinv_l by lra.
  rewrite Rmult_1_r, Rmult_comm, <- sumf_const. apply sumf_le. exact H.
Qed.
Lemma mean_opp {A} (f : A -> R) l : mean (map (fun t => - f t) l) = - mean (map f l).
Proof. rewrite !mean_map, sumf_opp. unfold Rdiv. ring. Qed.
Lemma mean_le {A} (f : A -> R) hi l : l <> [] -> (forall t, In t l -> f t <= hi) -> mean (map f l) <= hi.
Proof.
  intros Hl H. pose proof (mean_ge (fun t => - f t) (- hi) l Hl) as P. rewrite mean_opp in P.
  assert (- hi <= - mean (map f l)) by (apply P; intros t Ht; specialize (H t Ht); lra). lra.
Qed.
