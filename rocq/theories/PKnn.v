(** Proofs: Minkowski norms, nearest neighbours and neighbour counts. *)
From Coq Require Import Reals Lra Lia List ZArith Arith Bool Permutation Sorted.
From Verif Require Import Res RSum Spec SpecBase SpecGamma MBase PBase MTE MPct MNorm MEst MCont SpecKern PKern SpecKnn MKnn PEst2 PropsPct.
Import ListNotations.
Local Open Scope R_scope.

(** ** powers *)
Lemma powr_0 p : powr 0 p = 0. Proof. unfold powr. destruct (Req_EM_T 0 0); [reflexivity|congruence]. Qed.
Lemma powr_pos x p : 0 < x -> 0 < powr x p.
Proof. intros H. unfold powr. destruct (Req_EM_T x 0); [lra|]. apply exp_pos. Qed.
Lemma powr_nonneg x p : 0 <= x -> 0 <= powr x p.
Proof. intros [H| <-]; [left; apply powr_pos; exact H|rewrite powr_0; lra]. Qed.
Lemma powr_lt x y p : 0 < p -> 0 <= x -> x < y -> powr x p < powr y p.
Proof.
  intros Hp [H| <-] L; [|rewrite powr_0; apply powr_pos; exact L].
  unfold powr. destruct (Req_EM_T x 0); [lra|]. destruct (Req_EM_T y 0); [lra|].
  unfold Rpower. apply exp_increasing. apply Rmult_lt_compat_l; [exact Hp|]. apply ln_increasing; assumption.
Qed.
Lemma powr_le x y p : 0 < p -> 0 <= x -> x <= y -> powr x p <= powr y p.
Proof. intros Hp Hx [L| ->]; [left; apply powr_lt; assumption|lra]. Qed.
Lemma powr_mult x y p : 0 <= x -> 0 <= y -> powr (x * y) p = powr x p * powr y p.
Proof.
  intros [Hx| <-] [Hy| <-]; rewrite ?Rmult_0_l, ?Rmult_0_r, ?powr_0; try ring.
  unfold powr. destruct (Req_EM_T (x * y) 0); [nra|]. destruct (Req_EM_T x 0); [lra|]. destruct (Req_EM_T y 0); [lra|].
  symmetry. apply Rpower_mult_distr; assumption.
Qed.
Lemma powr_inv x p : p <> 0 -> 0 <= x -> powr (powr x p) (/ p) = x.
Proof.
  intros Hp [H| <-]; [|rewrite powr_0; apply powr_0].
  assert (P : 0 < powr x p) by (apply powr_pos; exact H).
  unfold powr at 1. destruct (Req_EM_T _ 0); [lra|]. unfold powr. destruct (Req_EM_T x 0); [lra|].
  rewrite Rpower_mult. rewrite Rinv_r by exact Hp. apply Rpower_1. exact H.
Qed.
Lemma powr_inv' x p : p <> 0 -> 0 <= x -> powr (powr x (/ p)) p = x.
Proof.
  intros Hp Hx. rewrite <- (Rinv_inv p) at 2. apply powr_inv; [|exact Hx]. apply Rinv_neq_0_compat. exact Hp.
Qed.

(** ** norms *)
Definition np_of (m : mink) : option R := match m with MInf => None | MP p => Some p end.
Lemma mink_ok_norm m : mink_ok m = true <-> norm_ok (np_of m).
Proof. destruct m as [|p]; cbn; [tauto|]. destruct (Rle_dec 1 p); split; intros; try assumption; try reflexivity; try discriminate; contradiction. Qed.
Lemma dist_dst m x y : dist m x y = dst (np_of m) x y.
Proof.
  unfold dist, dst, diffs, vsub. destruct m as [|p]; cbn [np_of norm].
  - unfold maxl. induction (combine x y) as [|ab l IH]; cbn; [reflexivity|]. rewrite IH. reflexivity.
  - rewrite !map_map. reflexivity.
Qed.

Lemma norm_nonneg p v : 0 <= norm p v.
Proof.
  destruct p as [p|]; cbn.
  - apply powr_nonneg. unfold sumR. apply sumf_nonneg. intros x Hx. apply in_map_iff in Hx as (a & <- & _). apply powr_nonneg, Rabs_pos.
  - induction v as [|a v IH]; cbn; [lra|]. eapply Rle_trans; [apply Rabs_pos|apply Rmax_l].
Qed.
Lemma dst_nonneg p x y : 0 <= dst p x y. Proof. apply norm_nonneg. Qed.
Lemma norm_zeros p v : Forall (fun a => a = 0) v -> norm p v = 0.
Proof.
  intros F. destruct p as [p|]; cbn.
  - replace (sumR _) with 0; [apply powr_0|]. symmetry. unfold sumR. induction F as [|a v -> F IH]; cbn; [reflexivity|].
    rewrite Rabs_R0, powr_0. cbn in IH. lra.
  - induction F as [|a v -> F IH]; cbn; [reflexivity|]. rewrite IH, Rabs_R0. apply Rmax_left. lra.
Qed.
Lemma dst_self p x : dst p x x = 0.
Proof. apply norm_zeros. unfold vsub. induction x; cbn; constructor; auto. ring. Qed.
Lemma norm_1 p a : norm_ok p -> 0 <= a -> norm p [a] = a.
Proof.
  intros Hp Ha. destruct p as [p|]; cbn.
  - unfold sumR. cbn. rewrite Rplus_0_r, Rabs_pos_eq by exact Ha. apply powr_inv; [cbn in Hp; lra|exact Ha].
  - rewrite Rabs_pos_eq by exact Ha. apply Rmax_left. exact Ha.
Qed.
Lemma norm_scale p c v : norm_ok p -> 0 <= c -> norm p (map (Rmult c) v) = c * norm p v.
Proof.
  intros Hp Hc. destruct p as [p|]; cbn.
  - cbn in Hp. rewrite map_map.
    replace (sumR (map (fun x => powr (Rabs (c * x)) p) v)) with (powr c p * sumR (map (fun a => powr (Rabs a) p) v)).
    + rewrite powr_mult; [|apply powr_nonneg; exact Hc|].
      * rewrite powr_inv by lra. reflexivity.
      * unfold sumR. apply sumf_nonneg. intros x Hx. apply in_map_iff in Hx as (a & <- & _). apply powr_nonneg, Rabs_pos.
    + unfold sumR. induction v as [|a v IH]; cbn; [ring|]. rewrite Rabs_mult, (Rabs_pos_eq c Hc), powr_mult by (auto; apply Rabs_pos).
      cbn in IH. rewrite <- IH. ring.
  - induction v as [|a v IH]; cbn; [ring|]. rewrite IH, Rabs_mult, (Rabs_pos_eq c Hc). apply RmaxRmult. exact Hc.
Qed.
Lemma norm_perm p v v' : Permutation v v' -> norm p v = norm p v'.
Proof.
  intros P. destruct p as [p|]; cbn.
  - f_equal. unfold sumR. apply sumf_perm. apply Permutation_map. exact P.
  - induction P; cbn; [reflexivity|rewrite IHP; reflexivity| |congruence].
    rewrite !Rmax_assoc. f_equal. apply Rmax_comm.
Qed.
Lemma norm_map_abs p v : norm p (map Rabs v) = norm p v.
Proof.
  destruct p as [p|]; cbn.
  - rewrite map_map. do 2 f_equal. apply map_ext. intros a. rewrite Rabs_Rabsolu. reflexivity.
  - induction v as [|a v IH]; cbn; [reflexivity|]. rewrite IH, Rabs_Rabsolu. reflexivity.
Qed.

Definition psum (p : R) (v : list R) : R := sumR (map (fun a => powr (Rabs a) p) v).
Lemma psum_nonneg p v : 0 <= psum p v.
Proof. unfold psum, sumR. apply sumf_nonneg. intros x Hx. apply in_map_iff in Hx as (a & <- & _). apply powr_nonneg, Rabs_pos. Qed.
Lemma psum_app p v w : psum p (v ++ w) = psum p v + psum p w.
Proof. unfold psum, sumR. rewrite map_app, sumf_app. reflexivity. Qed.

(** the norm of a joint vector is the norm of the vector of norms *)
Lemma norm_concat p vs : norm_ok p -> norm p (concat vs) = norm p (map (norm p) vs).
Proof.
  intros Hp. destruct p as [p|].
  - cbn in Hp. cbn [norm]. f_equal. fold (psum p (concat vs)).
    rewrite map_map. unfold sumR. rewrite sumf_map.
    induction vs as [|v vs IH]; [reflexivity|]. cbn [concat map sumf]. rewrite psum_app, IH. f_equal.
    fold (psum p v). rewrite Rabs_pos_eq by (apply powr_nonneg, psum_nonneg). symmetry. apply powr_inv'; [lra|apply psum_nonneg].
  - induction vs as [|v vs IH]; [reflexivity|]. cbn [concat map].
    assert (A : forall w, norm None (v ++ w) = Rmax (norm None v) (norm None w)).
    { intros w. clear. pose proof (norm_nonneg None w). induction v as [|a v IH]; cbn [app].
      - cbn [norm fold_right]. symmetry. apply Rmax_right. exact H.
      - cbn [norm fold_right] in *. rewrite IH. apply Rmax_assoc. }
    rewrite A, IH. cbn [norm fold_right]. f_equal. symmetry. apply Rabs_pos_eq. apply (norm_nonneg None).
Qed.
Lemma norm_incl p v w : norm_ok p -> (forall a, In a v -> 0 <= a) -> (exists r, Permutation w (v ++ r)) -> norm p v <= norm p w.
Proof.
  intros Hp Hv (r & P). rewrite (norm_perm p _ _ P). destruct p as [p|]; cbn [norm].
  - cbn in Hp. fold (psum p v). fold (psum p (v ++ r)). rewrite psum_app. apply powr_le; [apply Rinv_0_lt_compat; lra|apply psum_nonneg|].
    pose proof (psum_nonneg p r). lra.
  - clear P. pose proof (norm_nonneg None r) as N. cbn in N. induction v as [|a v IH]; cbn; [exact N|].
    apply Rle_max_compat_l. apply IH. intros; apply Hv; right; assumption.
Qed.

(** ** joint distances *)
Lemma vsub_app x x' y y' : length x = length x' -> vsub (x ++ y) (x' ++ y') = vsub x x' ++ vsub y y'.
Proof.
  unfold vsub. revert x'. induction x as [|a x IH]; intros [|b x'] L; try discriminate; [reflexivity|].
  cbn. rewrite IH by (cbn in L; lia). reflexivity.
Qed.
Lemma vsub_concat (xs ys : list (list R)) : Forall2 (fun x y => length x = length y) xs ys ->
  vsub (concat xs) (concat ys) = concat (map (fun xy => vsub (fst xy) (snd xy)) (combine xs ys)).
Proof. induction 1 as [|x y xs ys L F IH]; [reflexivity|]. cbn [concat combine map fst snd]. rewrite vsub_app, IH by exact L. reflexivity. Qed.

Lemma jdist_norm p n vars t u : norm_ok p -> tables n vars -> (t < n)%nat -> (u < n)%nat ->
  jdist p vars t u = norm p (map (fun v => dst p (nth t v []) (nth u v [])) vars).
Proof.
  intros Hp T Ht Hu. unfold jdist, dst, sample. rewrite vsub_concat.
  - rewrite norm_concat by exact Hp. f_equal. rewrite map_map.
    clear T. induction vars as [|v vars IH]; [reflexivity|]. cbn. rewrite IH. reflexivity.
  - unfold tables in T. induction T as [|v vars (d & T) F IH]; cbn; constructor; [|exact IH].
    rewrite (table_nth _ _ _ _ T Ht), (table_nth _ _ _ _ T Hu). reflexivity.
Qed.
Lemma jdist_1 p v t u : jdist p [v] t u = dst p (nth t v []) (nth u v []).
Proof. unfold jdist, sample. cbn. rewrite !app_nil_r. reflexivity. Qed.
Lemma jdist_nonneg p vars t u : 0 <= jdist p vars t u. Proof. apply dst_nonneg. Qed.
Lemma jdist_self p vars t : jdist p vars t t = 0. Proof. apply dst_self. Qed.
Lemma jdist_mono p n vars vars' t u : norm_ok p -> tables n vars' -> (t < n)%nat -> (u < n)%nat ->
  (exists r, Permutation vars' (vars ++ r)) -> jdist p vars t u <= jdist p vars' t u.
Proof.
  intros Hp T Ht Hu (r & P).
  assert (T1 : tables n vars).
  { unfold tables in *. apply (Permutation_Forall P) in T. apply Forall_app in T. apply T. }
  rewrite !(jdist_norm p n) by assumption. apply norm_incl; [exact Hp| |].
  - intros a Ha. apply in_map_iff in Ha as (v & <- & _). apply dst_nonneg.
  - exists (map (fun v => dst p (nth t v []) (nth u v [])) r). rewrite <- map_app. apply Permutation_map. exact P.
Qed.
Lemma jdist_perm p n vars vars' t u : norm_ok p -> tables n vars -> (t < n)%nat -> (u < n)%nat ->
  Permutation vars vars' -> jdist p vars t u = jdist p vars' t u.
Proof.
  intros Hp T Ht Hu P. assert (T' : tables n vars') by (unfold tables in *; apply (Permutation_Forall P); exact T).
  rewrite !(jdist_norm p n) by assumption. apply norm_perm. apply Permutation_map. exact P.
Qed.

(** ** counts *)
Lemma others_in n t u : In u (others n t) <-> (u < n)%nat /\ u <> t.
Proof.
  unfold others. rewrite filter_In, in_seq. destruct (Nat.eqb_spec u t); cbn; intuition (try lia; try discriminate).
Qed.
Lemma filter_negb_split {A} (f g : A -> bool) l :
  length (filter f l) = (length (filter f (filter g l)) + length (filter f (filter (fun x => negb (g x)) l)))%nat.
Proof.
  induction l as [|x l IH]; cbn; [reflexivity|]. destruct (g x); cbn; destruct (f x) eqn:F; cbn; rewrite ?F; cbn; lia.
Qed.
Lemma filter_eq_seq n t : (t < n)%nat -> filter (fun u => Nat.eqb u t) (seq 0 n) = [t].
Proof.
  intros H. induction n as [|n IH]; [lia|]. rewrite seq_S, filter_app. cbn [filter plus].
  destruct (Nat.eqb_spec n t) as [->|N].
  - replace (filter (fun u => Nat.eqb u t) (seq 0 t)) with (@nil nat); [reflexivity|].
    symmetry. clear. assert (G : forall s, (forall u, In u s -> (u < t)%nat) -> filter (fun u => Nat.eqb u t) s = []).
    { induction s as [|a s IH]; intros Hs; cbn; [reflexivity|]. destruct (Nat.eqb_spec a t) as [->|_].
      - specialize (Hs t (or_introl eq_refl)). lia.
      - apply IH. intros; apply Hs; right; assumption. }
    apply G. intros u Hu. apply in_seq in Hu. lia.
  - rewrite IH by lia. reflexivity.
Qed.
Lemma count_others (f : nat -> bool) n t : (t < n)%nat ->
  length (filter f (seq 0 n)) = ((if f t then 1 else 0) + length (filter f (others n t)))%nat.
Proof.
  intros H. rewrite (filter_negb_split f (fun u => Nat.eqb u t)). rewrite filter_eq_seq by exact H.
  unfold others. cbn [filter]. destruct (f t); reflexivity.
Qed.
Lemma others_length n t : (t < n)%nat -> length (others n t) = (n - 1)%nat.
Proof.
  intros H. pose proof (count_others (fun _ => true) n t H) as C. cbn in C.
  assert (G : forall l : list nat, filter (fun _ => true) l = l) by (induction l; cbn; congruence).
  rewrite !G, seq_length in C. lia.
Qed.
Lemma filter_le_len {A} (f : A -> bool) l : (length (filter f l) <= length l)%nat.
Proof. induction l; cbn; [lia|]. destruct (f a); cbn; lia. Qed.
Lemma filter_mono_len {A} (f g : A -> bool) l : (forall x, In x l -> f x = true -> g x = true) -> (length (filter f l) <= length (filter g l))%nat.
Proof.
  induction l as [|a l IH]; intros H; cbn; [lia|].
  specialize (IH ltac:(intros x Hx; apply H; right; exact Hx)).
  destruct (f a) eqn:F; [rewrite (H a (or_introl eq_refl) F); cbn; lia|]. destruct (g a); cbn; lia.
Qed.

Lemma closer_lt n p vars t e : (t < n)%nat -> (closer p n vars t e <= n - 1)%nat.
Proof. intros H. unfold closer. rewrite <- (others_length n t H). apply filter_le_len. Qed.
Lemma within_lt n p vars t e : (t < n)%nat -> (within p n vars t e <= n - 1)%nat.
Proof. intros H. unfold within. rewrite <- (others_length n t H). apply filter_le_len. Qed.
Lemma nbs_lt w n p vars t e : (t < n)%nat -> (nbs w p n vars t e <= n - 1)%nat.
Proof. destruct w; [apply closer_lt|apply within_lt]. Qed.

(** ** the k-th nearest neighbour *)
Definition lt_count (l : list R) (e : R) : nat := length (filter (fun x => if Rlt_dec x e then true else false) l).
Definition le_count (l : list R) (e : R) : nat := length (filter (fun x => if Rle_dec x e then true else false) l).
Lemma filter_len_perm {A} (f : A -> bool) l l' : Permutation l l' -> length (filter f l) = length (filter f l').
Proof. induction 1; cbn; try congruence; [destruct (f x); cbn; congruence|destruct (f x), (f y); reflexivity]. Qed.

Lemma nth_skipn' {A} (d : A) i : forall l j, nth j (skipn i l) d = nth (i + j) l d.
Proof. induction i as [|i IH]; intros [|x l] j; cbn; auto. destruct j; reflexivity. Qed.
Lemma nth_firstn' {A} (d : A) i : forall l j, (j < i)%nat -> nth j (firstn i l) d = nth j l d.
Proof. induction i as [|i IH]; intros [|x l] j H; cbn; try lia; auto. destruct j; [reflexivity|]. apply IH. lia. Qed.

Lemma sorted_counts s i : StronglySorted Rle s -> (i < length s)%nat ->
  (lt_count s (nth i s 0%R) <= i)%nat /\ (i < le_count s (nth i s 0%R))%nat.
Proof.
  intros SS H. pose proof (sorted_le s SS) as L. set (e := nth i s 0).
  assert (X : s = firstn i s ++ skipn i s) by (symmetry; apply firstn_skipn).
  assert (Y : s = firstn (S i) s ++ skipn (S i) s) by (symmetry; apply firstn_skipn).
  split.
  - unfold lt_count. rewrite X, filter_app, app_length.
    replace (filter _ (skipn i s)) with (@nil R).
    + pose proof (filter_le_len (fun x => if Rlt_dec x e then true else false) (firstn i s)). rewrite firstn_length in H0. cbn. lia.
    + symmetry. assert (G : forall l, (forall x, In x l -> e <= x) -> filter (fun x => if Rlt_dec x e then true else false) l = []).
      { induction l as [|a l IH]; intros Hl; cbn; [reflexivity|]. destruct (Rlt_dec a e) as [Q|Q].
        - specialize (Hl a (or_introl eq_refl)). lra.
        - apply IH. intros; apply Hl; right; assumption. }
      apply G. intros x Hx. destruct (In_nth _ _ 0 Hx) as (j & Hj & <-). rewrite skipn_length in Hj.
      rewrite nth_skipn'. apply L. lia.
  - unfold le_count. rewrite Y, filter_app, app_length.
    assert (G : forall l, (forall x, In x l -> x <= e) -> filter (fun x => if Rle_dec x e then true else false) l = l).
    { induction l as [|a l IH]; intros Hl; cbn; [reflexivity|]. destruct (Rle_dec a e) as [Q|Q].
      - f_equal. apply IH. intros; apply Hl; right; assumption.
      - exfalso. apply Q, Hl. left. reflexivity. }
    rewrite G.
    + rewrite firstn_length. lia.
    + intros x Hx. destruct (In_nth _ _ 0 Hx) as (j & Hj & <-). rewrite firstn_length in Hj.
      rewrite nth_firstn' by lia. apply L. lia.
Qed.

Lemma filter_count_map {A} (g : A -> R) (f : R -> bool) l : length (filter f (map g l)) = length (filter (fun x => f (g x)) l).
Proof. apply filter_map_length. Qed.

(** the query of the code (k+1 neighbours, the point itself among them) finds the k-th nearest other sample *)
Lemma query_kth m n vars k t : (t < n)%nat -> (1 <= k < n)%nat ->
  exists e, query m (jrows n vars) (S k) (jrow vars t) = Some e /\ kth_neighbour (np_of m) n vars k t e.
Proof.
  intros Ht Hk. unfold query. cbn [Nat.sub]. rewrite Nat.sub_0_r.
  set (ds := map (dist m (jrow vars t)) (jrows n vars)).
  assert (DS : ds = map (jdist (np_of m) vars t) (seq 0 n)).
  { unfold ds, jrows. rewrite map_map. apply map_ext. intros u. rewrite dist_dst. reflexivity. }
  assert (LD : length (sortR ds) = n) by (rewrite (Permutation_length (sortR_perm ds)), DS, map_length, seq_length; reflexivity).
  destruct (nth_error (sortR ds) k) as [e|] eqn:NE; [|apply nth_error_None in NE; lia].
  exists e. split; [reflexivity|].
  assert (Ek : e = nth k (sortR ds) 0) by (symmetry; apply nth_error_nth; exact NE).
  pose proof (sorted_counts (sortR ds) k (sortR_sorted ds) ltac:(lia)) as [C1 C2]. rewrite <- Ek in C1, C2.
  unfold lt_count in C1. unfold le_count in C2.
  rewrite (filter_len_perm _ _ _ (sortR_perm ds)), DS, filter_count_map, (count_others _ n t Ht), jdist_self in C1.
  rewrite (filter_len_perm _ _ _ (sortR_perm ds)), DS, filter_count_map, (count_others _ n t Ht), jdist_self in C2.
  fold (closer (np_of m) n vars t e) in C1. fold (within (np_of m) n vars t e) in C2.
  assert (IN : In e (map (jdist (np_of m) vars t) (seq 0 n))).
  { rewrite <- DS. apply (Permutation_in e (sortR_perm ds)). rewrite Ek. apply nth_In. lia. }
  apply in_map_iff in IN as (u & Eu & Hu). apply in_seq in Hu.
  assert (E0 : 0 <= e) by (rewrite <- Eu; apply jdist_nonneg).
  destruct (Rle_dec 0 e) as [_|Q]; [|contradiction].
  assert (W : (k <= within (np_of m) n vars t e)%nat) by lia.
  destruct (Rlt_dec 0 e) as [P|P].
  - split; [|split; lia]. exists u. repeat split; [lia| |auto]. intros ->. rewrite jdist_self in Eu. lra.
  - assert (e = 0) by lra. split; [|split; [|exact W]].
    + assert (NE0 : filter (fun u => if Rle_dec (jdist (np_of m) vars t u) e then true else false) (others n t) <> []).
      { intros Z. unfold within in W. rewrite Z in W. cbn in W. lia. }
      destruct (filter _ (others n t)) as [|v rest] eqn:FE; [congruence|].
      assert (Hv : In v (v :: rest)) by (left; reflexivity). rewrite <- FE in Hv. apply filter_In in Hv as [Hv1 Hv2].
      apply others_in in Hv1. exists v. repeat split; try apply Hv1.
      destruct (Rle_dec _ e) as [Q|]; [|discriminate]. pose proof (jdist_nonneg (np_of m) vars t v). lra.
    + unfold closer. rewrite H. replace (filter _ (others n t)) with (@nil nat); [cbn; lia|].
      symmetry. induction (others n t) as [|v l IH]; cbn; [reflexivity|]. pose proof (jdist_nonneg (np_of m) vars t v).
      destruct (Rlt_dec _ 0); [lra|exact IH].
Qed.

Lemma kth_unique p n vars k t e e' : kth_neighbour p n vars k t e -> kth_neighbour p n vars k t e' -> e = e'.
Proof.
  assert (G : forall e e', kth_neighbour p n vars k t e -> kth_neighbour p n vars k t e' -> ~ e < e').
  { intros x y (_ & _ & X) (_ & Y & _) L.
    assert ((within p n vars t x <= closer p n vars t y)%nat); [|lia].
    apply filter_mono_len. intros u _ Q. destruct (Rle_dec _ x) as [Q'|]; [|discriminate]. destruct (Rlt_dec _ y); [reflexivity|lra]. }
  intros H H'. pose proof (G _ _ H H'). pose proof (G _ _ H' H). lra.
Qed.

Lemma query_is_kth m n vars k t e : (t < n)%nat -> (1 <= k < n)%nat -> kth_neighbour (np_of m) n vars k t e ->
  query m (jrows n vars) (S k) (jrow vars t) = Some e.
Proof.
  intros Ht Hk H. destruct (query_kth m n vars k t Ht Hk) as (e' & Q & H'). rewrite Q. f_equal. eapply kth_unique; eauto.
Qed.
Lemma query_none m n vars k x : (n <= k)%nat -> query m (jrows n vars) (S k) x = None.
Proof.
  intros H. unfold query. apply nth_error_None. rewrite (Permutation_length (sortR_perm _)), map_length. unfold jrows.
  rewrite map_length, seq_length. lia.
Qed.

(** ** the digamma terms *)
Definition id_of (w : variant) : Z := match w with Strict => 1 | NonStrict => 2 end.

Lemma ball_jrows m n vars t (f : R -> bool) : length (filter (fun y => f (dist m (jrow vars t) y)) (jrows n vars))
  = length (filter (fun u => f (jdist (np_of m) vars t u)) (seq 0 n)).
Proof. unfold jrows. rewrite filter_map_length. f_equal. apply filter_ext. intros u. rewrite dist_dst. reflexivity. Qed.

Lemma ksg_psi_ok w m n vars t e : (t < n)%nat -> 0 <= e ->
  ksg_psi (id_of w) m (jrows n vars) (jrow vars t) (Some e) = Ok (psi (nbs w (np_of m) n vars t e + 1)).
Proof.
  intros Ht He. unfold ksg_psi. destruct w; cbn [id_of Z.eqb Pos.eqb nbs].
  - unfold ball_lt. rewrite (ball_jrows m n vars t (fun r => if Rlt_dec r e then true else false)), (count_others _ n t Ht), jdist_self.
    fold (closer (np_of m) n vars t e). cbn [edist_pos].
    destruct (Rlt_dec 0 e); (replace (_ - _ + 1)%Z with (Z.of_nat (closer (np_of m) n vars t e + 1)) by lia); apply digamma_ok; lia.
  - unfold ball_le. rewrite (ball_jrows m n vars t (fun r => if Rle_dec r e then true else false)), (count_others _ n t Ht), jdist_self.
    fold (within (np_of m) n vars t e). destruct (Rle_dec 0 e); [|contradiction].
    rewrite (Nat.add_comm 1). apply digamma_ok. lia.
Qed.
(** with an infinite distance every point is counted *)
Lemma ksg_psi_inf w m n vars x : (1 <= n)%nat -> ksg_psi (id_of w) m (jrows n vars) x None = Ok (psi n).
Proof.
  intros Hn. assert (L : length (jrows n vars) = n) by (unfold jrows; rewrite map_length, seq_length; reflexivity).
  unfold ksg_psi. destruct w; cbn [id_of Z.eqb Pos.eqb ball_lt ball_le edist_pos]; rewrite L; [|apply digamma_ok; lia].
  replace (Z.of_nat n - 1 + 1)%Z with (Z.of_nat n) by lia. apply digamma_ok. lia.
Qed.
Lemma psi_k_ok w k : (1 <= k)%nat -> psi_k (id_of w) (Z.of_nat k) = Ok (psi k - corr w k).
Proof.
  intros Hk. unfold psi_k. rewrite digamma_ok by lia. cbn [bind]. f_equal. destruct w; cbn [id_of Z.eqb Pos.eqb corr]; [ring|].
  rewrite <- INR_IZR_INZ. unfold Rdiv. ring.
Qed.
Lemma psi_mono i j : (1 <= i <= j)%nat -> psi i <= psi j.
Proof.
  intros [Hi Hj]. induction Hj as [|j Hj IH]; [lra|]. rewrite psi_S by lia.
  pose proof (Rinv_0_lt_compat (INR j) ltac:(apply lt_0_INR; lia)). lra.
Qed.
Lemma single_jrows n v : length v = n -> jrows n [v] = v.
Proof.
  intros L. unfold jrows. apply nth_ext with [] []; [rewrite map_length, seq_length; auto|].
  intros t Ht. rewrite map_length, seq_length in Ht. rewrite (nth_indep _ [] (jrow [v] 0)) by (rewrite map_length, seq_length; exact Ht).
  rewrite map_nth, seq_nth by exact Ht. unfold jrow. cbn. apply app_nil_r.
Qed.
Lemma single_jrow v t : jrow [v] t = nth t v [].
Proof. unfold jrow. cbn. apply app_nil_r. Qed.
