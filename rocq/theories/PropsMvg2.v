(** C88: mutual information and transfer entropy with the Gaussian kernel on data of any dimension. *)
From Coq Require Import Reals Lra Lia List ZArith Arith Bool Permutation FunctionalExtensionality.
From Verif Require Import Res RSum Spec SpecTE SpecTEc SpecBase MBase PBase MTE PTE2 MPct MNorm MCont SpecKern SpecGauss MKern PKern PKern2 PKern3 PKern4 PKern5 PTEc PropsKern PropsKern2 PropsKern3 PropsKern5 SpecMvg MGauss PMvg PMvg2 PMvg3 PMvg4 PMvg5 PropsMvg.
Import ListNotations.
Local Open Scope R_scope.

Lemma joint_table n ds vars : tabs n ds vars -> table n (total_dim ds) (joint n vars).
Proof.
  intros T. split; [unfold joint; rewrite map_length, seq_length; reflexivity|]. apply Forall_forall. intros p Hp.
  apply in_map_iff in Hp as (t & <- & Ht). apply in_seq in Ht. apply (jrow_length n ds vars t T). lia.
Qed.

Lemma tabs_fun n (d : nat -> nat) (v : nat -> list pt) ks : (forall k, In k ks -> table n (d k) (v k)) -> tabs n (map d ks) (map v ks).
Proof. induction ks as [|k ks IH]; intros E; cbn; constructor; [apply E; left; reflexivity|apply IH; intros; apply E; right; assumption]. Qed.

Lemma colsof_joint n ds vars : tabs n ds vars -> (0 < n)%nat ->
  colsof (total_dim ds) (joint n vars) = concat (map (fun dv => colsof (fst dv) (snd dv)) (combine ds vars)).
Proof.
  intros T Hn. induction T as [|d v ds vars Tv T IH]; [reflexivity|]. cbn [combine map concat fst snd total_dim fold_right].
  change (fold_right Nat.add 0%nat ds) with (total_dim ds). rewrite <- IH. unfold colsof. rewrite seq_app, map_app. f_equal.
  - apply map_ext_in. intros i Hi. apply in_seq in Hi. unfold column, joint. rewrite map_map.
    rewrite <- (map_nth_seq (fun p => nth i p 0) v []), (proj1 Tv). apply map_ext_in. intros t Ht. apply in_seq in Ht.
    cbn [map concat]. rewrite app_nth1; [reflexivity|]. destruct Tv as [L F]. rewrite Forall_forall in F. rewrite F by (apply nth_In; lia). lia.
  - replace (seq (0 + d) (total_dim ds)) with (map (fun i => (d + i)%nat) (seq 0 (total_dim ds))).
    + rewrite map_map. apply map_ext_in. intros i Hi. unfold column, joint. rewrite !map_map. apply map_ext_in. intros t Ht. apply in_seq in Ht.
      cbn [map concat]. assert (LD : length (nth t v []) = d) by (destruct Tv as [L F]; rewrite Forall_forall in F; apply F, nth_In; lia).
      rewrite app_nth2 by lia. f_equal. lia.
    + clear. generalize (total_dim ds) as m. cbn [Nat.add]. induction m as [|m IH]; [reflexivity|]. rewrite !seq_S, map_app, IH. reflexivity.
Qed.

Section MI.
Variables (c : Z) (eig : nat -> (nat -> nat -> R) -> list (R * (nat -> R))) (h : R) (w : Z) (b : base).
Hypothesis (HC : (0 < c)%Z) (Hh : 0 < h) (HW : workers_ok w) (HV : valid_base b).

(** mutual information of any number of variables of any dimension: the sum of the entropies minus the joint entropy *)
Theorem C88_mi : forall n m (v : nat -> list (list R)) (d : nat -> nat), (2 <= n)%nat -> (2 <= m)%nat ->
  (forall k, (k < m)%nat -> table n (d k) (v k) /\ ready eig (d k) (v k)) ->
  let D := fold_right Nat.add 0%nat (map d (seq 0 m)) in let J := joint n (map v (seq 0 m)) in
  ready eig D J ->
  kernel_mi_local (genv c eig) (gauss_args h w b) (Some 0%Z) false (map (fun k => F2 (v k)) (seq 0 m))
    = Ok (map (fun t => (ln (mvdensity h D J (nth t J []))
                         - sumf (fun k => ln (mvdensity h (d k) (v k) (nth t (v k) []))) (seq 0 m)) / unit_of b) (seq 0 n)) /\
  kernel_mi (genv c eig) (gauss_args h w b) (Some 0%Z) false (map (fun k => F2 (v k)) (seq 0 m))
    = Ok ((sumf (fun k => MvH h (d k) (v k)) (seq 0 m) - MvH h D J) / unit_of b).
Proof using HC Hh HW HV.
  intros n m v d Hn Hm Rk D J Rj.
  assert (T : tabs n (map d (seq 0 m)) (map v (seq 0 m))) by (apply tabs_fun; intros k Hk; apply in_seq in Hk; apply Rk; lia).
  pose proof (joint_table n _ _ T) as TJ. fold J in TJ. change (total_dim (map d (seq 0 m))) with D in TJ.
  assert (INI : fmi_init (Some 0%Z) false (map (fun k => F2 (v k)) (seq 0 m)) = Ok (map v (seq 0 m))).
  { unfold fmi_init. rewrite map_length, seq_length. destruct (Nat.ltb_spec m 2); [lia|]. cbn [Z.eqb negb]. rewrite andb_false_r.
    replace (forallb _ _) with true; [cbn [negb Z.ltb Z.compare bind]; rewrite map_map; reflexivity|]. symmetry. apply forallb_forall. intros a Ha. apply in_map_iff in Ha as (k & <- & Hk).
    apply in_seq in Hk. destruct m as [|m']; [lia|]. cbn [seq map]. cbn [hd flen]. destruct (Rk k ltac:(lia)) as [[L1 _] _]. destruct (Rk 0%nat ltac:(lia)) as [[L2 _] _].
    rewrite L1, L2. apply Nat.eqb_refl. }
  (* densities of each variable, by variable number *)
  set (pj := fun t => mvdensity h D J (nth t J [])). set (pk := fun k t => mvdensity h (d k) (v k) (nth t (v k) [])).
  assert (PJ : forall t, 0 < pj t).
  { intros t. apply mvdensity_pos; [exact Hh| |apply (regular_Piv n D J Hn TJ (proj1 Rj))]. destruct TJ as [L _]. destruct J; [cbn in L; lia|discriminate]. }
  assert (PK : forall k t, (k < m)%nat -> 0 < pk k t).
  { intros k t Hk. destruct (Rk k Hk) as [Tk Rdk]. apply mvdensity_pos; [exact Hh| |apply (regular_Piv n _ _ Hn Tk (proj1 Rdk))].
    destruct Tk as [L _]. destruct (v k); [cbn in L; lia|discriminate]. }
  assert (KJ : kdens (genv c eig) (gauss_args h w b) J = Ok (D1 (map pj (seq 0 n)))) by (apply kdens_mv; assumption).
  assert (KK : forall k, (k < m)%nat -> kdens (genv c eig) (gauss_args h w b) (v k) = Ok (D1 (map (pk k) (seq 0 n)))).
  { intros k Hk. destruct (Rk k Hk). apply kdens_mv; assumption. }
  assert (CS : cstack (map v (seq 0 m)) = Ok J).
  { apply (cstack_ok n); [destruct m; [lia|discriminate]|]. eapply tabs_tables. exact T. }
  assert (F : kernel_mi_form (genv c eig) (gauss_args h w b) (map v (seq 0 m))
     = Ok (map (fun t => (ln (pj t) - sumR (map (fun k => ln (pk k t)) (seq 0 m))) / unit_of b) (seq 0 n))).
  { unfold kernel_mi_form. rewrite CS. cbn [bind]. rewrite KJ. cbn [bind]. rewrite mapM_map.
    rewrite (mapM_ok _ (fun k => D1 (map (pk k) (seq 0 n)))) by (intros k Hk; apply in_seq in Hk; apply KK; lia). cbn [bind gauss_args k_base].
    destruct (base_guard_ok _ HV) as [-> _]. cbn [bind flat]. rewrite map_map, map_length, seq_length. cbn [flat].
    replace (map pj (seq 0 n) :: map (fun k => map (pk k) (seq 0 n)) (seq 0 m)) with (map (fun f => map f (seq 0 n)) (pj :: map pk (seq 0 m)))
      by (cbn [map]; rewrite map_map; reflexivity).
    rewrite rows_of_maps, mapM_map. apply mapM_ok. intros t Ht. cbn [map hd tl]. rewrite map_map.
    set (ps := map (fun k => pk k t) (seq 0 m)).
    assert (HF : Forall (fun x => 0 < x) ps).
    { unfold ps. apply Forall_forall. intros x Hx. apply in_map_iff in Hx as (k & <- & Hk). apply in_seq in Hk. apply PK. lia. }
    pose proof (prod_pos _ HF) as PP. pose proof (PJ t) as PJt.
    unfold np_div. destruct (Req_EM_T _ _) as [X|_]; [lra|]. cbn [bind].
    rewrite log_base_ok; [|exact HV|apply Rdiv_lt_0_compat; assumption]. do 2 f_equal.
    unfold Rdiv. rewrite ln_mult, ln_Rinv, ln_prod; try assumption; [|apply Rinv_0_lt_compat; assumption].
    unfold ps. rewrite map_map. unfold Rminus. f_equal. }
  assert (L : kernel_mi_local (genv c eig) (gauss_args h w b) (Some 0%Z) false (map (fun k => F2 (v k)) (seq 0 m))
     = Ok (map (fun t => (ln (pj t) - sumR (map (fun k => ln (pk k t)) (seq 0 m))) / unit_of b) (seq 0 n))).
  { unfold kernel_mi_local. rewrite INI. cbn [bind]. exact F. }
  split.
  - rewrite L. f_equal. apply map_ext. intros t. unfold sumR. rewrite sumf_map. reflexivity.
  - unfold kernel_mi. rewrite L. cbn [bind]. rewrite mi_mean_gen by lia. unfold sumR. rewrite sumf_map. do 2 f_equal. f_equal.
    + apply sumf_ext. intros k Hk. apply in_seq in Hk. apply LH_mv. apply (Rk k). lia.
    + apply LH_mv. apply TJ.
Qed.

(** it does not depend on the order of the variables *)
Theorem C88_mi_symmetric : forall n m (v : nat -> list (list R)) (d : nat -> nat) (sigma : list nat), (2 <= n)%nat -> (2 <= m)%nat ->
  Permutation sigma (seq 0 m) ->
  (forall k, (k < m)%nat -> table n (d k) (v k) /\ ready eig (d k) (v k)) ->
  let D := fold_right Nat.add 0%nat (map d (seq 0 m)) in
  let J := joint n (map v (seq 0 m)) in let J' := joint n (map v sigma) in
  ready eig D J -> eigen_of D (covar J') (eig D (covar J')) ->
  exists r, kernel_mi (genv c eig) (gauss_args h w b) (Some 0%Z) false (map (fun k => F2 (v k)) (seq 0 m)) = Ok r /\
            kernel_mi (genv c eig) (gauss_args h w b) (Some 0%Z) false (map (fun k => F2 (v k)) sigma) = Ok r.
Proof using HC Hh HW HV.
  intros n m v d sigma Hn Hm P Rk D J J' Rj Ej'. eexists. split; [apply (C88_mi n m v d Hn Hm Rk Rj)|].
  pose proof (Permutation_length P) as LS. rewrite seq_length in LS.
  assert (IS : forall k, (k < m)%nat -> (nth k sigma 0 < m)%nat).
  { intros k Hk. assert (In (nth k sigma 0%nat) (seq 0 m)) as X by (eapply Permutation_in; [exact P|apply nth_In; lia]). apply in_seq in X. lia. }
  assert (Eq : forall {A} (f : nat -> A), map (fun k => f (nth k sigma 0%nat)) (seq 0 m) = map f sigma).
  { intros A f. rewrite <- LS. apply map_nth_seq. }
  assert (T : tabs n (map d (seq 0 m)) (map v (seq 0 m))) by (apply tabs_fun; intros k Hk; apply in_seq in Hk; apply Rk; lia).
  assert (T' : tabs n (map d sigma) (map v sigma)) by (apply tabs_fun; intros k Hk; apply (Permutation_in _ P), in_seq in Hk; apply Rk; lia).
  assert (DD : total_dim (map d sigma) = D).
  { assert (DP : forall l l', Permutation l l' -> total_dim l = total_dim l') by (induction 1; unfold total_dim in *; cbn; lia).
    apply DP. apply Permutation_map. exact P. }
  pose proof (joint_table n _ _ T) as TJ. pose proof (joint_table n _ _ T') as TJ'. fold J in TJ. fold J' in TJ'. rewrite DD in TJ'. change (total_dim (map d (seq 0 m))) with D in TJ.
  assert (PC : Permutation (colsof D J) (colsof D J')).
  { unfold J, J'. rewrite <- DD at 2. change D with (total_dim (map d (seq 0 m))). rewrite !colsof_joint by (assumption || lia).
    assert (CM : forall ks, map (fun dv => colsof (fst dv) (snd dv)) (combine (map d ks) (map v ks)) = map (fun k => colsof (d k) (v k)) ks).
    { induction ks as [|k ks IH]; cbn; [reflexivity|]. rewrite IH. reflexivity. }
    rewrite !CM, <- !flat_map_concat_map. apply Permutation_flat_map. apply Permutation_sym. exact P. }
  assert (Rj' : ready eig D J') by (split; [apply (regular_cols n D J J' TJ TJ' PC), Rj|intros _; exact Ej']).
  fold D J. rewrite (MvH_cols h n D J J' TJ TJ' PC) by (apply (regular_Piv n D J Hn TJ (proj1 Rj))).
  rewrite <- (Eq _ (fun k => F2 (v k))).
  pose proof (C88_mi n m (fun k => v (nth k sigma 0%nat)) (fun k => d (nth k sigma 0%nat)) Hn Hm) as Q. cbv zeta in Q.
  rewrite (Eq _ v), (Eq _ d) in Q. change (fold_right Nat.add 0%nat (map d sigma)) with (total_dim (map d sigma)) in Q. rewrite DD in Q. fold J' in Q.
  rewrite (proj2 (Q (fun k Hk => Rk _ (IS k Hk)) Rj')). do 2 f_equal. f_equal.
  rewrite <- (sumf_perm' (fun k => MvH h (d k) (v k)) _ _ P).
  rewrite <- (sumf_map (fun k => nth k sigma 0%nat) (fun k => MvH h (d k) (v k))), (Eq _ (fun k => k)), map_id. reflexivity.
Qed.

(** ** units *)
Lemma affine_app d D (la lA ls lS : list R) p q : length la = d -> length ls = d -> length p = d ->
  affine (d + D) (fun i => nth i (la ++ lA) 1) (fun i => nth i (ls ++ lS) 0) (p ++ q)
  = affine d (fun i => nth i la 1) (fun i => nth i ls 0) p ++ affine D (fun i => nth i lA 1) (fun i => nth i lS 0) q.
Proof.
  intros L1 L2 L3. unfold affine. rewrite seq_app, map_app. f_equal.
  - apply map_ext_in. intros i Hi. apply in_seq in Hi. rewrite !app_nth1 by lia. reflexivity.
  - replace (seq (0 + d) D) with (map (fun i => (d + i)%nat) (seq 0 D)).
    + rewrite map_map. apply map_ext. intros i. rewrite !app_nth2 by lia. rewrite L1, L2, L3. replace (d + i - d)%nat with i by lia. reflexivity.
    + clear. cbn [Nat.add]. induction D as [|m IH]; [reflexivity|]. rewrite !seq_S, map_app, IH. reflexivity.
Qed.
Definition unitsA (d : nat -> nat) (a : nat -> nat -> R) (ks : list nat) : list R := concat (map (fun k => map (a k) (seq 0 (d k))) ks).
Lemma nth_units (f : nat -> R) D i x : (i < D)%nat -> nth i (map f (seq 0 D)) x = f i.
Proof. intros Hi. rewrite (nth_map_lt f (seq 0 D) 0%nat) by (rewrite seq_length; exact Hi). rewrite seq_nth by exact Hi. reflexivity. Qed.
Lemma joint_affine n (d : nat -> nat) (v : nat -> list pt) (a s : nat -> nat -> R) ks : (forall k, In k ks -> table n (d k) (v k)) ->
  joint n (map (fun k => map (affine (d k) (a k) (s k)) (v k)) ks) =
  map (affine (total_dim (map d ks)) (fun i => nth i (unitsA d a ks) 1) (fun i => nth i (unitsA d s ks) 0)) (joint n (map v ks)).
Proof.
  intros T. unfold joint. rewrite map_map. apply map_ext_in. intros t Ht. apply in_seq in Ht.
  induction ks as [|k ks IH]; [reflexivity|]. destruct (T k (or_introl eq_refl)) as [L F]. rewrite Forall_forall in F.
  cbn [map concat total_dim fold_right]. change (fold_right Nat.add 0%nat (map d ks)) with (total_dim (map d ks)).
  unfold unitsA in *. cbn [map concat]. rewrite affine_app.
  - rewrite <- IH by (intros; apply T; right; assumption). f_equal. rewrite (nth_map_lt _ (v k) []) by lia. unfold affine. apply map_ext_in.
    intros i Hi. apply in_seq in Hi. rewrite !nth_units by lia. reflexivity.
  - rewrite map_length, seq_length. reflexivity.
  - rewrite map_length, seq_length. reflexivity.
  - apply F, nth_In. lia.
Qed.
Lemma units_sum (d : nat -> nat) (a : nat -> nat -> R) ks :
  Sum (total_dim (map d ks)) (fun i => ln (Rabs (nth i (unitsA d a ks) 1))) = sumf (fun k => Sum (d k) (fun i => ln (Rabs (a k i)))) ks.
Proof.
  assert (LU : length (unitsA d a ks) = total_dim (map d ks)).
  { unfold unitsA. induction ks as [|k ks IH]; cbn; [reflexivity|]. rewrite app_length, map_length, seq_length. unfold total_dim in *. lia. }
  rewrite <- LU. rewrite (sumf_nth_seq (fun x => ln (Rabs x)) (unitsA d a ks) 1). unfold unitsA. clear.
  induction ks as [|k ks IH]; cbn; [reflexivity|]. rewrite sumf_app, IH, sumf_map. reflexivity.
Qed.
Lemma units_all (P : R -> Prop) (d : nat -> nat) (a : nat -> nat -> R) ks i : (forall k j, In k ks -> (j < d k)%nat -> P (a k j)) ->
  (i < total_dim (map d ks))%nat -> P (nth i (unitsA d a ks) 1).
Proof.
  intros H Hi. assert (In (nth i (unitsA d a ks) 1) (unitsA d a ks)) as X.
  { apply nth_In. unfold unitsA. revert Hi. clear. revert i. induction ks as [|k ks IH]; intros i Hi; [cbn in Hi; lia|]. cbn [map concat].
    rewrite app_length, map_length, seq_length. cbn [map total_dim fold_right] in Hi. unfold total_dim in IH.
    destruct (Nat.lt_ge_cases i (d k)) as [|G]; [lia|]. specialize (IH (i - d k)%nat ltac:(lia)). lia. }
  unfold unitsA in X at 2. apply in_concat in X as (l & Hl & X). apply in_map_iff in Hl as (k & <- & Hk). apply in_map_iff in X as (j & <- & Hj).
  apply in_seq in Hj. apply H; [exact Hk|lia].
Qed.

(** nor on the units and origins of the variables: enlarging the numbers (factors of absolute value at least 1, so
    that the data stay regular) leaves the mutual information unchanged *)
Theorem C88_mi_units : forall n m (v : nat -> list (list R)) (d : nat -> nat) (a s : nat -> nat -> R), (2 <= n)%nat -> (2 <= m)%nat ->
  (forall k, (k < m)%nat -> table n (d k) (v k) /\ ready eig (d k) (v k)) ->
  (forall k i, (k < m)%nat -> (i < d k)%nat -> 1 <= Rabs (a k i)) ->
  let v' := fun k => map (affine (d k) (a k) (s k)) (v k) in
  let D := fold_right Nat.add 0%nat (map d (seq 0 m)) in
  let J := joint n (map v (seq 0 m)) in let J' := joint n (map v' (seq 0 m)) in
  ready eig D J ->
  (forall k, (k < m)%nat -> eigen_of (d k) (covar (v' k)) (eig (d k) (covar (v' k)))) -> eigen_of D (covar J') (eig D (covar J')) ->
  exists r, kernel_mi (genv c eig) (gauss_args h w b) (Some 0%Z) false (map (fun k => F2 (v k)) (seq 0 m)) = Ok r /\
            kernel_mi (genv c eig) (gauss_args h w b) (Some 0%Z) false (map (fun k => F2 (v' k)) (seq 0 m)) = Ok r.
Proof using HC Hh HW HV.
  intros n m v d a s Hn Hm Rk Ha v' D J J' Rj Ek Ej. eexists. split; [apply (C88_mi n m v d Hn Hm Rk Rj)|].
  assert (TK : forall k, In k (seq 0 m) -> table n (d k) (v k)) by (intros k Hk; apply in_seq in Hk; apply Rk; lia).
  pose proof (joint_table n _ _ (tabs_fun n d v (seq 0 m) TK)) as TJ. fold J in TJ. change (total_dim (map d (seq 0 m))) with D in TJ.
  set (aJ := fun i => nth i (unitsA d a (seq 0 m)) 1). set (sJ := fun i => nth i (unitsA d s (seq 0 m)) 0).
  assert (EJ : J' = map (affine D aJ sJ) J) by (apply (joint_affine n d v a s (seq 0 m) TK)).
  assert (AJ : forall i, (i < D)%nat -> 1 <= Rabs (aJ i)).
  { intros i Hi. apply (units_all (fun x => 1 <= Rabs x)); [|exact Hi]. intros k j Hk Hj. apply in_seq in Hk. apply Ha; [lia|exact Hj]. }
  assert (NZ : forall x, 1 <= Rabs x -> x <> 0) by (intros x Hx ->; rewrite Rabs_R0 in Hx; lra).
  assert (Rj' : ready eig D J').
  { split; [|intros _; exact Ej]. rewrite EJ. apply (regular_affine n); [exact Hn|exact TJ|exact AJ|apply Rj]. }
  assert (Rk' : forall k, (k < m)%nat -> table n (d k) (v' k) /\ ready eig (d k) (v' k)).
  { intros k Hk. destruct (Rk k Hk) as [Tk Rdk]. split; [apply affine_table; exact Tk|]. split; [|intros _; apply Ek; exact Hk].
    apply (regular_affine n); [exact Hn|exact Tk|intros; apply Ha; assumption|apply Rdk]. }
  rewrite (proj2 (C88_mi n m v' d Hn Hm Rk' Rj')). fold D J J'. do 2 f_equal.
  assert (NJ : J <> []) by (destruct TJ as [L _]; destruct J; [cbn in L; lia|discriminate]).
  rewrite EJ, (MvH_affine h D aJ sJ J Hh NJ) by (try (intros; apply NZ, AJ; assumption); apply (regular_Piv n D J Hn TJ (proj1 Rj))).
  unfold aJ. change D with (total_dim (map d (seq 0 m))) at 2. rewrite units_sum.
  rewrite (sumf_ext (fun k => MvH h (d k) (v' k)) (fun k => MvH h (d k) (v k) + Sum (d k) (fun i => ln (Rabs (a k i))))).
  - rewrite sumf_plus. ring.
  - intros k Hk. apply in_seq in Hk. destruct (Rk k ltac:(lia)) as [Tk Rdk]. apply MvH_affine; [exact Hh| | |apply (regular_Piv n _ _ Hn Tk (proj1 Rdk))].
    + destruct Tk as [L _]. destruct (v k); [cbn in L; lia|discriminate].
    + intros i Hi. apply NZ, Ha; [lia|exact Hi].
Qed.

(** ** conditional mutual information of one-dimensional variables *)
Theorem C88_cmi : forall n (cols : list (list R)) (zs : list R), (2 <= n)%nat -> (2 <= length cols)%nat ->
  Forall (fun x => length x = n) cols -> length zs = n ->
  let P := map (fun x => [x]) in let m := length cols in
  let J := joint n (map P (cols ++ [zs])) in
  ready eig (S m) J -> ready eig 1 (P zs) -> (forall x, In x cols -> ready eig 2 (joint n [P x; P zs])) ->
  kernel_cmi (genv c eig) (gauss_args h w b) (Some 0%Z) false (map F1 cols) (F1 zs)
    = Ok ((sumf (fun x => MvH h 2 (joint n [P x; P zs])) cols - MvH h (S m) J - MvH h 1 (P zs)) / unit_of b).
Proof using HC Hh HW HV.
  intros n cols zs Hn Hc L Lz P m J Rj Rz Rk.
  assert (LA : all_len n (cols ++ [zs])) by (apply Forall_app; split; [exact L|repeat constructor; exact Lz]).
  assert (TJ : table n (S m) J).
  { pose proof (joint_table n _ _ (tabs_pts n _ LA)) as X. rewrite total_ones, app_length in X. cbn [length] in X. rewrite Nat.add_1_r in X. exact X. }
  assert (TZ : table n 1 (P zs)) by (apply (pts_table n zs Lz)).
  assert (TK : forall x, In x cols -> table n 2 (joint n [P x; P zs])).
  { intros x Hx. rewrite Forall_forall in L. assert (L2 : all_len n [x; zs]) by (repeat constructor; [apply L, Hx|exact Lz]).
    exact (joint_table n _ _ (tabs_pts n _ L2)). }
  assert (POS : forall d A q, table n d A -> ready eig d A -> 0 < mvdensity h d A q).
  { intros d A q T Rd. apply mvdensity_pos; [exact Hh| |apply (regular_Piv n _ _ Hn T (proj1 Rd))]. destruct T as [LL _]. destruct A; [cbn in LL; lia|discriminate]. }
  assert (INI : fcmi_init false (map F1 cols) (F1 zs) = Ok (map pts cols, pts zs)).
  { unfold fcmi_init. destruct cols as [|c1 [|c2 cl]]; cbn in Hc; try lia. cbn [map flen].
    pose proof (Forall_inv L) as L1. pose proof (Forall_inv (Forall_inv_tail L)) as L2. cbv beta in L1, L2.
    rewrite L1, L2, Lz, Nat.eqb_refl. cbn [negb orb rows2d]. fold (pts c1) (pts c2) (pts zs). rewrite map_map. reflexivity. }
  unfold kernel_cmi, kernel_cmi_local. cbn [bind]. rewrite INI. cbn [bind fst snd].
  rewrite (cmi_form_gen (genv c eig) (gauss_args h w b) n cols zs (fun t => mvdensity h (S m) J (nth t J []))
     (fun t => mvdensity h 1 (P zs) (nth t (P zs) [])) (fun x t => mvdensity h 2 (joint n [P x; P zs]) (nth t (joint n [P x; P zs]) [])));
    auto.
  - cbn [bind]. rewrite cmi_mean_gen by lia. unfold sumR. rewrite sumf_map. rewrite !LH_mv by (apply TJ || apply TZ). do 2 f_equal. f_equal. f_equal.
    apply sumf_ext. intros x Hx. apply LH_mv. apply (TK x Hx).
  - apply (kdens_mv c eig h w b n (S m) J); assumption.
  - intros x Hx. apply (kdens_mv c eig h w b n 2); auto.
  - cbn [map]. rewrite single_rows by apply TZ. apply (kdens_mv c eig h w b n 1); assumption.
Qed.

(** ** transfer entropy: the combination of the four entropies of the embedded series *)
Theorem C88_te : forall n ds dd source dest l k cl s rnd,
  table n ds (rows2d source) -> table n dd (rows2d dest) ->
  (1 <= l)%nat -> (1 <= k)%nat -> (1 <= s)%nat ->
  let d := (Nat.max k l * s)%nat in
  let m := nrows n d s in
  let ts := base_times n d s in
  (d < n)%nat -> (2 <= m)%nat -> rnd_ok rnd m ->
  let X := rnd_rows rnd (past_pts (rows2d source) s l ts) in
  let Z := past_pts (rows2d dest) s k ts in
  let Y := present_pts (rows2d dest) ts in
  ready eig (l * ds + k * dd + dd) (joint m [X; Z; Y]) -> ready eig (k * dd) Z ->
  ready eig (l * ds + k * dd) (joint m [X; Z]) -> ready eig (k * dd + dd) (joint m [Z; Y]) ->
  kernel_te (genv c eig) (gauss_args h w b) source dest (kte_kw l k cl s) rnd =
    Ok ((MvH h (l * ds + k * dd) (joint m [X; Z]) + MvH h (k * dd + dd) (joint m [Z; Y])
         - MvH h (l * ds + k * dd + dd) (joint m [X; Z; Y]) - MvH h (k * dd) Z) / unit_of b).
Proof using HC Hh HW HV.
  intros n ds dd source dest l k cl s rnd Ts Td Hl Hk Hs d m ts Hd Hm Hr X Z Y RJ RZ R1 R2.
  assert (HT : forall t, In t ts -> (d <= t < n)%nat).
  { intros t Ht. unfold ts in Ht. rewrite base_times_In in Ht by exact Hs. tauto. }
  assert (LT : length ts = m) by apply base_times_length.
  assert (TX : table m (l * ds) X).
  { apply rnd_table; [exact Hr|]. rewrite <- LT. apply (past_table n); auto. intros t Ht. specialize (HT t Ht). unfold d in *. nia. }
  assert (TZ : table m (k * dd) Z).
  { rewrite <- LT. apply (past_table n); auto. intros t Ht. specialize (HT t Ht). unfold d in *. nia. }
  assert (TY : table m dd Y).
  { rewrite <- LT. apply (present_table n); auto. intros t Ht. specialize (HT t Ht). lia. }
  assert (TJ : table m (l * ds + k * dd + dd) (joint m [X; Z; Y])).
  { replace (l * ds + k * dd + dd)%nat with (total_dim [l * ds; k * dd; dd]%nat) by (cbn; lia). apply joint_table.
    unfold tabs; repeat (apply Forall2_cons; [assumption|]); apply Forall2_nil. }
  assert (T1 : table m (l * ds + k * dd) (joint m [X; Z])).
  { replace (l * ds + k * dd)%nat with (total_dim [l * ds; k * dd]%nat) by (cbn; lia). apply joint_table.
    unfold tabs; repeat (apply Forall2_cons; [assumption|]); apply Forall2_nil. }
  assert (T2 : table m (k * dd + dd) (joint m [Z; Y])).
  { replace (k * dd + dd)%nat with (total_dim [k * dd; dd]%nat) by (cbn; lia). apply joint_table.
    unfold tabs; repeat (apply Forall2_cons; [assumption|]); apply Forall2_nil. }
  assert (POS : forall d A q, table m d A -> ready eig d A -> 0 < mvdensity h d A q).
  { intros d0 A q T Rd. apply mvdensity_pos; [exact Hh| |apply (regular_Piv m _ _ Hm T (proj1 Rd))]. destruct T as [LL _]. destruct A; [cbn in LL; lia|discriminate]. }
  unfold kernel_te, kernel_te_local, kte_kw. cbn [a_prop a_offset a_step a_src a_dest].
  rewrite fte_init_plain by (destruct Ts, Td; congruence). cbn [bind fst snd].
  rewrite (fte_spaces_ok (rows2d source) (rows2d dest) l k s n rnd Hl Hk Hs (proj1 Ts) (proj1 Td) Hd Hr). cbn [bind].
  fold d. fold m. fold ts. fold X Z Y. rewrite (single_rows m Z) by apply TZ.
  erewrite (te_form_gen (genv c eig) (gauss_args h w b) m);
    [|exact HV|exact Hm|apply (kdens_mv c eig h w b m _ _ HC Hh HW Hm TJ RJ)|apply (kdens_mv c eig h w b m _ _ HC Hh HW Hm TZ RZ)
     |apply (kdens_mv c eig h w b m _ _ HC Hh HW Hm T1 R1)|apply (kdens_mv c eig h w b m _ _ HC Hh HW Hm T2 R2)|intros; repeat split; apply POS; assumption].
  cbn [bind]. rewrite te_mean_gen by lia. rewrite !LH_mv by (apply TJ || apply TZ || apply T1 || apply T2). reflexivity.
Qed.

Theorem C88_cte : forall n ds dd dc source dest cond l k cl s,
  table n ds (rows2d source) -> table n dd (rows2d dest) -> table n dc (rows2d cond) ->
  (1 <= l)%nat -> (1 <= k)%nat -> (1 <= cl)%nat -> (1 <= s)%nat ->
  let d := (Nat.max (Nat.max k l) cl * s)%nat in
  let m := nrows n d s in
  let ts := base_times n d s in
  (d < n)%nat -> (2 <= m)%nat ->
  let X := past_pts (rows2d source) s l ts in
  let Z := past_pts (rows2d dest) s k ts in
  let C := past_pts (rows2d cond) s cl ts in
  let Y := present_pts (rows2d dest) ts in
  ready eig (l * ds + k * dd + dd + cl * dc) (joint m [X; Z; Y; C]) -> ready eig (k * dd + cl * dc) (joint m [Z; C]) ->
  ready eig (l * ds + k * dd + cl * dc) (joint m [X; Z; C]) -> ready eig (k * dd + dd + cl * dc) (joint m [Z; Y; C]) ->
  kernel_cte (genv c eig) (gauss_args h w b) source dest cond (kte_kw l k cl s) =
    Ok ((MvH h (l * ds + k * dd + cl * dc) (joint m [X; Z; C]) + MvH h (k * dd + dd + cl * dc) (joint m [Z; Y; C])
         - MvH h (l * ds + k * dd + dd + cl * dc) (joint m [X; Z; Y; C]) - MvH h (k * dd + cl * dc) (joint m [Z; C])) / unit_of b).
Proof using HC Hh HW HV.
  intros n ds dd dc source dest cond l k cl s Ts Td Tc Hl Hk Hc Hs d m ts Hd Hm X Z C Y RJ RZ R1 R2.
  assert (HT : forall t, In t ts -> (d <= t < n)%nat).
  { intros t Ht. unfold ts in Ht. rewrite base_times_In in Ht by exact Hs. tauto. }
  assert (LT : length ts = m) by apply base_times_length.
  assert (TX : table m (l * ds) X).
  { rewrite <- LT. apply (past_table n); auto. intros t Ht. specialize (HT t Ht). unfold d in *. nia. }
  assert (TZ : table m (k * dd) Z).
  { rewrite <- LT. apply (past_table n); auto. intros t Ht. specialize (HT t Ht). unfold d in *. nia. }
  assert (TC : table m (cl * dc) C).
  { rewrite <- LT. apply (past_table n); auto. intros t Ht. specialize (HT t Ht). unfold d in *. nia. }
  assert (TY : table m dd Y).
  { rewrite <- LT. apply (present_table n); auto. intros t Ht. specialize (HT t Ht). lia. }
  assert (TJ : table m (l * ds + k * dd + dd + cl * dc) (joint m [X; Z; Y; C])).
  { replace (l * ds + k * dd + dd + cl * dc)%nat with (total_dim [l * ds; k * dd; dd; cl * dc]%nat) by (cbn; lia). apply joint_table.
    unfold tabs; repeat (apply Forall2_cons; [assumption|]); apply Forall2_nil. }
  assert (T0 : table m (k * dd + cl * dc) (joint m [Z; C])).
  { replace (k * dd + cl * dc)%nat with (total_dim [k * dd; cl * dc]%nat) by (cbn; lia). apply joint_table.
    unfold tabs; repeat (apply Forall2_cons; [assumption|]); apply Forall2_nil. }
  assert (T1 : table m (l * ds + k * dd + cl * dc) (joint m [X; Z; C])).
  { replace (l * ds + k * dd + cl * dc)%nat with (total_dim [l * ds; k * dd; cl * dc]%nat) by (cbn; lia). apply joint_table.
    unfold tabs; repeat (apply Forall2_cons; [assumption|]); apply Forall2_nil. }
  assert (T2 : table m (k * dd + dd + cl * dc) (joint m [Z; Y; C])).
  { replace (k * dd + dd + cl * dc)%nat with (total_dim [k * dd; dd; cl * dc]%nat) by (cbn; lia). apply joint_table.
    unfold tabs; repeat (apply Forall2_cons; [assumption|]); apply Forall2_nil. }
  assert (POS : forall d A q, table m d A -> ready eig d A -> 0 < mvdensity h d A q).
  { intros d0 A q T Rd. apply mvdensity_pos; [exact Hh| |apply (regular_Piv m _ _ Hm T (proj1 Rd))]. destruct T as [LL _]. destruct A; [cbn in LL; lia|discriminate]. }
  unfold kernel_cte, kernel_cte_local, kte_kw. cbn [a_prop a_offset a_step a_src a_dest a_cond].
  unfold fcte_init. rewrite (proj1 Ts), (proj1 Td), (proj1 Tc), Nat.eqb_refl. cbn [negb orb Z.eqb none_or_0 bind].
  rewrite (fcte_spaces_ok (rows2d source) (rows2d dest) (rows2d cond) l k cl s n Hl Hk Hc Hs (proj1 Ts) (proj1 Td) (proj1 Tc) Hd).
  cbn [bind]. fold d. fold m. fold ts. fold X Z C Y.
  erewrite (te_form_gen (genv c eig) (gauss_args h w b) m);
    [|exact HV|exact Hm|apply (kdens_mv c eig h w b m _ _ HC Hh HW Hm TJ RJ)|apply (kdens_mv c eig h w b m _ _ HC Hh HW Hm T0 RZ)
     |apply (kdens_mv c eig h w b m _ _ HC Hh HW Hm T1 R1)|apply (kdens_mv c eig h w b m _ _ HC Hh HW Hm T2 R2)|intros; repeat split; apply POS; assumption].
  cbn [bind]. rewrite te_mean_gen by lia. rewrite !LH_mv by (apply TJ || apply T0 || apply T1 || apply T2). reflexivity.
Qed.
End MI.
