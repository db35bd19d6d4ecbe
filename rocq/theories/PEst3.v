(** Proofs: Zhang's estimator. *)
From Coq Require Import Reals Lra Lia List ZArith Arith Bool Permutation Sorted.
From Verif Require Import Res RSum Spec SpecGamma SpecEst Info Info2 Ord MBase MData MEntropy MMI MTE MGeneric MEst SpecBase PBase PEntropy PCoo PMI PMI2 PMI3 PCMI PMI4 PCMI2 PMI5 PMI6 PTE PTE2 PGeneric PLog PEst PEst2.
Import ListNotations.
Local Open Scope R_scope.

(** running product of the factors 1 - (n-1)/(N-j), j = 1..k, with N = n + m *)
Fixpoint zP (n m k : nat) : R :=
  match k with
  | O => 1
  | S j => zP n m j * ((INR m - INR j) / (INR n + INR m - 1 - INR j))
  end.

(** comparison of consecutive [m] *)
Lemma zP_ratio n m k : (2 <= n)%nat -> (k <= S m)%nat ->
  zP n (S m) k * ((INR (S m) - INR k) * (INR n + INR (S m) - 1)) =
  zP n m k * (INR (S m) * (INR n + INR (S m) - 1 - INR k)).
Proof.
  intros Hn. induction k as [|k IH]; intros Hk; [simpl zP; change (INR 0) with 0; ring|].
  specialize (IH ltac:(lia)).
  assert (P2 : 2 <= INR n) by (replace 2 with (INR 2) by (simpl; ring); apply le_INR; exact Hn).
  assert (Pk : INR k <= INR m) by (apply le_INR; lia).
  pose proof (pos_INR k). pose proof (pos_INR m).
  cbn [zP]. rewrite !S_INR in *.
  set (a := INR n) in *. set (mm := INR m) in *. set (kk := INR k) in *.
  assert (D1 : a + (mm + 1) - 1 - kk <> 0) by lra.
  assert (D2 : a + mm - 1 - kk <> 0) by lra.
  assert (E : zP n (S m) k * ((mm + 1 - kk) / (a + (mm + 1) - 1 - kk)) * (a + (mm + 1) - 1) = zP n m k * (mm + 1)).
  { transitivity (zP n (S m) k * ((mm + 1 - kk) * (a + (mm + 1) - 1)) / (a + (mm + 1) - 1 - kk)); [field; exact D1|].
    rewrite IH. field. exact D1. }
  transitivity ((zP n (S m) k * ((mm + 1 - kk) / (a + (mm + 1) - 1 - kk)) * (a + (mm + 1) - 1)) * (mm + 1 - (kk + 1))); [ring|].
  rewrite E. field. exact D2.
Qed.

(** the inner sum *)
Definition zsum (n m : nat) : R := sumf (fun k => zP n m k * / INR k) (seq 1 m).

Lemma zP_zero n m : zP n m (S m) = 0.
Proof. cbn [zP]. replace (INR m - INR m) with 0 by ring. unfold Rdiv. ring. Qed.

Lemma zP_tel n m k : (2 <= n)%nat -> (k <= m)%nat ->
  sumf (fun j => zP n m j * ((INR n - 1) / (INR n + INR m - 1 - INR j))) (seq 1 k) = zP n m 1 - zP n m (S k).
Proof.
  intros Hn. induction k as [|k IH]; intros Hk; [simpl sumf; ring|].
  rewrite seq_S, sumf_app, IH by lia. cbn [sumf Nat.add].
  assert (P2 : 2 <= INR n) by (replace 2 with (INR 2) by (simpl; ring); apply le_INR; exact Hn).
  assert (Pk : INR (S k) <= INR m) by (apply le_INR; lia).
  change (zP n m (S (S k))) with (zP n m (S k) * ((INR m - INR (S k)) / (INR n + INR m - 1 - INR (S k)))).
  set (z := zP n m (S k)). field. lra.
Qed.

Lemma zsum_step n m : (2 <= n)%nat -> zsum n (S m) = zsum n m + / (INR n + INR m).
Proof.
  intros Hn.
  assert (P2 : 2 <= INR n) by (replace 2 with (INR 2) by (simpl; ring); apply le_INR; exact Hn).
  pose proof (pos_INR m) as Pm.
  assert (E : zsum n m = sumf (fun k => zP n m k * / INR k) (seq 1 (S m))).
  { rewrite seq_S, sumf_app. cbn [sumf Nat.add]. rewrite zP_zero. unfold zsum. ring. }
  rewrite E. unfold zsum.
  assert (D : sumf (fun k => zP n (S m) k * / INR k) (seq 1 (S m)) - sumf (fun k => zP n m k * / INR k) (seq 1 (S m))
     = / INR (S m) * sumf (fun j => zP n (S m) j * ((INR n - 1) / (INR n + INR (S m) - 1 - INR j))) (seq 1 (S m))).
  { rewrite <- sumf_minus, <- sumf_scal. apply sumf_ext. intros k Hk. apply in_seq in Hk.
    pose proof (zP_ratio n m k Hn ltac:(lia)) as R. pose proof (INR_pos k ltac:(lia)) as Pk.
    assert (Pk2 : INR k <= INR m + 1) by (rewrite <- S_INR; apply le_INR; lia).
    rewrite S_INR in *.
    set (z1 := zP n (S m) k) in *. set (z0 := zP n m k) in *. set (a := INR n) in *. set (mm := INR m) in *. set (kk := INR k) in *.
    assert (Z0 : z0 = z1 * ((mm + 1 - kk) * (a + (mm + 1) - 1)) / ((mm + 1) * (a + (mm + 1) - 1 - kk))).
    { rewrite R. field. lra. }
    rewrite Z0. field. repeat split; lra. }
  rewrite zP_tel in D by lia. rewrite zP_zero in D. cbn [zP] in D. change (INR 0) with 0 in D.
  rewrite S_INR in *.
  assert (X : / (INR m + 1) * (1 * ((INR m + 1 - 0) / (INR n + (INR m + 1) - 1 - 0)) - 0) = / (INR n + INR m)) by (field; lra).
  rewrite X in D. lra.
Qed.

Lemma zsum_harm n m : (1 <= n)%nat -> zsum n m = harm (n + m - 1) - harm (n - 1).
Proof.
  intros Hn. destruct (Nat.eq_dec n 1) as [->|N].
  - assert (P1 : forall k, (k <= m)%nat -> zP 1 m k = 1).
    { induction k as [|k IH]; intros Hk; [reflexivity|]. cbn [zP]. rewrite IH by lia.
      assert (INR k < INR m) by (apply lt_INR; lia). change (INR 1) with 1. field. lra. }
    replace (1 + m - 1)%nat with m by lia. unfold harm at 2. simpl sumf at 1. rewrite Rminus_0_r.
    unfold zsum, harm. apply sumf_ext. intros k Hk. apply in_seq in Hk. rewrite P1 by lia. ring.
  - induction m as [|m IH].
    + unfold zsum. simpl sumf. rewrite Nat.add_0_r. ring.
    + rewrite zsum_step by lia. rewrite IH. replace (n + S m - 1)%nat with (S (n + m - 1)) by lia.
      rewrite harm_S. replace (S (n + m - 1)) with (n + m)%nat by lia. rewrite plus_INR. ring.
Qed.

(** ** the vectorised computation *)
Lemma cumprod_app acc l1 l2 :
  cumprod acc (l1 ++ l2) = cumprod acc l1 ++ cumprod (fold_left Rmult l1 acc) l2.
Proof. revert acc. induction l1 as [|x l1 IH]; intros acc; [reflexivity|]. simpl. f_equal. apply IH. Qed.

(** the running product recorded at position k *)
Lemma cumprod_seq (f : nat -> R) (P : nat -> R) M :
  P 0%nat = 1 -> (forall k, (k < M)%nat -> P (S k) = P k * f (S k)) ->
  cumprod 1 (map f (seq 1 M)) = map P (seq 1 M).
Proof.
  intros P0 PS.
  enough (G : cumprod 1 (map f (seq 1 M)) = map P (seq 1 M) /\ fold_left Rmult (map f (seq 1 M)) 1 = P M) by apply G.
  induction M as [|M IH]; [simpl; auto|].
  destruct IH as [I1 I2]; [intros; apply PS; lia|].
  rewrite seq_S, !map_app. cbn [Nat.add map]. split.
  - rewrite cumprod_app, I1, I2. cbn [cumprod]. rewrite <- PS by lia. reflexivity.
  - rewrite fold_left_app, I2. simpl. rewrite PS by lia. reflexivity.
Qed.

Lemma combine_map2 {A B C} (f : A -> B) (g : A -> C) l : combine (map f l) (map g l) = map (fun x => (f x, g x)) l.
Proof. induction l as [|x l IH]; [reflexivity|]. simpl. rewrite IH. reflexivity. Qed.

Lemma zhang_factor_val N n k : (1 <= n)%nat -> (n <= N)%nat -> (1 <= k)%nat ->
  zhang_factor (Z.of_nat N) (Z.of_nat n) (Z.of_nat k) =
  Ok (if (k <=? N - n)%nat then (INR (N - n) - INR (k - 1)) / (INR n + INR (N - n) - 1 - INR (k - 1)) else 1).
Proof.
  intros Hn HN Hk. unfold zhang_factor.
  destruct (Z.leb_spec (Z.of_nat k) (Z.of_nat N - Z.of_nat n)); destruct (Nat.leb_spec k (N - n)); try lia; [|reflexivity].
  rewrite np_div_ok by (apply not_0_IZR; lia). unfold rmap. cbn [bind]. f_equal.
  replace (Z.of_nat N - Z.of_nat k)%Z with (Z.of_nat (N - k)) by lia. rewrite <- !INR_IZR_INZ.
  rewrite !minus_INR by lia. change (INR 1) with 1.
  assert (INR n + INR k <= INR N) by (rewrite <- plus_INR; apply le_INR; lia).
  assert (1 <= INR n) by (apply (le_INR 1); exact Hn).
  field; repeat split; lra.
Qed.

(** [t2] for one count, for any horizon at least N - n: only the unmasked part counts *)
Lemma zhang_t2_val N n M : (1 <= n)%nat -> (n <= N)%nat -> (N - n <= M)%nat ->
  zhang_t2 (Z.of_nat N) (Z.of_nat M) (Z.of_nat n) = Ok (harm (N - 1) - harm (n - 1)).
Proof.
  intros Hn HN HM. unfold zhang_t2, arange1. rewrite Nat2Z.id.
  rewrite (mapM_map_ok _ _ (fun k => if (k <=? N - n)%nat then (INR (N - n) - INR (k - 1)) / (INR n + INR (N - n) - 1 - INR (k - 1)) else 1)).
  2:{ intros k Hk. apply in_seq in Hk. apply zhang_factor_val; lia. }
  cbn [bind].
  rewrite (cumprod_seq _ (fun k => if (k <=? N - n)%nat then zP n (N - n) k else zP n (N - n) (N - n))).
  - rewrite combine_map2, map_map. cbn [fst snd]. rewrite combine_map2, map_map. cbn [fst snd]. f_equal.
    unfold sumR. rewrite sumf_map.
    replace M with ((N - n) + (M - (N - n)))%nat by lia. rewrite seq_app, sumf_app.
    rewrite (sumf_ext _ (fun k => zP n (N - n) k * / INR k) (seq 1 (N - n))).
    + fold (zsum n (N - n)). rewrite zsum_harm by exact Hn. replace (n + (N - n) - 1)%nat with (N - 1)%nat by lia.
      rewrite (sumf_ext _ (fun _ => 0)); [rewrite sumf_zero; ring|].
      intros k Hk. apply in_seq in Hk. destruct (Z.leb_spec (Z.of_nat k) (Z.of_nat N - Z.of_nat n)); [lia|ring].
    + intros k Hk. apply in_seq in Hk. destruct (Z.leb_spec (Z.of_nat k) (Z.of_nat N - Z.of_nat n)); [|lia].
      destruct (Nat.leb_spec k (N - n)); [|lia]. rewrite <- INR_IZR_INZ. unfold Rdiv. ring.
  - destruct (Nat.leb_spec 0 (N - n)); [reflexivity|lia].
  - intros k Hk. destruct (Nat.leb_spec (S k) (N - n)) as [L|L].
    + destruct (Nat.leb_spec k (N - n)); [|lia]. cbn [zP]. replace (S k - 1)%nat with k by lia. reflexivity.
    + destruct (Nat.leb_spec k (N - n)) as [L2|]; [|ring]. replace k with (N - n)%nat by lia. ring.
Qed.

Lemma minZ_le l x : In x l -> (minZ l <= x)%Z.
Proof.
  destruct l as [|a l]; [intros []|]. unfold minZ.
  assert (G : forall l a, (fold_left Z.min l a <= a)%Z /\ (forall x, In x l -> (fold_left Z.min l a <= x)%Z)).
  { clear. induction l as [|b l IH]; intros a; simpl; [split; [lia|intros ? []]|].
    destruct (IH (Z.min a b)) as [I1 I2]. split; [lia|]. intros x [->|Hx]; [lia|auto]. }
  destruct (G l a) as [G1 G2]. intros [->|Hx]; auto.
Qed.

Lemma minZ_In l : l <> [] -> In (minZ l) l.
Proof.
  destruct l as [|a l]; [congruence|]. intros _. unfold minZ.
  assert (G : forall l a, fold_left Z.min l a = a \/ In (fold_left Z.min l a) l).
  { clear. induction l as [|b l IH]; intros a; [left; reflexivity|]. simpl.
    destruct (IH (Z.min a b)) as [-> |]; [|tauto]. destruct (Z.min_spec a b) as [[_ ->]|[_ ->]]; tauto. }
  destruct (G l a) as [-> |]; [left; reflexivity|right; assumption].
Qed.

(** the horizon [N - min valid count] covers every valid count *)
Lemma zhang_horizon (xs : list Z) (U : list Z) v :
  let N := length xs in
  let vc := filter (zhang_valid (Z.of_nat N)) (map (fun v => Z.of_nat (count xs v)) U) in
  In v U -> (0 < count xs v < N)%nat ->
  exists M, (Z.of_nat N - minZ vc)%Z = Z.of_nat M /\ (N - count xs v <= M)%nat /\ (0 < M)%nat.
Proof.
  intros N vc Hv Hc.
  assert (I : In (Z.of_nat (count xs v)) vc).
  { apply filter_In. split; [apply in_map_iff; exists v; auto|]. unfold zhang_valid.
    apply andb_true_iff. split; apply Z.ltb_lt; lia. }
  assert (NE : vc <> []) by (intros E; rewrite E in I; destruct I).
  pose proof (minZ_le _ _ I) as L. pose proof (minZ_In _ NE) as J. apply filter_In in J. destruct J as [_ J].
  unfold zhang_valid in J. apply andb_true_iff in J. destruct J as [J1 J2]. apply Z.ltb_lt in J1, J2.
  exists (Z.to_nat (Z.of_nat N - minZ vc)). repeat split; lia.
Qed.

Definition zloc (N n : nat) : R := harm (N - 1) - harm (n - 1).

Lemma filter_map_comm {A B} (f : A -> B) (p : B -> bool) l : filter p (map f l) = map f (filter (fun x => p (f x)) l).
Proof. induction l as [|x l IH]; [reflexivity|]. simpl. destruct (p (f x)); simpl; rewrite IH; reflexivity. Qed.

Lemma match_ne {A B} (l : list A) (x y : B) : l <> [] -> match l with [] => x | _ => y end = y.
Proof. destruct l; [congruence|reflexivity]. Qed.

Lemma zhang_ok b xs : valid_base b -> xs <> [] ->
  zhang_simple b (dd_of xs) = Ok (ZhangH xs / unit_of b).
Proof.
  intros V NE. unfold zhang_simple. rewrite dd_N_of, dd_counts_of.
  set (N := length xs). set (cs := map (fun v => Z.of_nat (count xs v)) (unique xs)).
  set (vc := filter (zhang_valid (Z.of_nat N)) cs).
  set (U := filter (fun v => zhang_valid (Z.of_nat N) (Z.of_nat (count xs v))) (unique xs)).
  assert (EU : vc = map (fun v => Z.of_nat (count xs v)) U) by apply filter_map_comm.
  assert (HU : forall v, In v U -> In v (unique xs) /\ (0 < count xs v < N)%nat).
  { intros v Hv. unfold U in Hv. apply filter_In in Hv. destruct Hv as [Hv1 Hv2]. split; [exact Hv1|].
    unfold zhang_valid in Hv2. apply andb_true_iff in Hv2. destruct Hv2 as [Z1 Z2]. apply Z.ltb_lt in Z1, Z2. lia. }
  assert (S0 : ZhangH xs = sumf (fun v => INR (count xs v) / INR N * zloc N (count xs v)) U).
  { unfold ZhangH. rewrite <- bycount_unique. unfold U. rewrite sumf_filter. apply sumf_ext. intros v Hv.
    assert (Hv' : In v xs) by (apply unique_In; exact Hv). apply count_pos in Hv'. pose proof (count_le xs v) as L.
    unfold zhang_valid. destruct (Z.ltb_spec 0 (Z.of_nat (count xs v))); [|lia].
    destruct (Z.ltb_spec (Z.of_nat (count xs v)) (Z.of_nat N)); cbn [andb]; unfold ind, zloc, N; [ring|].
    replace (length xs) with (count xs v) at 2 by (unfold N in *; lia). ring. }
  destruct U as [|u U0] eqn:EqU.
  - rewrite EU. cbn [map]. rewrite S0. simpl. f_equal. unfold Rdiv. ring.
  - rewrite <- EqU in *. assert (Hu : In u U) by (rewrite EqU; left; reflexivity).
    rewrite match_ne by (rewrite EU, EqU; discriminate).
    destruct (HU u Hu) as [Hu1 Hu2].
    destruct (zhang_horizon xs (unique xs) u Hu1 Hu2) as (M & EM & _ & M0). fold N cs vc in EM.
    rewrite EM. destruct (Z.leb_spec (Z.of_nat M) 0); [lia|].
    rewrite EU at 1. rewrite (mapM_map_ok _ _ (fun v => zloc N (count xs v))).
    + cbn [bind]. rewrite to_base_ok by exact V. f_equal. f_equal. rewrite S0, EU, combine_map2, map_map.
      cbn [fst snd]. unfold sumR. rewrite sumf_map. apply sumf_ext. intros v _. rewrite <- !INR_IZR_INZ. ring.
    + intros v Hv. destruct (HU v Hv) as [Hv1 Hv2].
      destruct (zhang_horizon xs (unique xs) v Hv1 Hv2) as (M' & EM' & HM' & _). fold N cs vc in EM'.
      assert (M' = M) by lia. subst M'. apply zhang_t2_val; lia.
Qed.

(** local values *)
Lemma dget_app {V} (l1 l2 : list (Z * V)) k :
  dget (l1 ++ l2) k = match dget l2 k with Some v => Some v | None => dget l1 k end.
Proof.
  induction l1 as [|[a v] l1 IH]; simpl; [destruct (dget l2 k); reflexivity|].
  rewrite IH. destruct (dget l2 k); reflexivity.
Qed.

Lemma dget_none {V} (l : list (Z * V)) k : ~ In k (map fst l) -> dget l k = None.
Proof.
  induction l as [|[a v] l IH]; intros N; [reflexivity|]. simpl in *.
  rewrite IH by tauto. destruct (Z.eq_dec a k); [tauto|reflexivity].
Qed.

Lemma dget_mapped {V} (f : Z -> V) (l : list Z) k : In k l -> dget (map (fun v => (v, f v)) l) k = Some (f k).
Proof. intros H. rewrite <- (dget_combine f l k H). f_equal. rewrite <- (map_id l) at 2. symmetry. apply combine_map2. Qed.

Lemma zhang_local_ok b xs : valid_base b -> xs <> [] ->
  zhang_local b (dd_of xs) = Ok (map (fun x => zloc (length xs) (count xs x) / unit_of b) xs).
Proof.
  intros V NE. unfold zhang_local. rewrite dd_N_of, dd_counts_of. cbn [dd_of dd_uniq]. fold (dd_of xs).
  set (N := length xs).
  replace (combine (unique xs) (map (fun v => Z.of_nat (count xs v)) (unique xs)))
    with (map (fun v => (v, Z.of_nat (count xs v))) (unique xs))
    by (rewrite <- (map_id (unique xs)) at 2; symmetry; apply combine_map2).
  rewrite !filter_map_comm, !map_map. cbn [fst snd].
  set (W := filter (fun v => (Z.of_nat (count xs v) =? 0)%Z || (Z.of_nat N <=? Z.of_nat (count xs v))%Z) (unique xs)).
  set (U := filter (fun v => zhang_valid (Z.of_nat N) (Z.of_nat (count xs v))) (unique xs)).
  assert (HU : forall v, In v U <-> In v (unique xs) /\ (0 < count xs v < N)%nat).
  { intros v. unfold U. rewrite filter_In. unfold zhang_valid. rewrite andb_true_iff, !Z.ltb_lt.
    split; intros [A B]; split; try exact A; lia. }
  assert (HW : forall v, In v xs -> ~ (count xs v < N)%nat -> In v W).
  { intros v Hv Hc. apply filter_In. split; [apply unique_In; exact Hv|]. apply orb_true_iff. right. apply Z.leb_le. lia. }
  set (g := fun v => zloc N (count xs v)).
  assert (HC : exists contrib, (match map (fun v => Z.of_nat (count xs v)) U with
     | [] => Ok (map (fun v => (v, 0)) W)
     | _ => if (Z.of_nat N - minZ (map (fun v => Z.of_nat (count xs v)) U) <=? 0)%Z
            then Ok (map (fun v => (v, 0)) W ++ map (fun v => (v, 0)) U)
            else let* t2 := mapM (zhang_t2 (Z.of_nat N) (Z.of_nat N - minZ (map (fun v => Z.of_nat (count xs v)) U))) (map (fun v => Z.of_nat (count xs v)) U) in
                 Ok (map (fun v => (v, 0)) W ++ combine (map (fun v => v) U) t2) end) = Ok contrib /\
     contrib = map (fun v => (v, 0)) W ++ map (fun v => (v, g v)) U).
  { destruct U as [|u U0] eqn:EqU.
    - eexists. split; [reflexivity|]. simpl. rewrite app_nil_r. reflexivity.
    - rewrite <- EqU in *. assert (Hu : In u U) by (rewrite EqU; left; reflexivity).
      rewrite match_ne by (rewrite EqU; discriminate).
      destruct (proj1 (HU u) Hu) as [Hu1 Hu2].
      destruct (zhang_horizon xs (unique xs) u Hu1 Hu2) as (M & EM & _ & M0).
      rewrite filter_map_comm in EM. fold N U in EM.
      rewrite EM. destruct (Z.leb_spec (Z.of_nat M) 0); [lia|].
      rewrite (mapM_map_ok _ _ g).
      + cbn [bind]. eexists. split; [reflexivity|]. f_equal. apply combine_map2.
      + intros v Hv. destruct (proj1 (HU v) Hv) as [Hv1 Hv2].
        destruct (zhang_horizon xs (unique xs) v Hv1 Hv2) as (M' & EM' & HM' & _). rewrite filter_map_comm in EM'. fold N U in EM'.
        assert (M' = M) by lia. subst M'. apply zhang_t2_val; lia. }
  destruct HC as (contrib & EC & ->). rewrite EC. cbn [bind].
  assert (EL : lookup_data (map (fun v => (v, 0)) W ++ map (fun v => (v, g v)) U) (dd_of xs) = Ok (map g xs)).
  { unfold lookup_data. cbn [dd_data dd_of]. apply mapM_ok. intros x Hx. unfold dget_exn. rewrite dget_app.
    destruct (lt_dec (count xs x) N) as [L|L].
    - rewrite (dget_mapped g U x); [reflexivity|]. apply HU. split; [apply unique_In; exact Hx|].
      apply count_pos in Hx. lia.
    - rewrite (dget_none (map (fun v => (v, g v)) U) x).
      + rewrite (dget_mapped (fun _ => 0) W x) by (apply HW; assumption).
        f_equal. unfold g, zloc. pose proof (count_le xs x). replace (count xs x) with N by (unfold N in *; lia). ring.
      + rewrite map_map. cbn [fst]. rewrite map_id. intros C. apply HU in C. lia. }
  rewrite EL. cbn [bind]. rewrite mapM_to_base by exact V. rewrite map_map. reflexivity.
Qed.

Lemma zhang_mean {A} `{EqDec A} (xs : list A) : sumf (fun x => zloc (length xs) (count xs x)) xs / INR (length xs) = ZhangH xs.
Proof.
  rewrite (sum_samples xs (fun x => zloc (length xs) (count xs x))). unfold ZhangH, bycount.
  rewrite <- sumf_div. apply sumf_ext. intros v _. unfold zloc, Rdiv. ring.
Qed.

Lemma zhang_nonneg {A} `{EqDec A} (xs : list A) : 0 <= ZhangH xs.
Proof.
  apply sumf_nonneg. intros v _. apply Rmult_le_pos.
  - fold (prob xs v). apply prob_nonneg.
  - pose proof (harm_mono (count xs v - 1) (length xs - 1)) as M. pose proof (count_le xs v). specialize (M ltac:(lia)). lra.
Qed.

Lemma zhang_constant {A} `{EqDec A} (v : A) n : ZhangH (repeat v n) = 0.
Proof.
  rewrite <- zhang_mean. rewrite (sumf_ext _ (fun _ => 0)); [rewrite sumf_zero; unfold Rdiv; ring|].
  intros x Hx. apply repeat_spec in Hx. subst x. rewrite count_repeat, repeat_length. unfold zloc. ring.
Qed.
