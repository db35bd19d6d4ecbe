(** C95: ordinal mutual information and transfer entropy see only the order of the values within each series. *)
From Coq Require Import Reals Lra Lia List ZArith Arith Bool Permutation.
From Verif Require Import Res RSum Spec Info Info2 SpecBase Ord SpecTE MBase PBase MTE PTE2 MData MEntropy MMI MGeneric MEst SpecOrd MOrd MDiv POrd PropsOrd POrd2.
Import ListNotations.
Local Open Scope R_scope.

(** every series transformed by its own function *)
Definition transform {T U} (fs : list (T -> U)) (vars : list (list T)) : list (list U) :=
  map (fun fv => map (fst fv) (snd fv)) (combine fs vars).

Section Sym.
Context {T U : Type} `{CT : Cmp T} `{CU : Cmp U} (kt : kind T) (ku : kind U).

(** two series with the same patterns *)
Definition same_symbols (d s : Z) (x : list T) (y : list U) : Prop :=
  length y = length x /\ symbolize ku y d s = symbolize kt x d s.
Lemma same_ord_symbols d s x y : same_symbols d s x y -> ord_symbols ku y d s = ord_symbols kt x d s.
Proof. intros [_ H]. unfold ord_symbols. rewrite H. reflexivity. Qed.
Lemma same_int d s x y : same_symbols d s x y -> symbolize_int ku y d s = symbolize_int kt x d s.
Proof. intros [_ H]. unfold symbolize_int. rewrite H. reflexivity. Qed.
Lemma same_mapM d s xs ys : Forall2 (same_symbols d s) xs ys -> mapM (fun v => ord_symbols ku v d s) ys = mapM (fun v => ord_symbols kt v d s) xs.
Proof. induction 1 as [|x y xs ys H F IH]; cbn; [reflexivity|]. rewrite (same_ord_symbols d s x y H), IH. reflexivity. Qed.
Lemma same_checks d s (x : list T) (y : list U) : length y = length x -> ord_mi_checks y d s = ord_mi_checks x d s.
Proof. intros H. unfold ord_mi_checks. rewrite H. reflexivity. Qed.

Lemma mi_same b xs ys d s : Forall2 (same_symbols d s) xs ys -> mi_ordinal ku b 0 ys d s = mi_ordinal kt b 0 xs d s.
Proof.
  intros F. unfold mi_ordinal, ord_mi_init.
  assert (L : length ys = length xs) by (symmetry; clear - F; induction F; cbn; congruence).
  assert (HL : length (hd [] ys) = length (hd [] xs)) by (destruct F as [|x y xs ys [H _] F]; [reflexivity|exact H]).
  rewrite L, HL.
  replace (forallb (fun a => Nat.eqb (length a) (length (hd [] xs))) ys) with (forallb (fun a => Nat.eqb (length a) (length (hd [] xs))) xs).
  2: { generalize (length (hd [] xs)). clear - F. intros n. induction F as [|x y xs ys [H _] F IH]; cbn; [reflexivity|]. rewrite H, IH. reflexivity. }
  destruct (Nat.ltb (length xs) 2); [reflexivity|]. destruct (Nat.ltb 2 (length xs) && negb (0 =? 0)%Z); [reflexivity|].
  destruct (negb _); [reflexivity|]. cbn [Z.ltb Z.compare bind].
  rewrite (same_checks d s _ _ HL), (same_mapM d s xs ys F). reflexivity.
Qed.
Lemma cmi_same b xs ys z z' d s : Forall2 (same_symbols d s) xs ys -> same_symbols d s z z' -> cmi_ordinal ku b ys z' d s = cmi_ordinal kt b xs z d s.
Proof.
  intros F Z. unfold cmi_ordinal. pose proof (same_mapM d s xs ys F) as M. rewrite (same_ord_symbols d s z z' Z).
  destruct F as [|x y xs ys [L1 S1] F]; [reflexivity|]. destruct F as [|x2 y2 xs ys [L2 S2] F]; [reflexivity|].
  rewrite L1, L2, (proj1 Z). destruct (_ || _); [reflexivity|]. rewrite (same_checks d s x y L1), M. reflexivity.
Qed.
Lemma te_same b x x' y y' d l kk (s : num) rnd : (forall sz, s = NInt sz -> same_symbols d sz x x' /\ same_symbols d sz y y') ->
  te_ordinal ku b x' y' d l kk s rnd = te_ordinal kt b x y d l kk s rnd.
Proof.
  intros H. unfold te_ordinal. destruct s as [sz|]; [|reflexivity]. destruct (H sz eq_refl) as [X Y].
  rewrite (proj1 X), (same_int d sz x x' X), (same_int d sz y y' Y). reflexivity.
Qed.
Lemma cte_same b x x' y y' z z' d l kk m (s : num) : (forall sz, s = NInt sz -> same_symbols d sz x x' /\ same_symbols d sz y y' /\ same_symbols d sz z z') ->
  cte_ordinal ku b x' y' z' d l kk m s = cte_ordinal kt b x y z d l kk m s.
Proof.
  intros H. unfold cte_ordinal. destruct s as [sz|]; [|reflexivity]. destruct (H sz eq_refl) as (X & Y & Z).
  rewrite (proj1 X), (same_int d sz x x' X), (same_int d sz y y' Y), (same_int d sz z z' Z). reflexivity.
Qed.
End Sym.

Section C95.
Context {T U : Type} `{CT : Cmp T} `{CU : Cmp U} (kt : kind T) (ku : kind U).

Lemma stable_same f d s xs : increasing f -> k_stable kt = true -> k_stable ku = true -> same_symbols kt ku d s xs (map f xs).
Proof. intros I A B. split; [apply map_length|]. apply C31_monotone_stable; assumption. Qed.
Lemma tie_free_same f x0 (d s : nat) xs : increasing f -> legal_kind kt -> legal_kind ku -> (1 <= s)%nat -> no_ties x0 xs d s ->
  same_symbols kt ku (Z.of_nat d) (Z.of_nat s) xs (map f xs).
Proof. intros I A B S N. split; [apply map_length|]. apply (C31_monotone_tie_free f kt ku x0); assumption. Qed.

Lemma transform_same d s fs vars : (forall f v, In f fs -> In v vars -> same_symbols kt ku d s v (map f v)) -> length fs = length vars ->
  Forall2 (same_symbols kt ku d s) vars (transform fs vars).
Proof.
  unfold transform. revert vars. induction fs as [|f fs IH]; intros [|v vars] H L; cbn in *; try discriminate; constructor.
  - apply H; left; reflexivity.
  - apply IH; [intros; apply H; right; assumption|lia].
Qed.

Lemma transform_same_k (ka : kind T) (kb : kind U) d s fs vars : (forall f v, In f fs -> In v vars -> same_symbols ka kb d s v (map f v)) -> length fs = length vars ->
  Forall2 (same_symbols ka kb d s) vars (transform fs vars).
Proof.
  unfold transform. revert vars. induction fs as [|f fs IH]; intros [|v vars] H L; cbn in *; try discriminate; constructor.
  - apply H; left; reflexivity.
  - apply IH; [intros; apply H; right; assumption|lia].
Qed.

(** ** with [stable=True]: all data, all parameters, also the same errors *)
Theorem C95_stable_mi : forall fs vars b d s, Forall increasing fs -> length fs = length vars -> k_stable kt = true -> k_stable ku = true ->
  mi_ordinal ku b 0 (transform fs vars) d s = mi_ordinal kt b 0 vars d s.
Proof.
  intros fs vars b d s I L A B. apply mi_same. apply transform_same; [|exact L]. intros f v Hf _. rewrite Forall_forall in I.
  apply stable_same; auto.
Qed.
Theorem C95_stable_cmi : forall fs vars fz z b d s, Forall increasing fs -> increasing fz -> length fs = length vars -> k_stable kt = true -> k_stable ku = true ->
  cmi_ordinal ku b (transform fs vars) (map fz z) d s = cmi_ordinal kt b vars z d s.
Proof.
  intros fs vars fz z b d s I Iz L A B. apply cmi_same; [|apply stable_same; auto]. apply transform_same; [|exact L]. intros f v Hf _. rewrite Forall_forall in I.
  apply stable_same; auto.
Qed.
Theorem C95_stable_te : forall f g xs ys b d l kk s rnd, increasing f -> increasing g -> k_stable kt = true -> k_stable ku = true ->
  te_ordinal ku b (map f xs) (map g ys) d l kk s rnd = te_ordinal kt b xs ys d l kk s rnd.
Proof. intros. apply te_same. intros sz ->. split; apply stable_same; assumption. Qed.
Theorem C95_stable_cte : forall f g h xs ys zs b d l kk m s, increasing f -> increasing g -> increasing h -> k_stable kt = true -> k_stable ku = true ->
  cte_ordinal ku b (map f xs) (map g ys) (map h zs) d l kk m s = cte_ordinal kt b xs ys zs d l kk m s.
Proof. intros. apply cte_same. intros sz ->. repeat split; (apply map_length || apply C31_monotone_stable; assumption). Qed.

(** ** without ties inside a window: whatever the sorting algorithm and [stable] *)
Theorem C95_tie_free_mi : forall x0 fs vars b (d s : nat), Forall increasing fs -> length fs = length vars -> legal_kind kt -> legal_kind ku -> (1 <= s)%nat ->
  Forall (fun v => no_ties x0 v d s) vars ->
  mi_ordinal ku b 0 (transform fs vars) (Z.of_nat d) (Z.of_nat s) = mi_ordinal kt b 0 vars (Z.of_nat d) (Z.of_nat s).
Proof.
  intros x0 fs vars b d s I L A B S N. apply mi_same. apply transform_same; [|exact L]. intros f v Hf Hv. rewrite Forall_forall in I, N.
  apply (tie_free_same f x0); auto.
Qed.
Theorem C95_tie_free_cmi : forall x0 fs vars fz z b (d s : nat), Forall increasing fs -> increasing fz -> length fs = length vars ->
  legal_kind kt -> legal_kind ku -> (1 <= s)%nat -> Forall (fun v => no_ties x0 v d s) vars -> no_ties x0 z d s ->
  cmi_ordinal ku b (transform fs vars) (map fz z) (Z.of_nat d) (Z.of_nat s) = cmi_ordinal kt b vars z (Z.of_nat d) (Z.of_nat s).
Proof.
  intros x0 fs vars fz z b d s I Iz L A B S N Nz. apply cmi_same; [|apply (tie_free_same fz x0); auto].
  apply transform_same; [|exact L]. intros f v Hf Hv. rewrite Forall_forall in I, N. apply (tie_free_same f x0); auto.
Qed.
Theorem C95_tie_free_te : forall x0 f g xs ys b (d s : nat) l kk rnd, increasing f -> increasing g -> legal_kind kt -> legal_kind ku -> (1 <= s)%nat ->
  no_ties x0 xs d s -> no_ties x0 ys d s ->
  te_ordinal ku b (map f xs) (map g ys) (Z.of_nat d) l kk (NInt (Z.of_nat s)) rnd = te_ordinal kt b xs ys (Z.of_nat d) l kk (NInt (Z.of_nat s)) rnd.
Proof. intros. apply te_same. intros sz E. injection E as <-. split; apply (tie_free_same _ x0); assumption. Qed.
Theorem C95_tie_free_cte : forall x0 f g h xs ys zs b (d s : nat) l kk m, increasing f -> increasing g -> increasing h -> legal_kind kt -> legal_kind ku -> (1 <= s)%nat ->
  no_ties x0 xs d s -> no_ties x0 ys d s -> no_ties x0 zs d s ->
  cte_ordinal ku b (map f xs) (map g ys) (map h zs) (Z.of_nat d) l kk m (NInt (Z.of_nat s)) = cte_ordinal kt b xs ys zs (Z.of_nat d) l kk m (NInt (Z.of_nat s)).
Proof.
  intros x0 f g h xs ys zs b d s l kk m I1 I2 I3 A B S N1 N2 N3. apply cte_same. intros sz E. injection E as <-.
  split; [|split]; apply (tie_free_same _ x0); assumption.
Qed.

(** ** joint entropy, cross entropy and the divergences, again without ties *)
Lemma legal_unstable {V} `{Cmp V} (k : kind V) : legal_kind k -> legal_kind (unstable k).
Proof. intros K w. apply K. Qed.

Theorem C95_tie_free_joint_entropy : forall x0 fs vars b (d s : nat), Forall increasing fs -> length fs = length vars -> legal_kind kt -> legal_kind ku -> (1 <= s)%nat ->
  Forall (fun v => no_ties x0 v d s) vars ->
  joint_entropy_ordinal ku b (transform fs vars) (Z.of_nat d) (Z.of_nat s) = joint_entropy_ordinal kt b vars (Z.of_nat d) (Z.of_nat s).
Proof.
  intros x0 fs vars b d s I L A B S N.
  assert (F : Forall2 (same_symbols (unstable kt) (unstable ku) (Z.of_nat d) (Z.of_nat s)) vars (transform fs vars)).
  { apply (transform_same_k (unstable kt) (unstable ku)); [|exact L]. intros f v Hf Hv. rewrite Forall_forall in I, N.
    split; [apply map_length|]. apply (C31_monotone_tie_free f _ _ x0); auto using legal_unstable. }
  unfold joint_entropy_ordinal.
  assert (M : mapM (fun c => symbolize_int (unstable ku) c (Z.of_nat d) (Z.of_nat s)) (transform fs vars) =
              mapM (fun c => symbolize_int (unstable kt) c (Z.of_nat d) (Z.of_nat s)) vars).
  { clear - F. induction F as [|x y xs ys H F IH]; cbn; [reflexivity|]. rewrite (same_int _ _ _ _ x y H), IH. reflexivity. }
  rewrite M. destruct F as [|x y xs ys Hd F]; [reflexivity|].
  assert (Lh : length y = length x) by apply Hd.
  assert (EX : existsb (fun c => negb (Nat.eqb (length c) (length y))) (y :: ys) = existsb (fun c => negb (Nat.eqb (length c) (length x))) (x :: xs)).
  { rewrite Lh. cbn [existsb]. rewrite Lh. f_equal. generalize (length x). clear - F. intros n. induction F as [|a a' l l' [Ha _] F IH]; cbn; [reflexivity|]. rewrite Ha, IH. reflexivity. }
  rewrite EX. unfold ord_init. rewrite Lh. reflexivity.
Qed.

Theorem C95_tie_free_cross_entropy : forall x0 f g xs ys b (d s : nat), increasing f -> increasing g -> legal_kind kt -> legal_kind ku -> (1 <= s)%nat ->
  no_ties x0 xs d s -> no_ties x0 ys d s ->
  cross_entropy_ordinal ku b (map f xs) (map g ys) (Z.of_nat d) (Z.of_nat s) = cross_entropy_ordinal kt b xs ys (Z.of_nat d) (Z.of_nat s).
Proof.
  intros x0 f g xs ys b d s If Ig A B S Nx Ny. unfold cross_entropy_ordinal, symbolize_int.
  rewrite (C31_monotone_tie_free f (unstable kt) (unstable ku) x0 xs d s) by auto using legal_unstable.
  rewrite (C31_monotone_tie_free g (unstable kt) (unstable ku) x0 ys d s) by auto using legal_unstable.
  unfold ord_init. rewrite map_length. reflexivity.
Qed.

Theorem C95_tie_free_kld : forall x0 f g xs ys b (d s : nat), increasing f -> increasing g -> legal_kind kt -> legal_kind ku -> (1 <= s)%nat ->
  valid_base b -> (1 <= d)%nat -> ((d - 1) * s < length xs)%nat -> no_ties x0 xs d s -> no_ties x0 ys d s ->
  kld_ordinal ku b (map f xs) (map g ys) (Z.of_nat d) (Z.of_nat s) = kld_ordinal kt b xs ys (Z.of_nat d) (Z.of_nat s).
Proof.
  intros x0 f g xs ys b d s If Ig A B S V D L Nx Ny. unfold kld_ordinal.
  rewrite (C95_tie_free_cross_entropy x0 f g xs ys b d s) by assumption.
  rewrite (C32_monotone_map f kt ku b x0 xs d s) by assumption. reflexivity.
Qed.

Lemma ltb_inc (f : T -> U) x y : increasing f -> ltb (f x) (f y) = ltb x y.
Proof. intros I. apply ltb_mono. exact I. Qed.
Lemma pairs2_map (f : T -> U) xs : pairs2 (map f xs) = map (fun p => (f (fst p), f (snd p))) (pairs2 xs).
Proof. induction xs as [|x xs IH]; [reflexivity|]. destruct xs as [|y xs]; [reflexivity|]. cbn [map pairs2] in *. rewrite IH. reflexivity. Qed.
Lemma triples3_map (f : T -> U) xs : triples3 (map f xs) = map (fun t => let '(x, y, z) := t in (f x, f y, f z)) (triples3 xs).
Proof.
  induction xs as [|x xs IH]; [reflexivity|]. destruct xs as [|y xs]; [reflexivity|]. destruct xs as [|z xs]; [reflexivity|].
  cbn [map triples3] in *. rewrite IH. reflexivity.
Qed.
Lemma ord_simple_same (f : T -> U) b x0 xs (d s : nat) : increasing f -> legal_kind kt -> legal_kind ku -> (1 <= d)%nat -> (1 <= s)%nat -> ((d - 1) * s + 1 < length xs)%nat -> no_ties x0 xs d s ->
  ord_simple ku b (map f xs) (Z.of_nat d) (Z.of_nat s) = ord_simple kt b xs (Z.of_nat d) (Z.of_nat s).
Proof.
  intros I A B D S LW N. unfold ord_simple. rewrite map_length.
  destruct (Z.eqb_spec (Z.of_nat d) 1) as [E1|E1]; [reflexivity|].
  destruct (Z.eqb_spec ((Z.of_nat d - 1) * Z.of_nat s + 1) (Z.of_nat (length xs))) as [E|E].
  - exfalso. nia.
  - assert (EP : est_probs ku (map f xs) (Z.of_nat d) (Z.of_nat s) = est_probs kt xs (Z.of_nat d) (Z.of_nat s)); [|rewrite EP; reflexivity].
    unfold est_probs. rewrite (C31_monotone_tie_free f kt ku x0 xs d s), map_length by assumption.
    destruct ((Z.of_nat d =? 2) && (Z.of_nat s =? 1))%Z.
    { f_equal. unfold est_dim2. rewrite map_length, pairs2_map, map_map.
      rewrite (map_ext (fun x => ltb (fst (f (fst x), f (snd x))) (snd (f (fst x), f (snd x)))) (fun p => ltb (fst p) (snd p))); [reflexivity|].
      intros [x y]. cbn. apply ltb_inc, I. }
    destruct ((Z.of_nat d =? 3) && (Z.of_nat s =? 1))%Z; [|reflexivity].
    unfold est_dim3. rewrite map_length, triples3_map, map_map.
    rewrite (map_ext (fun x => let '(x1, y, z) := let '(x1, y, z) := x in (f x1, f y, f z) in (ltb x1 y, ltb y z, ltb x1 z))
             (fun t => let '(x, y, z) := t in (ltb x y, ltb y z, ltb x z))); [reflexivity|].
    intros [[x y] z]. rewrite !ltb_inc by exact I. reflexivity.
Qed.

(** Jensen-Shannon: series longer than one window (a single window is keyed by the order of the whole
    series, see [C28_jsd_ordinal_step_refuted]) *)
Theorem C95_tie_free_jsd : forall x0 fs vars b (d s : nat), Forall increasing fs -> length fs = length vars -> legal_kind kt -> legal_kind ku -> (1 <= d)%nat -> (1 <= s)%nat ->
  Forall (fun v => ((d - 1) * s + 1 < length v)%nat /\ no_ties x0 v d s) vars ->
  jsd_ordinal ku b (transform fs vars) (Z.of_nat d) (Z.of_nat s) = jsd_ordinal kt b vars (Z.of_nat d) (Z.of_nat s).
Proof.
  intros x0 fs vars b d s I L A B D S N. unfold jsd_ordinal.
  assert (E : mapM (fun xs => ord_init xs (Z.of_nat d) (Z.of_nat s)) (transform fs vars) = mapM (fun xs => ord_init xs (Z.of_nat d) (Z.of_nat s)) vars /\
              mapM (fun xs => ord_simple ku b xs (Z.of_nat d) (Z.of_nat s)) (transform fs vars) = mapM (fun xs => ord_simple kt b xs (Z.of_nat d) (Z.of_nat s)) vars).
  { unfold transform. revert vars L N. induction I as [|f fs If I IH]; intros [|v vars] L N; try discriminate; [split; reflexivity|].
    apply Forall_cons_iff in N. destruct N as [[LW N1] N]. cbn in L. destruct (IH vars ltac:(lia) N) as [E1 E2].
    cbn [combine map fst snd mapM]. rewrite E1, E2, (ord_simple_same f b x0 v d s) by assumption.
    unfold ord_init. rewrite map_length. split; reflexivity. }
  destruct E as [E1 E2]. rewrite E1, E2. reflexivity.
Qed.
End C95.

(** a series of exactly one window with a step above one is keyed by the order of all its values, also
    those no window looks at: [1,5,2] and [1,0,2] have the same single pattern (first before last) and yet the
    maximal divergence ln 2 *)
Theorem C28_jsd_ordinal_step_refuted : let k := mkKind (@argsort_stable Z _) false in
  symbolize k [1; 5; 2]%Z 2 2 = Ok [[0; 1]]%nat /\ symbolize k [1; 0; 2]%Z 2 2 = Ok [[0; 1]]%nat /\
  jsd_ordinal k BE [[1; 5; 2]; [1; 0; 2]]%Z 2 2 = Ok (ln 2).
Proof.
  intros k. split; [vm_compute; reflexivity|]. split; [vm_compute; reflexivity|].
  assert (S1 : ord_simple k BE [1; 5; 2]%Z 2 2 = Ok (0, Some ([([0; 2; 1]%nat, 1)], [[0; 2; 1]%nat]))) by reflexivity.
  assert (S2 : ord_simple k BE [1; 0; 2]%Z 2 2 = Ok (0, Some ([([1; 0; 2]%nat, 1)], [[1; 0; 2]%nat]))) by reflexivity.
  unfold jsd_ordinal. cbn [mapM]. rewrite S1, S2. cbn [bind].
  change (ord_init [1; 5; 2]%Z 2 2) with (Ok tt). change (ord_init [1; 0; 2]%Z 2 2) with (Ok tt). cbn [bind map fst snd].
  unfold jsd_of. change (nodup eq_dec (concat (map (map fst) [[([0; 2; 1]%nat, 1)]; [([1; 0; 2]%nat, 1)]]))) with ([[0; 2; 1]; [1; 0; 2]]%nat).
  assert (M : map (fun q => sumR (map (fun d => get0 d q) [[([0; 2; 1]%nat, 1)]; [([1; 0; 2]%nat, 1)]]) / INR (length [[([0; 2; 1]%nat, 1)]; [([1; 0; 2]%nat, 1)]])) [[0; 2; 1]; [1; 0; 2]]%nat = [/ 2; / 2]).
  { cbn. f_equal; [|f_equal]; field. }
  rewrite M, plogp_ok; [|exact Logic.I|repeat constructor; lra]. cbn [bind]. f_equal.
  unfold EntVec, sumR; cbn -[ln]. replace (ln (/ 2)) with (- ln 2) by (rewrite ln_Rinv by lra; reflexivity). field.
Qed.
