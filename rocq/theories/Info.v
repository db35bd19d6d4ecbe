(** Facts about the specification: a sample is a list of points, a random variable is a
    function on points.  Everything is reduced to sums over sample points. *)
From Coq Require Import Reals Lra Lia List Permutation Arith Bool.
From Verif Require Import RSum Spec.
Import ListNotations.
Local Open Scope R_scope.

Definition eqb {A} `{EqDec A} (x y : A) : bool := if eq_dec x y then true else false.

Lemma eqb_true {A} `{EqDec A} (x y : A) : eqb x y = true <-> x = y.
Proof. unfold eqb. destruct (eq_dec x y); split; intros; congruence. Qed.
Lemma eqb_eq {A} `{EqDec A} (x y : A) : eqb x y = true -> x = y.
Proof. apply eqb_true. Qed.
Lemma eqb_refl {A} `{EqDec A} (x : A) : eqb x x = true.
Proof. apply eqb_true. reflexivity. Qed.
Lemma eqb_false {A} `{EqDec A} (x y : A) : eqb x y = false <-> x <> y.
Proof. unfold eqb. destruct (eq_dec x y); split; intros; congruence. Qed.
Lemma eqb_neq {A} `{EqDec A} (x y : A) : eqb x y = false -> x <> y.
Proof. apply eqb_false. Qed.
Lemma eqb_sym {A} `{EqDec A} (x y : A) : eqb x y = eqb y x.
Proof. unfold eqb. destruct (eq_dec x y), (eq_dec y x); congruence. Qed.

Section RV.
Context {S : Type}.
Variable l : list S.
Notation n := (INR (length l)).

(** number of sample points where [X] takes the value [a] *)
Definition cnt {A} `{EqDec A} (X : S -> A) (a : A) : R :=
  sumf (fun t => ind (eqb (X t) a)) l.

(** entropy as an average over sample points *)
Definition hs {A} `{EqDec A} (X : S -> A) : R :=
  - (sumf (fun s => ln (cnt X (X s) / n)) l / n).

Lemma nil_or_in : l = [] \/ exists s, In s l.
Proof. destruct l as [|s ls]; [left; reflexivity | right; exists s; left; reflexivity]. Qed.

Definition pair {A B} (X : S -> A) (Y : S -> B) : S -> A * B := fun s => (X s, Y s).

Section One.
Context {A : Type} `{EqDec A}.
Implicit Types (X Y : S -> A).

Lemma cnt_count X a : cnt X a = INR (count (map X l) a).
Proof.
  unfold cnt, count. induction l as [|s ls IH]; [reflexivity|].
  cbn [sumf map count_occ]. rewrite IH. unfold eqb.
  destruct (eq_dec (X s) a); [rewrite S_INR|]; unfold ind; lra.
Qed.

Lemma cnt_nonneg X a : 0 <= cnt X a.
Proof. apply sumf_nonneg. intros. apply ind_bounds. Qed.

Lemma cnt_le_n X a : cnt X a <= n.
Proof.
  unfold cnt. replace n with (sumf (fun _ : S => 1) l) by (rewrite sumf_const; lra).
  apply sumf_le. intros. apply ind_bounds.
Qed.

Lemma cnt_self_ge1 X s : In s l -> 1 <= cnt X (X s).
Proof.
  intros Hs. unfold cnt.
  replace 1 with ((fun t => ind (eqb (X t) (X s))) s) by (cbv beta; rewrite eqb_refl; reflexivity).
  apply (sumf_In_le (fun t => ind (eqb (X t) (X s))) l s); [|exact Hs].
  intros. apply ind_bounds.
Qed.

Lemma cnt_self_pos X s : In s l -> 0 < cnt X (X s).
Proof. intros Hs. pose proof (cnt_self_ge1 X s Hs). lra. Qed.

Lemma n_pos s : In s l -> 0 < n.
Proof. intros Hs. apply INR_pos. destruct l; [destruct Hs|simpl; lia]. Qed.

(** sum over a fibre *)
Lemma fibre_sum X a (g : A -> R) :
  sumf (fun s => ind (eqb (X s) a) * g (X s)) l = cnt X a * g a.
Proof.
  unfold cnt. rewrite <- sumf_scal_r. apply sumf_ext. intros s _.
  destruct (eqb (X s) a) eqn:E; unfold ind; [|lra].
  apply eqb_eq in E. rewrite E. reflexivity.
Qed.

Lemma fibre_inv_le1 X a : sumf (fun s => ind (eqb (X s) a) * / cnt X (X s)) l <= 1.
Proof.
  rewrite (fibre_sum X a (fun v => / cnt X v)).
  destruct (Req_dec (cnt X a) 0) as [E|N]; [rewrite E; lra|].
  rewrite Rinv_r by exact N. lra.
Qed.

Lemma fibre_inv_eq1 X a : cnt X a <> 0 ->
  sumf (fun s => ind (eqb (X s) a) * / cnt X (X s)) l = 1.
Proof.
  intros N. rewrite (fibre_sum X a (fun v => / cnt X v)). apply Rinv_r. exact N.
Qed.

Lemma cnt_zero_notin X a : cnt X a = 0 -> ~ In a (map X l).
Proof.
  rewrite cnt_count. intros E Hin. apply (count_occ_In eq_dec) in Hin.
  unfold count in E. change 0 with (INR 0) in E. apply INR_eq in E. lia.
Qed.

End One.

(** sum over one occurrence of each value *)
Lemma sumf_pick {A} `{EqDec A} (U : list A) (x : A) (g : A -> R) :
  NoDup U -> In x U -> sumf (fun v => ind (eqb x v) * g v) U = g x.
Proof.
  induction U as [|u us IH]; intros ND Hx; [destruct Hx|].
  inversion ND as [|? ? Hnin ND']; subst. cbn [sumf].
  destruct Hx as [->|Hx].
  - rewrite eqb_refl, ind_true.
    rewrite (sumf_ext _ (fun _ => 0)); [rewrite sumf_zero; lra|].
    intros v Hv. replace (eqb x v) with false; [rewrite ind_false; lra|].
    symmetry. apply eqb_false. intros ->. contradiction.
  - rewrite IH by assumption. replace (eqb x u) with false; [rewrite ind_false; lra|].
    symmetry. apply eqb_false. intros ->. contradiction.
Qed.

Lemma sumf_pick0 {A} `{EqDec A} (U : list A) (x : A) (g : A -> R) :
  ~ In x U -> sumf (fun v => ind (eqb x v) * g v) U = 0.
Proof.
  intros Hx. rewrite (sumf_ext _ (fun _ => 0)); [apply sumf_zero|].
  intros v Hv. replace (eqb x v) with false; [rewrite ind_false; lra|].
  symmetry. apply eqb_false. intros ->. contradiction.
Qed.

(** grouping: a count-weighted sum over distinct values is a sum over sample points *)
Lemma group {A} `{EqDec A} (X : S -> A) (U : list A) (g : A -> R) :
  NoDup U -> (forall s, In s l -> In (X s) U) ->
  sumf (fun v => cnt X v * g v) U = sumf (fun s => g (X s)) l.
Proof.
  intros ND Hin.
  transitivity (sumf (fun v => sumf (fun s => ind (eqb (X s) v) * g v) l) U).
  { apply sumf_ext. intros v _. unfold cnt. rewrite sumf_scal_r. reflexivity. }
  rewrite sumf_swap. apply sumf_ext. intros s Hs.
  apply sumf_pick; auto.
Qed.

Lemma hs_eq_Ent {A} `{EqDec A} (X : S -> A) : l <> [] -> Ent (map X l) = hs X.
Proof.
  intros NE. unfold Ent, hs, distinct, prob. rewrite map_length. f_equal.
  assert (Hn : 0 < n) by (apply INR_pos; destruct l; simpl; [congruence|lia]).
  rewrite <- (group X (nodup eq_dec (map X l)) (fun v => ln (cnt X v / n))).
  - rewrite <- sumf_div. apply sumf_ext. intros v _.
    rewrite <- cnt_count. field. lra.
  - apply NoDup_nodup.
  - intros s Hs. apply nodup_In. apply in_map. exact Hs.
Qed.

Lemma cnt_le_imp {A B} `{EqDec A} `{EqDec B} (X : S -> A) (Y : S -> B) s :
  (forall t, In t l -> X t = X s -> Y t = Y s) -> cnt X (X s) <= cnt Y (Y s).
Proof.
  intros Himp. apply sumf_le. intros t Ht.
  destruct (eqb (X t) (X s)) eqn:E; [|rewrite ind_false; apply ind_bounds].
  apply eqb_eq in E. rewrite (Himp t Ht E), eqb_refl. lra.
Qed.

Lemma cnt_partition {A B} `{EqDec A} `{EqDec B} (X : S -> A) (Y : S -> B) s :
  (forall t, In t l -> X t = X s <-> Y t = Y s) -> cnt X (X s) = cnt Y (Y s).
Proof.
  intros Himp. apply Rle_antisym; apply cnt_le_imp; intros t Ht E; apply Himp; auto.
Qed.

(** entropies depend only on which sample points share a value *)
Lemma hs_partition {A B} `{EqDec A} `{EqDec B} (X : S -> A) (Y : S -> B) :
  (forall s t, In s l -> In t l -> (X t = X s <-> Y t = Y s)) -> hs X = hs Y.
Proof.
  intros Hp. unfold hs. f_equal. f_equal. apply sumf_ext. intros s Hs.
  rewrite (cnt_partition X Y s); auto.
Qed.

(** refining a variable does not lower its entropy *)
Lemma hs_refine {A B} `{EqDec A} `{EqDec B} (X : S -> A) (Y : S -> B) :
  (forall s t, In s l -> In t l -> X t = X s -> Y t = Y s) -> hs Y <= hs X.
Proof.
  intros Hp. unfold hs. apply Ropp_le_contravar.
  destruct nil_or_in as [El|[s0 Hs0]]; [rewrite El; simpl; lra|].
  assert (Hn : 0 < n) by (apply (n_pos s0); exact Hs0).
  apply Rmult_le_compat_r; [left; apply Rinv_0_lt_compat; exact Hn|].
  apply sumf_le. intros s Hs.
  apply ln_monotone.
  - apply Rdiv_lt_0_compat; [apply cnt_self_pos; exact Hs|exact Hn].
  - apply Rmult_le_compat_r; [left; apply Rinv_0_lt_compat; exact Hn|].
    apply cnt_le_imp. intros t Ht E. apply (Hp s t); assumption.
Qed.

Lemma hs_const {A} `{EqDec A} (X : S -> A) (c : A) :
  l <> [] -> (forall s, In s l -> X s = c) -> hs X = 0.
Proof.
  intros NE Hc. unfold hs.
  assert (Hn : 0 < n) by (apply INR_pos; destruct l; simpl; [congruence|lia]).
  rewrite (sumf_ext _ (fun _ => 0)); [rewrite sumf_zero; unfold Rdiv; lra|].
  intros s Hs. replace (cnt X (X s)) with n.
  - unfold Rdiv. rewrite Rinv_r by lra. apply ln_1.
  - unfold cnt. rewrite (sumf_ext _ (fun _ => 1)); [rewrite sumf_const; lra|].
    intros t Ht. rewrite (Hc s Hs), (Hc t Ht), eqb_refl. reflexivity.
Qed.

Lemma hs_nonneg {A} `{EqDec A} (X : S -> A) : 0 <= hs X.
Proof.
  destruct nil_or_in as [El|[s0 Hs0]].
  { unfold hs, cnt. rewrite El. simpl. unfold Rdiv. lra. }
  rewrite <- (hs_const (fun _ : S => tt) tt); [|intros E; rewrite E in Hs0; exact Hs0|reflexivity].
  apply hs_refine. reflexivity.
Qed.

(** ** Conditional mutual information *)
Definition cmi_pt {A B C} `{EqDec A} `{EqDec B} `{EqDec C}
    (X : S -> A) (Y : S -> B) (Z : S -> C) (s : S) : R :=
  (cnt (pair (pair X Y) Z) (X s, Y s, Z s) * cnt Z (Z s)) /
  (cnt (pair X Z) (X s, Z s) * cnt (pair Y Z) (Y s, Z s)).

Definition cmi {A B C} `{EqDec A} `{EqDec B} `{EqDec C}
    (X : S -> A) (Y : S -> B) (Z : S -> C) : R :=
  sumf (fun s => ln (cmi_pt X Y Z s)) l / n.

Section CMI.
Context {A B C : Type} `{EqDec A} `{EqDec B} `{EqDec C}.
Variables (X : S -> A) (Y : S -> B) (Z : S -> C).

Lemma cp_xyz s : In s l -> 0 < cnt (pair (pair X Y) Z) (X s, Y s, Z s).
Proof. apply (cnt_self_pos (pair (pair X Y) Z)). Qed.
Lemma cp_xz s : In s l -> 0 < cnt (pair X Z) (X s, Z s).
Proof. apply (cnt_self_pos (pair X Z)). Qed.
Lemma cp_yz s : In s l -> 0 < cnt (pair Y Z) (Y s, Z s).
Proof. apply (cnt_self_pos (pair Y Z)). Qed.

Lemma cmi_pt_pos s : In s l -> 0 < cmi_pt X Y Z s.
Proof.
  intros Hs. unfold cmi_pt. apply Rdiv_lt_0_compat; apply Rmult_lt_0_compat.
  - apply cp_xyz; assumption.
  - apply cnt_self_pos; assumption.
  - apply cp_xz; assumption.
  - apply cp_yz; assumption.
Qed.

Lemma cmi_entropies :
  cmi X Y Z = hs (pair X Z) + hs (pair Y Z) - hs (pair (pair X Y) Z) - hs Z.
Proof.
  destruct nil_or_in as [El|[s0 Hs0]].
  { unfold cmi, cmi_pt, hs, cnt. rewrite El. simpl. unfold Rdiv. lra. }
  assert (Hn : 0 < n) by (apply (n_pos s0); exact Hs0).
  unfold cmi, hs.
  rewrite (sumf_ext _ (fun s =>
     (ln (cnt (pair (pair X Y) Z) (pair (pair X Y) Z s) / n) + ln (cnt Z (Z s) / n))
     - (ln (cnt (pair X Z) (pair X Z s) / n) + ln (cnt (pair Y Z) (pair Y Z s) / n)))).
  - rewrite sumf_minus, !sumf_plus. field. lra.
  - intros s Hs. unfold cmi_pt, pair.
    fold (pair X Z) (pair Y Z) (pair X Y) (pair (pair X Y) Z).
    pose proof (cp_xyz s Hs). pose proof (cp_xz s Hs). pose proof (cp_yz s Hs).
    pose proof (cnt_self_pos Z s Hs).
    rewrite ln_div by (apply Rmult_lt_0_compat; assumption).
    rewrite !ln_mult by assumption. rewrite !ln_div by assumption. lra.
Qed.

(** the double-counting bound *)
Lemma cmi_inv_sum_le : sumf (fun s => / cmi_pt X Y Z s) l <= n.
Proof.
  set (W := pair (pair X Y) Z).
  assert (E : forall s, In s l -> / cmi_pt X Y Z s =
    sumf (fun t => sumf (fun u =>
      (ind (eqb (W s) (X t, Y u, Z t)) * / cnt W (W s)) * (ind (eqb (Z u) (Z t)) * / cnt Z (Z t))) l) l).
  { intros s Hs.
    pose proof (cp_xyz s Hs) as P1. pose proof (cp_xz s Hs) as P2.
    pose proof (cp_yz s Hs) as P3. pose proof (cnt_self_pos Z s Hs) as P4.
    transitivity (sumf (fun t => sumf (fun u =>
      (ind (eqb (pair X Z t) (X s, Z s)) * ind (eqb (pair Y Z u) (Y s, Z s)))
       * (/ cnt W (W s) * / cnt Z (Z s))) l) l).
    - rewrite (sumf_ext _ (fun t => ind (eqb (pair X Z t) (X s, Z s)) *
        (cnt (pair Y Z) (Y s, Z s) * (/ cnt W (W s) * / cnt Z (Z s))))).
      + rewrite sumf_scal_r. unfold cmi_pt. fold (cnt (pair X Z) (X s, Z s)).
        unfold W. change (pair (pair X Y) Z s) with (X s, Y s, Z s).
        field. lra.
      + intros t _. rewrite sumf_scal_r, sumf_scal. unfold cnt. lra.
    - apply sumf_ext. intros t Ht. apply sumf_ext. intros u Hu.
      unfold W, pair.
      destruct (eqb (X t, Z t) (X s, Z s)) eqn:E1.
      + apply eqb_eq in E1. injection E1 as E1x E1z.
        destruct (eqb (Y u, Z u) (Y s, Z s)) eqn:E2.
        * apply eqb_eq in E2. injection E2 as E2y E2z.
          rewrite E1x, E1z, E2y, E2z, !eqb_refl. unfold ind. lra.
        * apply eqb_neq in E2. rewrite E1x, E1z.
          destruct (eqb (X s, Y s, Z s) (X s, Y u, Z s)) eqn:E3; [|unfold ind; lra].
          apply eqb_eq in E3. injection E3 as E3y.
          destruct (eqb (Z u) (Z s)) eqn:E4; [|unfold ind; lra].
          apply eqb_eq in E4. exfalso. apply E2. congruence.
      + apply eqb_neq in E1.
        destruct (eqb (X s, Y s, Z s) (X t, Y u, Z t)) eqn:E3; [|unfold ind; lra].
        apply eqb_eq in E3. exfalso. apply E1. congruence. }
  rewrite (sumf_ext _ _ l E). clear E.
  rewrite sumf_swap.
  rewrite (sumf_ext _ (fun t => sumf (fun u => sumf (fun s =>
      (ind (eqb (W s) (X t, Y u, Z t)) * / cnt W (W s)) * (ind (eqb (Z u) (Z t)) * / cnt Z (Z t))) l) l)).
  2:{ intros t _. rewrite sumf_swap. reflexivity. }
  replace n with (sumf (fun _ : S => 1) l) by (rewrite sumf_const; lra).
  apply sumf_le. intros t Ht.
  apply Rle_trans with (sumf (fun u => ind (eqb (Z u) (Z t)) * / cnt Z (Z t)) l).
  - apply sumf_le. intros u Hu. rewrite sumf_scal_r.
    pose proof (fibre_inv_le1 W (X t, Y u, Z t)).
    assert (0 <= ind (eqb (Z u) (Z t)) * / cnt Z (Z t)).
    { apply Rmult_le_pos; [apply ind_bounds|]. left. apply Rinv_0_lt_compat.
      apply cnt_self_pos; assumption. }
    nra.
  - rewrite sumf_scal_r. fold (cnt Z (Z t)). rewrite Rinv_r; [lra|].
    pose proof (cnt_self_pos Z t Ht). lra.
Qed.

Lemma cmi_nonneg : 0 <= cmi X Y Z.
Proof.
  destruct nil_or_in as [El|[s0 Hs0]].
  { unfold cmi, cmi_pt, cnt. rewrite El. simpl. unfold Rdiv. lra. }
  assert (Hn : 0 < n) by (apply (n_pos s0); exact Hs0).
  unfold cmi. apply Rmult_le_pos; [|left; apply Rinv_0_lt_compat; exact Hn].
  apply Rle_trans with (sumf (fun s => 1 - / cmi_pt X Y Z s) l).
  - rewrite sumf_minus, sumf_const. pose proof cmi_inv_sum_le. lra.
  - apply sumf_le. intros s Hs. apply ln_ge_1inv. apply cmi_pt_pos. exact Hs.
Qed.

(** equality case, first half: CMI zero forces every ratio to one *)
Lemma cmi_zero_pt : cmi X Y Z = 0 -> forall s, In s l -> cmi_pt X Y Z s = 1.
Proof.
  intros E s Hs.
  assert (Hn : 0 < n) by (apply (n_pos s); exact Hs).
  assert (Z0 : sumf (fun s => ln (cmi_pt X Y Z s)) l = 0).
  { unfold cmi in E. apply Rmult_integral in E. destruct E as [E|E]; [exact E|].
    apply Rinv_neq_0_compat in E; [contradiction|lra]. }
  pose proof cmi_inv_sum_le as Hle.
  assert (Hz : sumf (fun s => ln (cmi_pt X Y Z s) - (1 - / cmi_pt X Y Z s)) l = 0).
  { apply Rle_antisym.
    - rewrite !sumf_minus, sumf_const, Z0. lra.
    - apply sumf_nonneg. intros t Ht. pose proof (ln_ge_1inv _ (cmi_pt_pos t Ht)). lra. }
  assert (Hs0 : ln (cmi_pt X Y Z s) - (1 - / cmi_pt X Y Z s) = 0).
  { apply (sumf_zero_all (fun s => ln (cmi_pt X Y Z s) - (1 - / cmi_pt X Y Z s)) l); auto.
    intros t Ht. pose proof (ln_ge_1inv _ (cmi_pt_pos t Ht)). lra. }
  destruct (Req_dec (cmi_pt X Y Z s) 1) as [|N]; [assumption|].
  pose proof (ln_gt_1inv _ (cmi_pt_pos s Hs) N). lra.
Qed.

(** equality case, second half: every combination compatible with Z is observed *)
Lemma cmi_zero_full : cmi X Y Z = 0 ->
  forall t u, In t l -> In u l -> Z u = Z t -> cnt (pair (pair X Y) Z) (X t, Y u, Z t) <> 0.
Proof.
  intros E t0 u0 Ht0 Hu0 Ez Ec.
  assert (Hn : 0 < n) by (apply (n_pos t0); exact Ht0).
  assert (Hsum : sumf (fun s => / cmi_pt X Y Z s) l = n).
  { rewrite (sumf_ext _ (fun _ => 1)); [rewrite sumf_const; lra|].
    intros s Hs. rewrite (cmi_zero_pt E s Hs). apply Rinv_1. }
  (* repeat the double count, now strictly *)
  set (W := pair (pair X Y) Z) in *.
  assert (E2 : sumf (fun s => / cmi_pt X Y Z s) l =
     sumf (fun t => sumf (fun u => sumf (fun s =>
      (ind (eqb (W s) (X t, Y u, Z t)) * / cnt W (W s))) l * (ind (eqb (Z u) (Z t)) * / cnt Z (Z t))) l) l).
  { transitivity (sumf (fun s => sumf (fun t => sumf (fun u =>
      (ind (eqb (W s) (X t, Y u, Z t)) * / cnt W (W s)) * (ind (eqb (Z u) (Z t)) * / cnt Z (Z t))) l) l) l).
    2:{ rewrite sumf_swap. apply sumf_ext. intros t _. rewrite sumf_swap. apply sumf_ext.
        intros u _. rewrite sumf_scal_r. reflexivity. }
    apply sumf_ext. intros s Hs.
    pose proof (cp_xyz s Hs) as P1. pose proof (cp_xz s Hs) as P2.
    pose proof (cp_yz s Hs) as P3. pose proof (cnt_self_pos Z s Hs) as P4.
    transitivity (sumf (fun t => sumf (fun u =>
      (ind (eqb (pair X Z t) (X s, Z s)) * ind (eqb (pair Y Z u) (Y s, Z s)))
       * (/ cnt W (W s) * / cnt Z (Z s))) l) l).
    - rewrite (sumf_ext _ (fun t => ind (eqb (pair X Z t) (X s, Z s)) *
        (cnt (pair Y Z) (Y s, Z s) * (/ cnt W (W s) * / cnt Z (Z s))))).
      + rewrite sumf_scal_r. unfold cmi_pt. fold (cnt (pair X Z) (X s, Z s)).
        unfold W. change (pair (pair X Y) Z s) with (X s, Y s, Z s).
        field. lra.
      + intros t _. rewrite sumf_scal_r, sumf_scal. unfold cnt. lra.
    - apply sumf_ext. intros t Ht. apply sumf_ext. intros u Hu.
      unfold W, pair.
      destruct (eqb (X t, Z t) (X s, Z s)) eqn:E1.
      + apply eqb_eq in E1. injection E1 as E1x E1z.
        destruct (eqb (Y u, Z u) (Y s, Z s)) eqn:E2.
        * apply eqb_eq in E2. injection E2 as E2y E2z.
          rewrite E1x, E1z, E2y, E2z, !eqb_refl. unfold ind. lra.
        * apply eqb_neq in E2. rewrite E1x, E1z.
          destruct (eqb (X s, Y s, Z s) (X s, Y u, Z s)) eqn:E3; [|unfold ind; lra].
          apply eqb_eq in E3. injection E3 as E3y.
          destruct (eqb (Z u) (Z s)) eqn:E4; [|unfold ind; lra].
          apply eqb_eq in E4. exfalso. apply E2. congruence.
      + apply eqb_neq in E1.
        destruct (eqb (X s, Y s, Z s) (X t, Y u, Z t)) eqn:E3; [|unfold ind; lra].
        apply eqb_eq in E3. exfalso. apply E1. congruence. }
  rewrite Hsum in E2.
  set (inner := fun t u => sumf (fun s => ind (eqb (W s) (X t, Y u, Z t)) * / cnt W (W s)) l) in *.
  set (wt := fun t u => ind (eqb (Z u) (Z t)) * / cnt Z (Z t)) in *.
  change (n = sumf (fun t => sumf (fun u => inner t u * wt t u) l) l) in E2.
  assert (Hdiff : sumf (fun t => sumf (fun u => (1 - inner t u) * wt t u) l) l = 0).
  { rewrite (sumf_ext _ (fun t => sumf (fun u => wt t u) l - sumf (fun u => inner t u * wt t u) l)).
    2:{ intros t _. rewrite <- sumf_minus. apply sumf_ext. intros. lra. }
    rewrite sumf_minus. rewrite <- E2.
    rewrite (sumf_ext (fun t => sumf (fun u => wt t u) l) (fun _ => 1)); [rewrite sumf_const; lra|].
    intros t Ht. unfold wt. rewrite sumf_scal_r. fold (cnt Z (Z t)).
    apply Rinv_r. pose proof (cnt_self_pos Z t Ht). lra. }
  assert (Hwt : forall t u, In t l -> 0 <= wt t u).
  { intros t u Ht. apply Rmult_le_pos; [apply ind_bounds|]. left. apply Rinv_0_lt_compat.
    apply cnt_self_pos; assumption. }
  assert (Hnn : forall t u, In t l -> 0 <= (1 - inner t u) * wt t u).
  { intros t u Ht. apply Rmult_le_pos; [|apply Hwt; exact Ht].
    pose proof (fibre_inv_le1 W (X t, Y u, Z t)). unfold inner. lra. }
  assert (Hz0 : sumf (fun u => (1 - inner t0 u) * wt t0 u) l = 0).
  { apply (sumf_zero_all (fun t => sumf (fun u => (1 - inner t u) * wt t u) l) l); auto.
    intros t Ht. apply sumf_nonneg. intros u _. apply Hnn. exact Ht. }
  assert (Hz00 : (1 - inner t0 u0) * wt t0 u0 = 0).
  { apply (sumf_zero_all (fun u => (1 - inner t0 u) * wt t0 u) l); auto. }
  assert (Hin0 : inner t0 u0 = 0).
  { unfold inner. rewrite (fibre_sum W (X t0, Y u0, Z t0) (fun v => / cnt W v)), Ec. lra. }
  rewrite Hin0 in Hz00. unfold wt in Hz00. rewrite Ez, eqb_refl, ind_true in Hz00.
  pose proof (Rinv_0_lt_compat _ (cnt_self_pos Z t0 Ht0)). lra.
Qed.

End CMI.

(** chain rule: I(X;(Y,W)|Z) = I(X;W|Z) + I(X;Y|(W,Z)) *)
Lemma cmi_chain {A B C D} `{EqDec A} `{EqDec B} `{EqDec C} `{EqDec D}
    (X : S -> A) (Y : S -> B) (W : S -> D) (Z : S -> C) :
  cmi X (pair Y W) Z = cmi X W Z + cmi X Y (pair W Z).
Proof.
  rewrite !cmi_entropies.
  rewrite (hs_partition (pair (pair Y W) Z) (pair Y (pair W Z)))
    by (intros s t _ _; unfold pair; rewrite !pair_equal_spec; tauto).
  rewrite (hs_partition (pair (pair X (pair Y W)) Z) (pair (pair X Y) (pair W Z)))
    by (intros s t _ _; unfold pair; rewrite !pair_equal_spec; tauto).
  rewrite (hs_partition (pair (pair X W) Z) (pair X (pair W Z)))
    by (intros s t _ _; unfold pair; rewrite !pair_equal_spec; tauto).
  lra.
Qed.

Lemma cmi_sym {A B C} `{EqDec A} `{EqDec B} `{EqDec C}
    (X : S -> A) (Y : S -> B) (Z : S -> C) : cmi X Y Z = cmi Y X Z.
Proof.
  rewrite !cmi_entropies.
  rewrite (hs_partition (pair (pair X Y) Z) (pair (pair Y X) Z))
    by (intros s t _ _; unfold pair; rewrite !pair_equal_spec; tauto).
  lra.
Qed.

(** CMI only depends on the partitions induced by the variables *)
Lemma cmi_partition {A B C A' B' C'} `{EqDec A} `{EqDec B} `{EqDec C}
    `{EqDec A'} `{EqDec B'} `{EqDec C'}
    (X : S -> A) (Y : S -> B) (Z : S -> C) (X' : S -> A') (Y' : S -> B') (Z' : S -> C') :
  (forall s t, In s l -> In t l -> (X t = X s <-> X' t = X' s)) ->
  (forall s t, In s l -> In t l -> (Y t = Y s <-> Y' t = Y' s)) ->
  (forall s t, In s l -> In t l -> (Z t = Z s <-> Z' t = Z' s)) ->
  cmi X Y Z = cmi X' Y' Z'.
Proof.
  intros HX HY HZ. rewrite !cmi_entropies.
  rewrite (hs_partition (pair X Z) (pair X' Z')).
  2:{ intros s t Hs Ht. specialize (HX s t Hs Ht). specialize (HZ s t Hs Ht).
      unfold pair. rewrite !pair_equal_spec. tauto. }
  rewrite (hs_partition (pair Y Z) (pair Y' Z')).
  2:{ intros s t Hs Ht. specialize (HY s t Hs Ht). specialize (HZ s t Hs Ht).
      unfold pair. rewrite !pair_equal_spec. tauto. }
  rewrite (hs_partition (pair (pair X Y) Z) (pair (pair X' Y') Z')).
  2:{ intros s t Hs Ht. specialize (HX s t Hs Ht). specialize (HY s t Hs Ht). specialize (HZ s t Hs Ht).
      unfold pair. rewrite !pair_equal_spec. tauto. }
  rewrite (hs_partition Z Z') by exact HZ. reflexivity.
Qed.

(** data processing: a function of X shares no more information *)
Lemma cmi_data_processing {A A' B C} `{EqDec A} `{EqDec A'} `{EqDec B} `{EqDec C}
    (X : S -> A) (f : A -> A') (Y : S -> B) (Z : S -> C) :
  cmi (fun s => f (X s)) Y Z <= cmi X Y Z.
Proof.
  rewrite (cmi_sym X Y Z), (cmi_sym (fun s => f (X s)) Y Z).
  rewrite (cmi_partition Y X Z Y (pair X (fun s => f (X s))) Z).
  - rewrite cmi_chain.
    pose proof (cmi_nonneg Y X (pair (fun s => f (X s)) Z)). lra.
  - reflexivity.
  - intros s t _ _. unfold pair. split; [intros E; rewrite E; reflexivity|intros E; inversion E; reflexivity].
  - reflexivity.
Qed.

End RV.
