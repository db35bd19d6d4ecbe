(** Proofs: discrete mutual information as a combination of entropies. *)
From Coq Require Import Reals Lra Lia List ZArith Arith Bool Permutation.
From Verif Require Import Res RSum Spec Info Info2 Ord MBase MData MMI SpecBase PBase PCoo.
Import ListNotations.
Local Open Scope R_scope.

Section MI.
Variable vars : list arr.
Variable N : nat.
Hypothesis Hlen : Forall (fun a => arr_len a = N) vars.
Hypothesis Hne : vars <> [].
Hypothesis HN : (0 < N)%nat.
Notation l := (seq 0 N).
Notation c := (the_coo vars).
Notation rc := (rowc vars).
Notation X := (Xi vars).
Notation k := (length vars).
Notation ents := (combine (coo_coords c) (coo_vals c)).

Lemma cells_mapM (F : list nat * Z -> res R) (G : nat -> R) (H : list nat -> R) :
  (forall t, (t < N)%nat -> H (rc t) = G t) ->
  (forall t, (t < N)%nat ->
     F (rc t, Z.of_nat (count (coo_rows vars) (rc t))) =
     Ok (cnt l rc (rc t) * H (rc t))) ->
  exists ts, mapM F ents = Ok ts /\ sumR ts = sumf G l.
Proof using Hlen Hne HN.
  intros HG HF. exists (map (fun rv => IZR (snd rv) * H (fst rv)) ents). split.
  - apply mapM_ok. intros rv Hrv. rewrite entries_eq in Hrv. apply in_map_iff in Hrv.
    destruct Hrv as [r [<- Hr]]. rewrite unique_In, (coo_rows_eq vars N Hlen Hne) in Hr.
    apply in_map_iff in Hr. destruct Hr as [t [<- Ht]]. apply in_seq in Ht.
    rewrite HF by lia. cbn [fst snd]. rewrite cnt_count, <- (coo_rows_eq vars N Hlen Hne), <- INR_IZR_INZ.
    reflexivity.
  - unfold sumR. rewrite sumf_map. rewrite (cells_sum vars N Hlen Hne H).
    apply sumf_ext. intros t Ht. apply in_seq in Ht. apply HG. lia.
Qed.

Lemma count_rc t : IZR (Z.of_nat (count (coo_rows vars) (rc t))) = cnt l rc (rc t).
Proof using Hlen Hne HN.
  rewrite cnt_count, <- (coo_rows_eq vars N Hlen Hne), <- INR_IZR_INZ. reflexivity.
Qed.

Lemma ndim_eq : ndim c = k.
Proof using Hlen Hne HN. unfold ndim, the_coo. cbn [coo_shape]. apply map_length. Qed.

Lemma INR_N : 0 < INR N. Proof using HN. apply INR_pos. exact HN. Qed.

Lemma cnt_rc_pos t : (t < N)%nat -> 0 < cnt l rc (rc t).
Proof using Hlen Hne HN. intros Ht. apply cnt_self_pos. apply in_seq. clear -Ht. lia. Qed.
Lemma cnt_X_pos i t : (t < N)%nat -> 0 < cnt l (X i) (X i t).
Proof using Hlen Hne HN. intros Ht. apply cnt_self_pos. apply in_seq. clear -Ht. lia. Qed.

(** product of the marginal counts at sample t, and the no-wrap condition *)
Definition outerZ (t : nat) : list Z := map (fun i => nth (X i t) (marginal c i) 0%Z) (seq 0 k).
Definition no_wrap : Prop := forall t, (t < N)%nat -> (prodZ (outerZ t) < 2 ^ 64)%Z.

Lemma outerZ_ge1 t : (t < N)%nat -> Forall (fun z => (1 <= z <= Z.of_nat N)%Z) (outerZ t).
Proof using Hlen Hne HN.
  intros Ht. apply Forall_forall. intros z Hz. unfold outerZ in Hz. apply in_map_iff in Hz.
  destruct Hz as [i [<- Hi]]. apply in_seq in Hi.
  apply (cnt_Z N (X i) t); [apply in_seq; clear -Ht; lia|]. apply marginal_eq; auto. clear -Hi. lia.
Qed.

Lemma no_wrap_small : (Z.of_nat N ^ Z.of_nat k < 2 ^ 64)%Z -> no_wrap.
Proof using Hlen Hne HN.
  intros HB t Ht. pose proof (prodZ_le_pow (outerZ t) (Z.of_nat N) (outerZ_ge1 t Ht)) as P.
  unfold outerZ in P at 2. rewrite map_length, seq_length in P. clear -P HB. lia.
Qed.

Lemma outer_u64 t : (t < N)%nat -> no_wrap ->
  uprod (map (fun i => u64 (nth (nth i (rc t) 0%nat)
           (nth i (map (marginal c) (seq 0 (ndim c))) []) 0%Z)) (seq 0 (ndim c))) = prodZ (outerZ t).
Proof using Hlen Hne HN.
  intros Ht NW. rewrite ndim_eq.
  pose proof (outerZ_ge1 t Ht) as HF. rewrite <- uprod_exact.
  - unfold outerZ. f_equal. apply map_ext_in. intros i Hi. apply in_seq in Hi.
    rewrite nth_map_seq by (clear -Hi; lia). apply u64_small.
    rewrite Forall_forall in HF. specialize (HF (nth (X i t) (marginal c i) 0%Z)).
    assert (I : In (nth (X i t) (marginal c i) 0%Z) (outerZ t)).
    { unfold outerZ. apply in_map_iff. exists i. split; [reflexivity|]. apply in_seq. clear -Hi; lia. }
    specialize (HF I).
    (* each factor is at most the whole product *)
    assert (P : forall zs z, Forall (fun z => (1 <= z)%Z) zs -> In z zs -> (z <= prodZ zs)%Z).
    { clear. induction zs as [|y ys IH]; intros z HF Hz; [destruct Hz|].
      inversion HF as [|? ? Hy HF']; subst. pose proof (prodZ_pos ys HF') as Pp.
      unfold prodZ in *. cbn [fold_right]. destruct Hz as [->|Hz]; [nia|].
      specialize (IH z HF' Hz). nia. }
    assert (Q : (nth (X i t) (marginal c i) 0 <= prodZ (outerZ t))%Z).
    { apply P; [|exact I]. eapply Forall_impl; [|apply outerZ_ge1; exact Ht]. simpl. clear; intros; lia. }
    specialize (NW t Ht). unfold Xi in *. clear -Q NW HF. lia.
  - eapply Forall_impl; [|exact HF]. simpl. clear; intros; lia.
  - apply NW. exact Ht.
Qed.

Lemma ln_outer t : (t < N)%nat ->
  0 < IZR (prodZ (outerZ t)) /\
  ln (IZR (prodZ (outerZ t))) = sumf (fun i => ln (cnt l (X i) (X i t))) (seq 0 k).
Proof using Hlen Hne HN.
  intros Ht. pose proof (outerZ_ge1 t Ht) as HF.
  assert (HF1 : Forall (fun z => (1 <= z)%Z) (outerZ t)).
  { eapply Forall_impl; [|exact HF]. simpl. clear; intros; lia. }
  split.
  - apply IZR_lt. pose proof (prodZ_pos _ HF1) as P. clear -P. lia.
  - rewrite ln_prodZ by exact HF1. unfold outerZ. rewrite sumf_map. apply sumf_ext.
    intros i Hi. apply in_seq in Hi. rewrite (marginal_eq vars N Hlen Hne) by (auto; clear -Hi; lia).
    reflexivity.
Qed.

(** the total: marginal entropies minus joint entropy, in nats *)
Definition mi_value : R := sumf (fun i => hs l (X i)) (seq 0 k) - hs l rc.

Definition Gt (t : nat) : R :=
  (ln (cnt l rc (rc t)) - ln (INR N)
   - sumf (fun i => ln (cnt l (X i) (X i t))) (seq 0 k) + INR k * ln (INR N)).

Lemma Gt_sum : sumf Gt l / INR N = mi_value.
Proof using Hlen Hne HN.
  unfold Gt, mi_value. pose proof INR_N as P.
  rewrite sumf_plus, sumf_minus, sumf_minus, !sumf_const, seq_length.
  rewrite (sumf_swap (fun t i => ln (cnt l (X i) (X i t))) l (seq 0 k)).
  rewrite (sumf_ext (fun i => hs l (X i))
     (fun i => ln (INR N) - sumf (fun t => ln (cnt l (X i) (X i t))) l / INR N)).
  2:{ intros i _. rewrite hs_alt by (apply l_ne; exact HN). rewrite seq_length. reflexivity. }
  rewrite sumf_minus, sumf_const, sumf_div, seq_length.
  rewrite (hs_alt l rc) by (apply l_ne; exact HN). rewrite seq_length. field. lra.
Qed.

Lemma no_early : existsb (fun m => Nat.eqb (length m) 1) (map (marginal c) (seq 0 (ndim c))) =
  existsb (fun a => Nat.eqb (nlevels a) 1) vars.
Proof using Hlen Hne HN.
  assert (E : forall a b, (a = true <-> b = true) -> a = b).
  { intros [] []; intuition congruence. }
  apply E. rewrite !existsb_exists. rewrite ndim_eq. split.
  - intros [m [Hm L]]. apply in_map_iff in Hm. destruct Hm as [i [<- Hi]]. apply in_seq in Hi.
    unfold marginal in L. rewrite map_length, seq_length, shape_nth in L by (clear -Hi; lia).
    exists (nth i vars (A1 [])). split; [apply nth_In; clear -Hi; lia|exact L].
  - intros [a [Ha L]]. destruct (In_nth vars a (A1 []) Ha) as [i [Hi E1]].
    exists (marginal c i). split; [apply in_map_iff; exists i; split; [reflexivity|apply in_seq; clear -Hi; lia]|].
    unfold marginal. rewrite map_length, seq_length, shape_nth by exact Hi. rewrite E1. exact L.
Qed.

Lemma nd_int_ok b mm : valid_base b -> no_wrap ->
  existsb (fun a => Nat.eqb (nlevels a) 1) vars = false ->
  mi_global_nd_int b mm vars =
  add_corr mm (mi_value / unit_of b)
     (fun bb => mm_mi_corr (map nlevels vars) (length (unique (coo_rows vars))) N bb None).
Proof using Hlen Hne HN.
  intros V NW NE. unfold mi_global_nd_int. rewrite (coo_of_ok vars N Hlen Hne). cbn [bind].
  rewrite no_early, NE. pose proof INR_N as P. pose proof (unit_neq0 b V) as U.
  rewrite (coo_sum_eq vars N Hlen Hne).
  destruct (cells_mapM (fun rv =>
        mi_term b (Z.of_nat N) (length (map (marginal c) (seq 0 (ndim c)))) (snd rv)
          (uprod (map (fun i => u64 (nth (nth i (fst rv) 0%nat)
             (nth i (map (marginal c) (seq 0 (ndim c))) []) 0%Z)) (seq 0 (ndim c)))))
     (fun t => Gt t / unit_of b / INR N)
     (fun r => (ln (IZR (Z.of_nat (count (coo_rows vars) r))) - ln (INR N) -
        ln (IZR (uprod (map (fun i => u64 (nth (nth i r 0%nat)
             (nth i (map (marginal c) (seq 0 (ndim c))) []) 0%Z)) (seq 0 (ndim c)))))
        + INR k * ln (INR N)) / unit_of b / INR N)) as [ts [E1 E2]].
  - intros t Ht. rewrite outer_u64 by assumption. rewrite (proj2 (ln_outer t Ht)), count_rc. reflexivity.
  - intros t Ht. cbn [fst snd]. rewrite outer_u64 by assumption. unfold mi_term.
    rewrite count_rc, <- INR_IZR_INZ, np_div_ok by lra. cbn [bind].
    rewrite !log_base_ok by (try exact V; try exact P; try apply cnt_rc_pos; try exact Ht; apply ln_outer; exact Ht).
    cbn [bind]. f_equal. rewrite map_length, seq_length, ndim_eq. field. split; try exact U; lra.
  - rewrite E1. cbn [bind]. rewrite E2.
    rewrite sumf_div, sumf_div. f_equal.
    + rewrite <- Gt_sum. field. split; try exact U; lra.
    + unfold the_coo. cbn [coo_shape coo_vals]. rewrite map_length, (hd_len vars N Hlen Hne). reflexivity.
Qed.

(** local values *)
Lemma mi_local_ok b mm : valid_base b ->
  existsb (fun a => Nat.eqb (nlevels a) 1) vars = false ->
  mi_local b mm vars =
  match mm with
  | None => Ok (map (fun t => Gt t / unit_of b) l)
  | Some bb =>
      let* kk := mm_mi_corr (map nlevels vars) (length (unique (coo_rows vars))) N bb None in
      Ok (map (fun x => x + kk) (map (fun t => Gt t / unit_of b) l))
  end.
Proof using Hlen Hne HN.
  intros V NE. unfold mi_local. rewrite (coo_of_ok vars N Hlen Hne). cbn [bind].
  rewrite no_early, NE. pose proof INR_N as P. pose proof (unit_neq0 b V) as U.
  rewrite (coo_sum_eq vars N Hlen Hne), <- INR_IZR_INZ, (coo_rows_eq vars N Hlen Hne), (hd_len vars N Hlen Hne).
  match goal with |- bind (mapM ?F _) _ = _ => set (FF := F) end.
  assert (E : mapM FF (map rc l) = Ok (map (fun t => Gt t / unit_of b) l)).
  { assert (G : forall m, (forall t, In t m -> (t < N)%nat) -> mapM FF (map rc m) = Ok (map (fun t => Gt t / unit_of b) m)).
    { induction m as [|t m IH]; intros Hm; [reflexivity|]. cbn [map mapM].
      rewrite IH by (intros; apply Hm; right; assumption).
      assert (Ht : (t < N)%nat) by (apply Hm; left; reflexivity).
      assert (EF : FF (rc t) = Ok (Gt t / unit_of b)).
      { unfold FF. rewrite np_div_ok by lra. cbn [bind].
        rewrite (mapM_ok _ (fun i => cnt l (X i) (X i t) / INR N)).
        2:{ intros i Hi. apply in_seq in Hi. rewrite ndim_eq in Hi. rewrite ndim_eq.
            rewrite nth_map_seq by (clear -Hi; lia).
            rewrite np_div_ok by lra. f_equal. f_equal.
            apply (marginal_eq vars N Hlen Hne i t); [clear -Hi; lia|exact Ht]. }
        cbn [bind]. rewrite (cell_eq vars N Hlen Hne).
        assert (LP : forall is, 0 < fold_right Rmult 1 (map (fun i => cnt l (X i) (X i t) / INR N) is) /\
           ln (fold_right Rmult 1 (map (fun i => cnt l (X i) (X i t) / INR N) is)) =
           sumf (fun i => ln (cnt l (X i) (X i t))) is - INR (length is) * ln (INR N)).
        { induction is as [|i is [IH1 IH2]]; [simpl; rewrite ln_1; split; lra|].
          cbn [map fold_right sumf]. pose proof (cnt_X_pos i t Ht).
          assert (0 < cnt l (X i) (X i t) / INR N) by (apply Rdiv_lt_0_compat; assumption).
          split; [apply Rmult_lt_0_compat; assumption|].
          rewrite ln_mult, IH2, ln_div by assumption. cbn [length]. rewrite S_INR. ring. }
        destruct (LP (seq 0 (ndim c))) as [LP1 LP2].
        pose proof (cnt_rc_pos t Ht).
        rewrite !log_base_ok; [|exact V|apply Rdiv_lt_0_compat; assumption|exact V|exact LP1].
        cbn [bind]. f_equal. rewrite LP2, ln_div by assumption. rewrite seq_length, ndim_eq.
        unfold Gt. field. exact U. }
      rewrite EF. reflexivity. }
    apply G. intros t Ht. apply in_seq in Ht. clear -Ht. lia. }
  rewrite E. cbn [bind]. destruct mm; [|reflexivity].
  unfold the_coo. cbn [coo_shape coo_vals]. rewrite map_length, (coo_rows_eq vars N Hlen Hne). reflexivity.
Qed.

Lemma mean_Gt u : mean (map (fun t => Gt t / u) l) = mi_value / u.
Proof using Hlen Hne HN.
  unfold mean. rewrite map_length, seq_length. unfold sumR. rewrite sumf_map, sumf_div, <- Gt_sum.
  unfold Rdiv. ring.
Qed.
End MI.
