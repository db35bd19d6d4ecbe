(** Proofs: discrete conditional mutual information as a combination of entropies. *)
From Coq Require Import Reals Lra Lia List ZArith Arith Bool Permutation.
From Verif Require Import Res RSum Spec Info Info2 Ord MBase MData MMI SpecBase PBase PEntropy PCoo PMI PMI2.
Import ListNotations.
Local Open Scope R_scope.

Lemma prodZ_In_le zs z : Forall (fun z => (1 <= z)%Z) zs -> In z zs -> (z <= prodZ zs)%Z.
Proof.
  revert z. induction zs as [|y ys IH]; intros z HF Hz; [destruct Hz|].
  inversion HF as [|? ? Hy HF']; subst. pose proof (prodZ_pos ys HF') as Pp.
  unfold prodZ in *. cbn [fold_right]. destruct Hz as [->|Hz]; [nia|].
  specialize (IH z HF' Hz). nia.
Qed.

Section CMI.
Variable vars : list arr.
Variable zs : list Z.
Variable N : nat.
Hypothesis Hvars : Forall (fun a => arr_len a = N) vars.
Hypothesis Hz : length zs = N.
Hypothesis HN : (0 < N)%nat.
Notation al := (vars ++ [A1 zs]).
Notation l := (seq 0 N).
Notation c := (the_coo al).
Notation rc := (rowc al).
Notation X := (Xi al).
Notation k := (length vars).
Notation XZ i := (pair (X i) (X k)).

Lemma al_len : Forall (fun a => arr_len a = N) al.
Proof using Hvars Hz. apply Forall_app. split; [exact Hvars|]. repeat constructor. exact Hz. Qed.
Lemma al_ne : al <> [].
Proof using. clear. destruct vars; discriminate. Qed.
Lemma al_k : length al = S k.
Proof using. rewrite app_length. simpl. clear. lia. Qed.
Lemma ndim_k : ndim c = S k.
Proof using. unfold ndim, the_coo. cbn [coo_shape]. rewrite map_length. apply al_k. Qed.
Lemma ndim_k1 : (ndim c - 1 = k)%nat.
Proof using. rewrite ndim_k. clear. lia. Qed.
Lemma PN : 0 < INR N. Proof using HN. apply INR_pos. exact HN. Qed.

Lemma XZ_eq i t : (i < k)%nat -> (t < N)%nat ->
  IZR (nth (nth k (rc t) 0%nat) (nth (nth i (rc t) 0%nat) (marginal2 c i k) []) 0%Z) =
  cnt l (XZ i) (X i t, X k t).
Proof using Hvars Hz.
  intros Hi Ht. apply (marginal2_eq al N al_len al_ne i k t); [| |exact Ht]; rewrite al_k; clear -Hi; lia.
Qed.

Lemma Z_eq t : (t < N)%nat -> IZR (nth (nth k (rc t) 0%nat) (marginal c k) 0%Z) = cnt l (X k) (X k t).
Proof using Hvars Hz.
  intros Ht. apply (marginal_eq al N al_len al_ne k t); [|exact Ht]. rewrite al_k; clear; lia.
Qed.

Lemma in_l t : (t < N)%nat -> In t l.
Proof using. intros Ht. apply in_seq. clear -Ht. lia. Qed.

(** joint, conditional and marginal counts at sample t *)
Definition outerC (t : nat) : list Z :=
  map (fun i => nth (nth k (rc t) 0%nat) (nth (nth i (rc t) 0%nat) (marginal2 c i k) []) 0%Z) (seq 0 k).

Lemma outerC_ge1 t : (t < N)%nat -> Forall (fun z => (1 <= z <= Z.of_nat N)%Z) (outerC t).
Proof using Hvars Hz.
  intros Ht. apply Forall_forall. intros z Hin. unfold outerC in Hin. apply in_map_iff in Hin.
  destruct Hin as [i [<- Hi]]. apply in_seq in Hi.
  apply (cnt_Z N (XZ i) t); [apply in_l; exact Ht|]. apply XZ_eq; [clear -Hi; lia|exact Ht].
Qed.
Lemma outerC_ge1' t : (t < N)%nat -> Forall (fun z => (1 <= z)%Z) (outerC t).
Proof using Hvars Hz.
  intros Ht. eapply Forall_impl; [|exact (outerC_ge1 t Ht)]. simpl. clear. intros; lia.
Qed.

(** total count is below the wrap-around bound *)
Definition cmi_small : Prop := (Z.of_nat N ^ Z.of_nat (Nat.max 2 k) < 2 ^ 64)%Z.

Lemma outerC_u64 t : (t < N)%nat -> cmi_small ->
  uprod (map (fun i => u64 (nth (nth k (rc t) 0%nat) (nth (nth i (rc t) 0%nat)
       (nth i (map (fun i => marginal2 c i k) (seq 0 k)) []) []) 0%Z)) (seq 0 k)) = prodZ (outerC t).
Proof using Hvars Hz HN.
  intros Ht SM. pose proof (outerC_ge1 t Ht) as HF. pose proof (outerC_ge1' t Ht) as HF1.
  assert (B : (prodZ (outerC t) < 2 ^ 64)%Z).
  { pose proof (prodZ_le_pow (outerC t) (Z.of_nat N) HF) as Q.
    unfold outerC in Q at 2. rewrite map_length, seq_length in Q. unfold cmi_small in SM.
    assert (Z.of_nat N ^ Z.of_nat k <= Z.of_nat N ^ Z.of_nat (Nat.max 2 k))%Z
      by (apply Z.pow_le_mono_r; clear -HN; lia). clear -Q SM H. lia. }
  rewrite <- uprod_exact by assumption. unfold outerC. f_equal. apply map_ext_in. intros i Hi.
  assert (Hi' := Hi). apply in_seq in Hi. rewrite nth_map_seq by (clear -Hi; lia). apply u64_small.
  match goal with |- (0 <= ?e < _)%Z => assert (I : In e (outerC t)) end.
  { unfold outerC. apply in_map_iff. exists i. split; [reflexivity|exact Hi']. }
  pose proof (prodZ_In_le _ _ HF1 I) as Q. rewrite Forall_forall in HF1. specialize (HF1 _ I).
  clear -Q B HF1. simpl in HF1. lia.
Qed.

Lemma ln_outerC t : (t < N)%nat ->
  0 < IZR (prodZ (outerC t)) /\
  ln (IZR (prodZ (outerC t))) = sumf (fun i => ln (cnt l (XZ i) (X i t, X k t))) (seq 0 k).
Proof using Hvars Hz.
  intros Ht. pose proof (outerC_ge1' t Ht) as HF1. split.
  - apply IZR_lt. pose proof (prodZ_pos _ HF1) as P. clear -P. lia.
  - rewrite ln_prodZ by exact HF1. unfold outerC. rewrite sumf_map. apply sumf_ext.
    intros i Hi. apply in_seq in Hi. rewrite XZ_eq by (auto; clear -Hi; lia). reflexivity.
Qed.

Lemma IZR_sumZ_l (m : list Z) : IZR (sumZ m) = sumf IZR m.
Proof using. rewrite <- (map_id m) at 1. rewrite (IZR_sumZ (fun x => x)). reflexivity. Qed.

Lemma marginal2_total i : (i < k)%nat -> sumZ (map sumZ (marginal2 c i k)) = Z.of_nat N.
Proof using Hvars Hz.
  intros Hi. apply eq_IZR. rewrite IZR_sumZ. unfold marginal2. rewrite sumf_map.
  rewrite (sumf_ext _ (fun a => cnt l (X i) a * 1)).
  - rewrite (group l (X i) _ (fun _ => 1)).
    + rewrite sumf_const, seq_length, <- INR_IZR_INZ. ring.
    + apply seq_NoDup.
    + intros s Hs. apply in_seq in Hs. apply in_seq.
      pose proof (row_in_shape al N al_len i s) as Q. rewrite al_k in Q. unfold Xi.
      assert ((nth i (rc s) 0 < nth i (coo_shape c) 0)%nat) by (apply Q; clear -Hi Hs; lia).
      clear -H. lia.
  - intros a _. rewrite IZR_sumZ. rewrite Rmult_1_r.
    rewrite (sumf_ext _ (fun z => sumf (fun t => ind (eqb (X k t) z) * ind (eqb (X i t) a)) l)).
    + rewrite (sumf_swap (fun z t => ind (eqb (X k t) z) * ind (eqb (X i t) a))).
      unfold cnt. apply sumf_ext. intros t Ht. apply in_seq in Ht.
      apply (sumf_pick (seq 0 (nth k (coo_shape c) 0%nat)) (X k t) (fun _ => ind (eqb (X i t) a))).
      * apply seq_NoDup.
      * apply in_seq. pose proof (row_in_shape al N al_len k t) as Q. rewrite al_k in Q. unfold Xi.
        assert ((nth k (rc t) 0 < nth k (coo_shape c) 0)%nat) by (apply Q; clear -Ht; lia). clear -H; lia.
    + intros z _. rewrite (coo_sum_if_eq al N al_len al_ne). apply sumf_ext. intros t _.
      rewrite ind_andb, !eqb_nat. unfold Xi. ring.
Qed.

(** the value in nats *)
Definition cmi_value : R :=
  sumf (fun i => hs l (XZ i)) (seq 0 k) - hs l rc - hs l (X k).

Definition Ct (t : nat) : R :=
  ln (cnt l rc (rc t)) + ln (cnt l (X k) (X k t))
  - sumf (fun i => ln (cnt l (XZ i) (X i t, X k t))) (seq 0 k) + (INR k - 2) * ln (INR N).

Lemma Ct_sum : sumf Ct l / INR N = cmi_value.
Proof using HN.
  unfold Ct, cmi_value. pose proof PN as P.
  rewrite sumf_plus, sumf_minus, sumf_plus, !sumf_const, seq_length.
  rewrite (sumf_swap (fun t i => ln (cnt l (XZ i) (X i t, X k t))) l (seq 0 k)).
  rewrite (sumf_ext (fun i => hs l (XZ i))
     (fun i => ln (INR N) - sumf (fun t => ln (cnt l (XZ i) (X i t, X k t))) l / INR N)).
  2:{ intros i _. rewrite hs_alt by (apply l_ne; exact HN). rewrite seq_length. reflexivity. }
  rewrite sumf_minus, sumf_const, sumf_div, seq_length.
  rewrite !hs_alt by (apply l_ne; exact HN). rewrite seq_length. field. lra.
Qed.

Lemma size2_marginal2 i : (i < k)%nat ->
  size2 (marginal2 c i k) = (nlevels (nth i vars (A1 [])) * length (unique zs))%nat.
Proof using.
  intros Hi. unfold marginal2.
  assert (E1 : nth i (coo_shape c) 0%nat = nlevels (nth i vars (A1 []))).
  { rewrite shape_nth by (rewrite al_k; clear -Hi; lia). rewrite app_nth1 by exact Hi. reflexivity. }
  assert (E2 : nth k (coo_shape c) 0%nat = length (unique zs)).
  { rewrite shape_nth by (rewrite al_k; clear; lia). rewrite app_nth2, Nat.sub_diag by (clear; lia). reflexivity. }
  rewrite E1, E2. unfold size2.
  assert (G : forall (m : list nat) f (n : nat), (forall a, length (f a) = n) ->
     fold_right (fun (r : list Z) s => (length r + s)%nat) 0%nat (map f m) = (length m * n)%nat).
  { clear. intros m f n Hf. induction m as [|a m IH]; [reflexivity|]. cbn [map fold_right length]. rewrite IH, Hf. lia. }
  rewrite (G _ _ (length (unique zs))); [rewrite seq_length; reflexivity|].
  intros a. rewrite map_length, seq_length. reflexivity.
Qed.

(** early return test *)
Definition early : bool :=
  existsb (fun a => Nat.eqb (nlevels a * length (unique zs)) 1) vars.

Lemma early_eq : existsb (fun m => Nat.eqb (size2 m) 1) (map (fun i => marginal2 c i k) (seq 0 k)) = early.
Proof using.
  assert (E : forall a b, (a = true <-> b = true) -> a = b).
  { intros [] []; intuition congruence. }
  apply E. unfold early. rewrite !existsb_exists. split.
  - intros [m [Hm L]]. apply in_map_iff in Hm. destruct Hm as [i [<- Hi]]. apply in_seq in Hi.
    rewrite size2_marginal2 in L by (clear -Hi; lia).
    exists (nth i vars (A1 [])). split; [apply nth_In; clear -Hi; lia|exact L].
  - intros [a [Ha L]]. destruct (In_nth vars a (A1 []) Ha) as [i [Hi E1]].
    exists (marginal2 c i k). split; [apply in_map_iff; exists i; split; [reflexivity|apply in_seq; clear -Hi; lia]|].
    rewrite size2_marginal2 by exact Hi. rewrite E1. exact L.
Qed.

Lemma removelast_length {A} (m : list A) : length (removelast m) = (length m - 1)%nat.
Proof using.
  induction m as [|x [|y r] IH]; [reflexivity|reflexivity|].
  cbn [removelast length] in *. rewrite IH. clear. lia.
Qed.
Lemma In_removelast {A} (m : list A) x : In x (removelast m) -> In x m.
Proof using.
  induction m as [|y [|z r] IH]; [intros []|intros []|].
  intros [->|H]; [left; reflexivity|right; apply IH; exact H].
Qed.

Definition cmi_corr (bb : base) : res R :=
  mm_mi_corr (map count_nonzero2 (map (fun i => marginal2 c i k) (seq 0 k)))
    (length (unique (coo_rows al))) N bb (Some (length (unique zs))).

Lemma count_cond_len : length (marginal c k) = length (unique zs).
Proof using.
  unfold marginal. rewrite map_length, seq_length, shape_nth by (rewrite al_k; clear; lia).
  rewrite app_nth2, Nat.sub_diag by (clear; lia). reflexivity.
Qed.

Lemma cmi_global_ok b mm : valid_base b -> (1 <= k)%nat -> cmi_small -> early = false ->
  cmi_global b mm vars (A1 zs) = add_corr mm (cmi_value / unit_of b) cmi_corr.
Proof using Hvars Hz HN.
  intros V Hk SM EA. unfold cmi_global. rewrite (coo_of_ok al N al_len al_ne). cbn [bind].
  rewrite ndim_k1. rewrite early_eq, EA. pose proof PN as P. pose proof (unit_neq0 b V) as U.
  rewrite (coo_sum_eq al N al_len al_ne).
  assert (LS : mapM (fun m => log_base b (IZR (sumZ (map sumZ m))))
      (removelast (map (fun i => marginal2 c i k) (seq 0 k))) =
      Ok (map (fun _ => ln (INR N) / unit_of b) (removelast (map (fun i => marginal2 c i k) (seq 0 k))))).
  { apply mapM_ok. intros m Hm. apply In_removelast in Hm. apply in_map_iff in Hm.
    destruct Hm as [i [<- Hi]]. apply in_seq in Hi. rewrite marginal2_total by (clear -Hi; lia).
    rewrite <- INR_IZR_INZ. apply log_base_ok; assumption. }
  rewrite LS.
  assert (LSs : sumR (map (fun _ => ln (INR N) / unit_of b) (removelast (map (fun i => marginal2 c i k) (seq 0 k))))
     = (INR k - 1) * (ln (INR N) / unit_of b)).
  { unfold sumR. rewrite sumf_map, sumf_const, removelast_length, map_length, seq_length, minus_INR by exact Hk.
    simpl. ring. }
  assert (VC : forall t, (t < N)%nat ->
     IZR (u64 (Z.of_nat (count (coo_rows al) (rc t)) * u64 (nth (nth k (rc t) 0%nat) (marginal c k) 0%Z))) =
     cnt l rc (rc t) * cnt l (X k) (X k t)).
  { intros t Ht. pose proof (cnt_Z N (X k) t _ (in_l t Ht) (Z_eq t Ht)) as B1.
    pose proof (cnt_Z N rc t (Z.of_nat (count (coo_rows al) (rc t))) (in_l t Ht)
       (count_rc al N al_len al_ne HN t)) as B2.
    assert (SQ : (Z.of_nat N * Z.of_nat N < 2 ^ 64)%Z).
    { unfold cmi_small in SM. rewrite <- Z.pow_2_r.
      assert (Z.of_nat N ^ 2 <= Z.of_nat N ^ Z.of_nat (Nat.max 2 k))%Z
        by (apply Z.pow_le_mono_r; clear -HN; lia). clear -SM H. lia. }
    rewrite (u64_small (nth _ _ _)).
    2:{ clear -B1 SQ. split; [lia|]. assert (Z.of_nat N <= Z.of_nat N * Z.of_nat N)%Z by nia. lia. }
    rewrite u64_small by (clear -B1 B2 SQ; nia).
    rewrite mult_IZR, Z_eq by exact Ht. rewrite (count_rc al N al_len al_ne HN). reflexivity. }
  match goal with |- bind (mapM ?F _) _ = _ =>
    destruct (cells_mapM al N al_len al_ne HN F
     (fun t => Ct t / unit_of b / INR N)
     (fun r => (ln (IZR (u64 (Z.of_nat (count (coo_rows al) r) * u64 (nth (nth k r 0%nat) (marginal c k) 0%Z))))
        - ln (INR N)
        - ln (IZR (uprod (map (fun i => u64 (nth (nth k r 0%nat) (nth (nth i r 0%nat)
           (nth i (map (fun i => marginal2 c i k) (seq 0 k)) []) []) 0%Z)) (seq 0 k))))
        + (INR k - 1) * ln (INR N)) / unit_of b / INR N)) as [ts [E1 E2]]
  end.
  - intros t Ht. rewrite VC, outerC_u64 by assumption. rewrite (proj2 (ln_outerC t Ht)).
    unfold Ct. rewrite ln_mult by (apply cnt_self_pos; apply in_l; exact Ht). f_equal. f_equal. ring.
  - intros t Ht. cbn [fst snd]. rewrite (count_rc al N al_len al_ne HN), <- INR_IZR_INZ, np_div_ok by lra.
    cbn [bind]. rewrite VC, outerC_u64 by assumption.
    assert (0 < cnt l rc (rc t) * cnt l (X k) (X k t)).
    { apply Rmult_lt_0_compat; apply cnt_self_pos; apply in_l; exact Ht. }
    rewrite !log_base_ok by (try exact V; try exact P; try assumption; apply ln_outerC; exact Ht).
    cbn [bind]. rewrite LSs. f_equal. field. split; try exact U; lra.
  - rewrite E1. cbn [bind]. rewrite E2, sumf_div, sumf_div. f_equal.
    + rewrite <- Ct_sum. field. split; try exact U; lra.
    + unfold cmi_corr. rewrite count_cond_len.
      assert (EH : arr_len (hd (A1 []) vars) = N).
      { clear -Hvars Hk. destruct vars as [|a r]; [simpl in Hk; lia|]. inversion Hvars. assumption. }
      rewrite EH. unfold the_coo at 2. cbn [coo_vals]. rewrite map_length. reflexivity.
Qed.

Lemma cmi_local_ok b mm : valid_base b -> (1 <= k)%nat -> early = false ->
  cmi_local b mm vars (A1 zs) =
  match mm with
  | None => Ok (map (fun t => Ct t / unit_of b) l)
  | Some bb => let* kk := cmi_corr bb in
               Ok (map (fun x => x + kk) (map (fun t => Ct t / unit_of b) l))
  end.
Proof using Hvars Hz HN.
  intros V Hk EA. unfold cmi_local. rewrite (coo_of_ok al N al_len al_ne). cbn [bind].
  rewrite ndim_k1, early_eq, EA. pose proof PN as P. pose proof (unit_neq0 b V) as U.
  rewrite (coo_sum_eq al N al_len al_ne), <- INR_IZR_INZ.
  match goal with |- bind (mapM ?F _) _ = _ => set (FF := F) end.
  assert (E : mapM FF (coo_rows al) = Ok (map (fun t => Ct t / unit_of b) l)).
  { rewrite (coo_rows_eq al N al_len al_ne).
    assert (G : forall m, (forall t, In t m -> (t < N)%nat) -> mapM FF (map rc m) = Ok (map (fun t => Ct t / unit_of b) m)).
    { induction m as [|t m IH]; intros Hm; [reflexivity|]. cbn [map mapM].
      rewrite IH by (intros; apply Hm; right; assumption).
      assert (Ht : (t < N)%nat) by (apply Hm; left; reflexivity).
      assert (EF : FF (rc t) = Ok (Ct t / unit_of b)).
      { unfold FF. rewrite !np_div_ok by lra. cbn [bind].
        rewrite (mapM_ok _ (fun i => cnt l (XZ i) (X i t, X k t) / INR N)).
        2:{ intros i Hi. apply in_seq in Hi. rewrite nth_map_seq by (clear -Hi; lia).
            rewrite np_div_ok by lra. f_equal. f_equal. apply XZ_eq; [clear -Hi; lia|exact Ht]. }
        cbn [bind]. rewrite (cell_eq al N al_len al_ne), Z_eq by exact Ht.
        assert (LP : forall is, 0 < fold_right Rmult 1 (map (fun i => cnt l (XZ i) (X i t, X k t) / INR N) is) /\
           ln (fold_right Rmult 1 (map (fun i => cnt l (XZ i) (X i t, X k t) / INR N) is)) =
           sumf (fun i => ln (cnt l (XZ i) (X i t, X k t))) is - INR (length is) * ln (INR N)).
        { induction is as [|i is [IH1 IH2]]; [simpl; rewrite ln_1; split; lra|].
          cbn [map fold_right sumf].
          assert (0 < cnt l (XZ i) (X i t, X k t)) by (apply (cnt_self_pos l (XZ i) t); apply in_l; exact Ht).
          assert (0 < cnt l (XZ i) (X i t, X k t) / INR N) by (apply Rdiv_lt_0_compat; assumption).
          split; [apply Rmult_lt_0_compat; assumption|].
          rewrite ln_mult, IH2, ln_div by assumption. cbn [length]. rewrite S_INR. ring. }
        destruct (LP (seq 0 k)) as [LP1 LP2].
        assert (P1 : 0 < cnt l rc (rc t)) by (apply cnt_self_pos; apply in_l; exact Ht).
        assert (P2 : 0 < cnt l (X k) (X k t)) by (apply cnt_self_pos; apply in_l; exact Ht).
        assert (P3 : 0 < cnt l rc (rc t) / INR N) by (apply Rdiv_lt_0_compat; assumption).
        assert (P4 : 0 < cnt l (X k) (X k t) / INR N) by (apply Rdiv_lt_0_compat; assumption).
        rewrite !log_base_ok; [|exact V|exact LP1|exact V|apply Rmult_lt_0_compat; assumption].
        cbn [bind]. f_equal. rewrite LP2, ln_mult, !ln_div by assumption. rewrite seq_length.
        unfold Ct. field. exact U. }
      rewrite EF. reflexivity. }
    apply G. intros t Ht. apply in_seq in Ht. clear -Ht. lia. }
  rewrite E. cbn [bind]. destruct mm as [bb|]; [|reflexivity].
  assert (EH : arr_len (hd (A1 []) vars) = N).
  { clear -Hvars Hk. destruct vars as [|a r]; [simpl in Hk; lia|]. inversion Hvars. assumption. }
  rewrite EH, count_cond_len. unfold cmi_corr. unfold the_coo at 2. cbn [coo_vals]. rewrite map_length. reflexivity.
Qed.

Lemma mean_Ct u : mean (map (fun t => Ct t / u) l) = cmi_value / u.
Proof using HN.
  unfold mean. rewrite map_length, seq_length. unfold sumR. rewrite sumf_map, sumf_div, <- Ct_sum.
  unfold Rdiv. ring.
Qed.
End CMI.
