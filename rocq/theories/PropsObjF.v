(** Property theorems C108: an estimator object reports what the function call returns, whatever was called on it before. *)
From Coq Require Import Reals Lra Lia List ZArith Arith Bool Permutation.
From Verif Require Import Res RSum Spec SpecBase SpecTE SpecObj Info Info2 Ord MBase MData MEntropy MMI MTE MGeneric MObj
  PBase PEntropy PMI4 PMI5 PCMI2 PTE2 PObj PObj2 PropsMI PropsTE PropsStab PropsObj.
Import ListNotations.
Local Open Scope R_scope.

(** every value reported during a history is [v], every list of local values is [ls] *)
Definition reports (as_ : list (out answer)) (v : R) (ls : list R) : Prop :=
  (forall a g, In a as_ -> glob_of a = Some g -> g = Fin v) /\
  (forall a l, In a as_ -> loc_of a = Some l -> l = map Fin ls).

Lemma object_reports K pd bd data q h v ls : calm K pd bd data -> pure K data ->
  snd (k_calc K data FOff q) = inr (PNum (Fin v)) ->
  (forall q, snd (k_extract K data FOff q) = inr (map Fin ls)) ->
  reports (snd (run never K pd bd h (fresh data q))) v ls /\
  snd (run never K pd bd [OpResult; OpLocal] (fresh data q)) = [inr (AGlob (Fin v)); inr (ALoc (map Fin ls))].
Proof.
  intros C P E1 E2. pose proof (C34_tests_leave_estimator_unchanged K pd bd data q h C P) as T.
  destruct (run never K pd bd h (fresh data q)) as [o' as_]. cbn [snd]. destruct T as (_ & _ & TG & TL).
  assert (RES : run_op never K pd bd OpResult (fresh data q) =
     (set_glob (set_rng (tick (fresh data q)) (fst (k_calc K data FOff q))) (Fin v), inr (AGlob (Fin v)))).
  { unfold run_op, mmap, mbind, result, global_val, calculate, mbind, read, run_calc, never, upd, ret.
    cbn [fresh o_glob o_data o_flag o_rng tick o_calls pred]. destruct (k_calc K data FOff q) as [r' x]. cbn [snd fst] in *. subst x. reflexivity. }
  assert (LOC : snd (run_op never K pd bd OpLocal (fresh data q)) = inr (ALoc (map Fin ls))).
  { unfold run_op, mmap, mbind, local_vals, global_val, calculate, mbind, read, run_calc, never, upd, ret.
    cbn [fresh o_glob o_data o_flag o_rng tick o_calls pred]. destruct (k_calc K data FOff q) as [r' x]. cbn [snd fst] in *. subst x. cbn.
    specialize (E2 r'). destruct (k_extract K data FOff r') as [r2 y]. cbn [snd] in E2. subst y. reflexivity. }
  split; [split|].
  - intros a g Ha Hg. specialize (TG a g Ha Hg). cbn [run] in TG. rewrite RES in TG. cbn [snd In] in TG. destruct TG as [TG|[]]. congruence.
  - intros a l Ha Hl. specialize (TL a l Ha Hl). cbn [run] in TL. destruct (run_op never K pd bd OpLocal (fresh data q)) as [o2 y]. cbn [snd] in LOC. subst y.
    cbn [snd In] in TL. destruct TL as [TL|[]]. congruence.
  - cbn [run]. rewrite RES. unfold run_op, mmap, mbind, local_vals, global_val, mbind, read, upd, ret. cbn [set_glob set_rng tick fresh o_glob o_loc o_data o_flag o_rng o_orig o_calls].
    specialize (E2 (fst (k_calc K data FOff q))). destruct (k_extract K data FOff (fst (k_calc K data FOff q))) as [r2 y]. cbn [snd] in E2. subst y. reflexivity.
Qed.

Theorem C108_mutual_information : forall b pd bd xs ys q h, big_base b -> length xs = length ys -> xs <> [] -> small2 (length xs) -> legal pd bd ->
  exists v ls, mi_discrete b (Some 0%Z) [A1 xs; A1 ys] = Ok v /\ mi_discrete_local b (Some 0%Z) [A1 xs; A1 ys] = Ok ls /\
    length ls = length xs /\ mean ls = v /\
    reports (snd (run never (klass_mi_discrete b) pd bd h (fresh [A1 xs; A1 ys] q))) v ls /\
    snd (run never (klass_mi_discrete b) pd bd [OpResult; OpLocal] (fresh [A1 xs; A1 ys] q)) = [inr (AGlob (Fin v)); inr (ALoc (map Fin ls))].
Proof.
  intros b pd bd xs ys q h B L NE S LG. destruct (C07_mi_local_mean b xs ys B L NE S) as (ls & E1 & E2 & E3).
  destruct (C34_discrete_mi b pd bd xs ys B L NE S LG) as (C & P). exists (mean ls), ls. split; [exact E3|]. split; [exact E1|]. split; [exact E2|]. split; [reflexivity|].
  unfold mi_discrete in E3. unfold mi_discrete_local in E1. rewrite mi_init_2 in E1, E3 by exact L. cbn [bind] in E1, E3.
  apply object_reports; try assumption.
  - cbn [klass_mi_discrete klass_mi k_calc snd]. rewrite E3. reflexivity.
  - intros q'. cbn [klass_mi_discrete klass_mi k_extract snd]. rewrite E1. reflexivity.
Qed.
Print Assumptions C108_mutual_information.

Theorem C108_conditional_mutual_information : forall b pd bd xs ys zs q h, big_base b -> length xs = length ys -> length xs = length zs -> xs <> [] ->
  small2 (length xs) -> legal pd bd ->
  exists v ls, cmi_discrete b [A1 xs; A1 ys] (RArr (A1 zs)) = Ok v /\ cmi_discrete_local b [A1 xs; A1 ys] (RArr (A1 zs)) = Ok ls /\
    length ls = length xs /\ mean ls = v /\
    reports (snd (run never (klass_cmi_discrete b (A1 zs)) pd bd h (fresh [A1 xs; A1 ys] q))) v ls /\
    snd (run never (klass_cmi_discrete b (A1 zs)) pd bd [OpResult; OpLocal] (fresh [A1 xs; A1 ys] q)) = [inr (AGlob (Fin v)); inr (ALoc (map Fin ls))].
Proof.
  intros b pd bd xs ys zs q h B L1 L2 NE SM LG. pose proof (big_valid b B) as V.
  assert (PN : forall xs' : list Z, length xs' = length xs -> (0 < length xs')%nat) by (intros xs' ->; destruct xs; [congruence|simpl; lia]).
  assert (G : forall xs' : list Z, length xs' = length xs -> exists v ls, cmi_global b None [A1 xs'; A1 ys] (A1 zs) = Ok v /\ cmi_local b None [A1 xs'; A1 ys] (A1 zs) = Ok ls /\ length ls = length xs /\ mean ls = v).
  { intros xs' L'. destruct (cmi2_general b None xs' ys zs V ltac:(congruence) ltac:(congruence) (PN xs' L') ltac:(rewrite L'; exact SM) Logic.I) as (E1 & ls & E2 & E3 & E4).
    exists (CMI xs' ys zs / unit_of b + 0), ls. rewrite L' in E3. auto. }
  destruct (G xs eq_refl) as (v & ls & E1 & E2 & E3 & E4). exists v, ls.
  assert (CI : cmi_init [A1 xs; A1 ys] (length zs) = Ok tt) by (unfold cmi_init; cbn [arr_len]; rewrite <- L1, <- L2, Nat.eqb_refl; reflexivity).
  split; [unfold cmi_discrete; cbn [reduce_joint_space bind]; rewrite CI; exact E1|]. split; [unfold cmi_discrete_local; cbn [reduce_joint_space bind]; rewrite CI; exact E2|].
  split; [exact E3|]. split; [exact E4|]. apply object_reports.
  - unfold calm. cbn [klass_cmi_discrete klass_mi k_te]. intros x y E m r r' e. injection E as <- <-. cbn [k_calc klass_cmi_discrete klass_mi snd arr_len]. rewrite take_rows_A1.
    set (xs' := map _ _). assert (L' : length xs' = length xs) by (unfold xs'; rewrite map_length; apply draw_length; exact LG).
    destruct (G xs' L') as (v' & _ & E1' & _). rewrite E1'. discriminate.
  - intros r. split; reflexivity.
  - cbn [klass_cmi_discrete klass_mi k_calc snd]. rewrite E1. reflexivity.
  - intros q'. cbn [klass_cmi_discrete klass_mi k_extract snd]. rewrite E2. reflexivity.
Qed.
Print Assumptions C108_conditional_mutual_information.

Theorem C108_transfer_entropy : forall b pd bd xs ys l k s q h, legal pd bd -> valid_base b -> length ys = length xs -> (1 <= l)%nat -> (1 <= k)%nat -> (1 <= s)%nat ->
  (Nat.max k l * s < length xs)%nat -> small2 (length xs) ->
  let K := klass_te_discrete pd bd (te_rows (length xs) l k s) b (I l) (I k) (I s) in
  exists v ls, te_discrete b (A1 xs) (A1 ys) (te_kw l k s) = Ok v /\ te_discrete_local b (A1 xs) (A1 ys) (te_kw l k s) = Ok ls /\
    length ls = te_rows (length xs) l k s /\ mean ls = v /\
    reports (snd (run never K pd bd h (fresh [A1 xs; A1 ys] q))) v ls /\
    snd (run never K pd bd [OpResult; OpLocal] (fresh [A1 xs; A1 ys] q)) = [inr (AGlob (Fin v)); inr (ALoc (map Fin ls))].
Proof.
  intros b pd bd xs ys l k s q h LG V L Hl Hk Hs Hd SM K. destruct (C34_discrete_te b pd bd xs ys l k s LG V L Hl Hk Hs Hd SM) as (C & P). fold K in C, P.
  destruct (C07_te_local_mean b None (A1 xs) (A1 ys) l k s (length xs) V Logic.I eq_refl L Hl Hk Hs Hd SM) as (v & ls & E1 & E2 & E3 & E4).
  exists v, ls. split; [exact E1|]. split; [exact E2|]. split; [exact E3|]. split; [exact E4|].
  unfold te_gen in E1. unfold te_gen_local in E2. cbn [a_prop a_offset a_step a_src a_dest te_kw] in E1, E2. rewrite te_init_plain in E1, E2 by (cbn [arr_len]; congruence). cbn [bind fst snd] in E1, E2.
  apply object_reports; try assumption.
  - unfold K. cbn [klass_te_discrete klass_te k_calc snd]. unfold te_eval. destruct (te_observations (A1 xs) (A1 ys) (I l) (I k) (I s) RNone) as [((sh, dh), df)|e|]; try discriminate E1.
    cbn [bind] in *. unfold rmap. rewrite E1. reflexivity.
  - intros q'. unfold K. cbn [klass_te_discrete klass_te k_extract snd]. unfold te_eval_local. destruct (te_observations (A1 xs) (A1 ys) (I l) (I k) (I s) RNone) as [((sh, dh), df)|e|]; try discriminate E2.
    cbn [bind] in *. rewrite E2. reflexivity.
Qed.
Print Assumptions C108_transfer_entropy.

Theorem C108_conditional_transfer_entropy : forall b pd bd xs ys zs l k m s q h, valid_base b -> length ys = length xs -> length zs = length xs ->
  (1 <= l)%nat -> (1 <= k)%nat -> (1 <= m)%nat -> (1 <= s)%nat -> (Nat.max (Nat.max k l) m * s < length xs)%nat -> small2 (length xs) ->
  let K := klass_cte_discrete b (I l) (I k) (I m) (I s) (A1 zs) in
  exists v ls, cte_discrete b (A1 xs) (A1 ys) (RArr (A1 zs)) (cte_kw l k m s) = Ok v /\
    cte_discrete_local b (A1 xs) (A1 ys) (RArr (A1 zs)) (cte_kw l k m s) = Ok ls /\
    length ls = nrows (length xs) (Nat.max (Nat.max k l) m * s) s /\ mean ls = v /\
    reports (snd (run never K pd bd h (fresh [A1 xs; A1 ys] q))) v ls /\
    snd (run never K pd bd [OpResult; OpLocal] (fresh [A1 xs; A1 ys] q)) = [inr (AGlob (Fin v)); inr (ALoc (map Fin ls))].
Proof.
  intros b pd bd xs ys zs l k m s q h V Ly Lz Hl Hk Hm Hs Hd SM K.
  destruct (C07_cte_local_mean b None (A1 xs) (A1 ys) (A1 zs) l k m s (length xs) V Logic.I eq_refl Ly Lz Hl Hk Hm Hs Hd SM) as (v & ls & E1 & E2 & E3 & E4).
  exists v, ls. split; [exact E1|]. split; [exact E2|]. split; [exact E3|]. split; [exact E4|].
  unfold cte_gen in E1. unfold cte_gen_local in E2. cbn [a_prop a_offset a_step a_src a_dest a_cond cte_kw] in E1, E2. rewrite (cte_init_plain (A1 xs) (A1 ys) (A1 zs) (length xs)) in E1, E2 by (assumption || reflexivity). cbn [bind fst snd] in E1, E2.
  assert (EV : forall fg q', snd (k_calc K [A1 xs; A1 ys] fg q') = inr (PNum (Fin v))).
  { intros fg q'. unfold K. cbn [klass_cte_discrete klass_cte k_calc snd]. destruct (cte_observations (A1 xs) (A1 ys) (A1 zs) (I l) (I k) (I m) (I s) RNone) as [(((sh, dh), df), ch)|e|]; try discriminate E1.
    cbn [bind] in *. unfold rmap. rewrite E1. reflexivity. }
  assert (EL : forall q', snd (k_extract K [A1 xs; A1 ys] FOff q') = inr (map Fin ls)).
  { intros q'. unfold K. cbn [klass_cte_discrete klass_cte k_extract snd]. destruct (cte_observations (A1 xs) (A1 ys) (A1 zs) (I l) (I k) (I m) (I s) RNone) as [(((sh, dh), df), ch)|e|]; try discriminate E2.
    cbn [bind] in *. rewrite E2. reflexivity. }
  apply object_reports.
  - unfold calm. replace (k_te K) with true by reflexivity. intros fg r e. rewrite EV. discriminate.
  - intros r. rewrite !EV, !EL. split; reflexivity.
  - apply EV.
  - exact EL.
Qed.
Print Assumptions C108_conditional_transfer_entropy.

(** example: the hypotheses on the random draws are met, and a history with tests reports values *)
Example C108_example : exists pd bd, legal pd bd /\
  exists v, snd (run never (klass_mi_discrete BE) pd bd [OpTest (NInt 2) MPermute; OpResult] (fresh [A1 [0; 0; 1; 1]; A1 [0; 1; 1; 1]]%Z 0)) <> [] /\
    mi_discrete BE (Some 0%Z) [A1 [0; 0; 1; 1]; A1 [0; 1; 1; 1]]%Z = Ok v.
Proof.
  assert (LG : legal (fun _ n => seq 0 n) (fun _ n => seq 0 n)).
  { split; [intros r n; apply Permutation_refl|]. intros r n. split; [apply seq_length|]. apply Forall_forall. intros j Hj. apply in_seq in Hj. lia. }
  exists (fun _ n => seq 0 n), (fun _ n => seq 0 n). split; [exact LG|].
  destruct (C108_mutual_information BE _ _ [0; 0; 1; 1]%Z [0; 1; 1; 1]%Z 0%nat [OpTest (NInt 2) MPermute; OpResult] Logic.I eq_refl ltac:(discriminate) ltac:(unfold small2; simpl; lia) LG) as (v & ls & E & _).
  exists v. split; [|exact E]. cbn [run]. destruct (run_op _ _ _ _ (OpTest (NInt 2) MPermute) _) as [o1 a1]. destruct (run_op _ _ _ _ OpResult o1) as [o2 a2]. discriminate.
Qed.
