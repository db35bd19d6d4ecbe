(** C07, C10, C11, C12, C16, C18 for arrays whose samples are rows (2-D arrays), with any condition: an array, a 2-D array
    or a tuple of arrays. *)
From Coq Require Import Reals Lra Lia List ZArith Arith Bool.
From Verif Require Import Res RSum Spec Info Info2 Ord MBase MData MEntropy MMI MGeneric SpecBase SpecInput SpecInv PBase PEntropy PCoo PMI PMI2 PMI3 PCMI PMI4
  PCMI2 PMI5 PMI6 PTE PTE2 PEst5 PEst6 POrd3 PropsEst PropsInv PropsInv2 PropsMI.
Import ListNotations.
Local Open Scope R_scope.

Lemma app_inj_len {A} (r1 r2 s1 s2 : list A) : length r1 = length r2 -> r1 ++ s1 = r2 ++ s2 -> r1 = r2 /\ s1 = s2.
Proof.
  revert r2. induction r1 as [|a r IH]; intros [|b q] L E; try discriminate; [split; [reflexivity|exact E]|].
  cbn [app length] in *. injection E as -> E. destruct (IH q ltac:(lia) E) as [-> ->]. split; reflexivity.
Qed.

(** ** entropies of rows *)
Lemma Ent_rows2 (us vs : list (list Z)) n : length us = n -> length vs = n -> Ent (rows_of [] n [us; vs]) = Ent (combine us vs).
Proof.
  intros Hx Hy. apply Ent_partition. split; [rewrite rows_of_length, combine_length; lia|].
  intros i j dx [d1 d2] Hi Hj. rewrite rows_of_length in *. unfold rows_of.
  rewrite !nth_map_seq by assumption. rewrite !combine_nth by lia. cbn [map].
  rewrite !(nth_indep us d1 []), !(nth_indep vs d2 []) by lia.
  split; intros E; [injection E as -> ->; reflexivity|injection E as -> ->; reflexivity].
Qed.
Lemma H_any b i : valid_base b -> SpecInput.usable i -> entropy_discrete b i = Ok (Ent (SpecInput.sample i) / unit_of b).
Proof.
  intros V U. rewrite <- (discrete_closed b i V U). unfold entropy_of, entropy_discrete, e_global.
  destruct (make_data i) as [d| |]; try reflexivity. cbn [bind est_discrete e_calc]. destruct (discrete_simple b d); reflexivity.
Qed.
Lemma joint_sample (x y : arr) : table x -> arr_len x = arr_len y ->
  Ent (SpecInput.sample (ETuple [x; y])) = Ent (combine (arr_rows x) (arr_rows y)).
Proof.
  intros (w & W) L. apply Ent_partition.
  assert (R : forall a, length (arr_rows a) = arr_len a) by (intros [xs|rs]; cbn [arr_rows arr_len]; [apply map_length|reflexivity]).
  pose proof (hcat_partition (arr_rows x) (arr_rows y) w ltac:(rewrite !R; exact L) W) as P.
  rewrite hcat_eq in P. rewrite R in P. exact P.
Qed.

(** ** the arrays as variables: their codes are those of the numbered rows *)
Definition to1 (a : arr) : list Z := match a with A1 xs => xs | A2 rs => reduce_rows rs end.
Lemma to1_codes a : codes (A1 (to1 a)) = codes a /\ nlevels (A1 (to1 a)) = nlevels a /\ arr_len (A1 (to1 a)) = arr_len a.
Proof. destruct a as [xs|rs]; cbn [to1]; [repeat split; reflexivity|apply reduce_codes]. Qed.
Lemma to1_partition a : same_partition (arr_rows a) (to1 a).
Proof. destruct a as [xs|rs]; cbn [to1 arr_rows]; [apply singletons_partition|apply reduce_rows_partition]. Qed.
Lemma to1_length a : length (to1 a) = arr_len a.
Proof. destruct (to1_codes a) as (_ & _ & E). exact E. Qed.
Lemma map_to1 {X} (f : arr -> X) l : (forall a, f (A1 (to1 a)) = f a) -> map f l = map f (map A1 (map to1 l)).
Proof. intros E. rewrite !map_map. apply map_ext. intros a. symmetry. apply E. Qed.

Lemma mi_local_codes b mm vars : mi_local b mm vars = mi_local b mm (map A1 (map to1 vars)).
Proof.
  assert (E1 : map codes vars = map codes (map A1 (map to1 vars))) by (apply map_to1; intros a; apply to1_codes).
  assert (E2 : map nlevels vars = map nlevels (map A1 (map to1 vars))) by (apply map_to1; intros a; apply to1_codes).
  assert (E3 : map arr_len vars = map arr_len (map A1 (map to1 vars))) by (apply map_to1; intros a; apply to1_codes).
  assert (EH : arr_len (hd (A1 []) vars) = arr_len (hd (A1 []) (map A1 (map to1 vars)))).
  { destruct vars; [reflexivity|]. cbn [map] in E3. cbn [hd map]. injection E3; auto. }
  unfold mi_local. rewrite (coo_of_ext _ _ E1 E2 E3), (coo_rows_ext _ _ E1 EH), EH. reflexivity.
Qed.
Lemma cmi_codes b mm vars z : cmi_global b mm vars (A1 z) = cmi_global b mm (map A1 (map to1 vars)) (A1 z) /\
  cmi_local b mm vars (A1 z) = cmi_local b mm (map A1 (map to1 vars)) (A1 z).
Proof. apply cmi_ext; apply map_to1; intros a; apply to1_codes. Qed.

(** ** mutual information of two 2-D arrays: no limit on the number of samples *)
Lemma mi_rows_value b (us vs : list (list Z)) : valid_base b -> length us = length vs -> us <> [] ->
  mi_discrete b (Some 0%Z) [A2 us; A2 vs] = Ok (MI us vs / unit_of b).
Proof.
  intros V L NE. pose proof (C15_mi_of_joint_variables b (length us) [us; vs] V ltac:(simpl; lia) ltac:(repeat constructor; auto) (len_pos us NE)) as E.
  cbn [map] in E. rewrite E. cbn [sumf]. rewrite Ent_rows2 by auto. unfold MI. do 2 f_equal. ring.
Qed.

Theorem C10_mi_rows : forall b (us vs : list (list Z)), big_base b -> length us = length vs -> us <> [] -> table (A2 us) ->
  exists v hx hy hxy, mi_discrete b (Some 0%Z) [A2 us; A2 vs] = Ok v /\
    entropy_discrete b (EArr (A2 us)) = Ok hx /\ entropy_discrete b (EArr (A2 vs)) = Ok hy /\ entropy_discrete b (ETuple [A2 us; A2 vs]) = Ok hxy /\
    v = hx + hy - hxy /\ v = MI us vs / unit_of b /\ 0 <= v.
Proof.
  intros b us vs B L NE T. pose proof (big_valid b B) as V. pose proof (len_pos us NE) as PN.
  exists (MI us vs / unit_of b), (Ent us / unit_of b), (Ent vs / unit_of b), (Ent (combine us vs) / unit_of b).
  split; [apply mi_rows_value; assumption|].
  split; [apply (H_any b (EArr (A2 us)) V); split; [exact PN|exact Logic.I]|].
  split; [apply (H_any b (EArr (A2 vs)) V); split; [cbn; lia|exact Logic.I]|].
  split. { rewrite (H_any b (ETuple [A2 us; A2 vs]) V) by (split; [exact PN|repeat constructor; cbn; auto]). rewrite (joint_sample (A2 us) (A2 vs) T L). reflexivity. }
  split; [unfold MI, Rdiv; ring|]. split; [reflexivity|]. apply big_div_nonneg; [exact B|apply MI_nonneg; exact L].
Qed.
Print Assumptions C10_mi_rows.

Theorem C11_mi_rows : forall b (us vs : list (list Z)), big_base b -> length us = length vs -> us <> [] ->
  exists v hx hy, mi_discrete b (Some 0%Z) [A2 us; A2 vs] = Ok v /\ mi_discrete b (Some 0%Z) [A2 vs; A2 us] = Ok v /\
    entropy_discrete b (EArr (A2 us)) = Ok hx /\ entropy_discrete b (EArr (A2 vs)) = Ok hy /\ v <= hx /\ v <= hy /\
    mi_discrete b (Some 0%Z) [A2 us; A2 us] = Ok hx.
Proof.
  intros b us vs B L NE. pose proof (big_valid b B) as V. pose proof (len_pos us NE) as PN.
  assert (NEv : vs <> []) by (apply length_pos_ne; lia).
  exists (MI us vs / unit_of b), (Ent us / unit_of b), (Ent vs / unit_of b).
  split; [apply mi_rows_value; assumption|]. split; [rewrite (MI_sym us vs L); apply mi_rows_value; auto|].
  split; [apply (H_any b (EArr (A2 us)) V); split; [exact PN|exact Logic.I]|].
  split; [apply (H_any b (EArr (A2 vs)) V); split; [cbn; lia|exact Logic.I]|].
  split; [apply big_div_le; [exact B|apply MI_le_l; exact L]|].
  split; [apply big_div_le; [exact B|rewrite (MI_sym us vs L); apply MI_le_l; auto]|].
  rewrite mi_rows_value by auto. rewrite MI_self. reflexivity.
Qed.
Print Assumptions C11_mi_rows.

Theorem C12_mi_rows : forall b (us vs : list (list Z)), valid_base b -> length us = length vs -> us <> [] ->
  (mi_discrete b (Some 0%Z) [A2 us; A2 vs] = Ok 0 <->
   (forall x y, (count (combine us vs) (x, y) * length us = count us x * count vs y)%nat)).
Proof.
  intros b us vs V L NE. rewrite mi_rows_value by assumption.
  rewrite <- (MI_zero_iff us vs L NE), <- (div_zero_iff b (MI us vs) V).
  split; [intros E; injection E; auto|intros ->; reflexivity].
Qed.
Print Assumptions C12_mi_rows.

(** ** local values of 2-D variables *)
Lemma reduced_cols n (rvars : list (list (list Z))) : all_len n rvars -> all_len n (map reduce_rows rvars).
Proof. unfold all_len. intros L. apply Forall_forall. intros c Hc. apply in_map_iff in Hc. destruct Hc as (r & <- & Hr). rewrite reduce_rows_length. rewrite Forall_forall in L. apply L, Hr. Qed.
Lemma reduced_total n (rvars : list (list (list Z))) : all_len n rvars ->
  TotalCorr 0%Z n (map reduce_rows rvars) = sumf Ent rvars - Ent (rows_of [] n rvars).
Proof.
  intros L. unfold TotalCorr. f_equal.
  - rewrite sumf_map. apply sumf_ext. intros r _. symmetry. apply Ent_partition, reduce_rows_partition.
  - f_equal. symmetry. apply Ent_partition. apply rows_partition; [exact L|]. clear L. induction rvars as [|r rs IH]; constructor; [apply reduce_rows_partition|exact IH].
Qed.
Definition rows_vary (r : list (list Z)) : Prop := exists u v, In u r /\ In v r /\ u <> v.
Lemma reduced_varies n (rvars : list (list (list Z))) : all_len n rvars -> Forall rows_vary rvars -> no_constant (map reduce_rows rvars).
Proof.
  intros L F c Hc. apply in_map_iff in Hc. destruct Hc as (r & <- & Hr). rewrite Forall_forall in F. destruct (F r Hr) as (u & v & Hu & Hv & N).
  apply (In_nth _ _ []) in Hu, Hv. destruct Hu as (i & Hi & <-), Hv as (j & Hj & <-).
  pose proof (reduce_rows_partition r) as [PL PE]. 
  exists (nth i (reduce_rows r) 0%Z), (nth j (reduce_rows r) 0%Z). split; [apply nth_In; lia|]. split; [apply nth_In; lia|].
  intros E. apply N. apply (PE i j [] 0%Z Hi Hj). exact E.
Qed.

(** two 2-D variables, or several of which none is constant *)
Theorem C07_mi_rows : forall b n (rvars : list (list (list Z))), valid_base b -> (2 <= length rvars)%nat -> all_len n rvars -> (0 < n)%nat ->
  length rvars = 2%nat \/ Forall rows_vary rvars ->
  exists ls, mi_discrete_local b (Some 0%Z) (map A2 rvars) = Ok ls /\ length ls = n /\ mi_discrete b (Some 0%Z) (map A2 rvars) = Ok (mean ls).
Proof.
  intros b n rvars V Hk HL HN C. rewrite (C15_mi_of_joint_variables b n rvars V Hk HL HN).
  pose proof (reduced_cols n rvars HL) as HL1.
  assert (HLa : Forall (fun a => arr_len a = n) (map A2 rvars)).
  { apply Forall_forall. intros a Ha. apply in_map_iff in Ha. destruct Ha as (r & <- & Hr). unfold all_len in HL. rewrite Forall_forall in HL. exact (HL r Hr). }
  unfold mi_discrete_local. rewrite (mi_init_0 (map A2 rvars) n) by (rewrite ?map_length; auto). cbn [bind].
  rewrite mi_local_codes. rewrite !map_map. cbn [to1]. rewrite <- (map_map reduce_rows A1).
  assert (NEc : map reduce_rows rvars <> []) by (destruct rvars; [simpl in Hk; lia|discriminate]).
  rewrite <- (reduced_total n rvars HL).
  destruct (const_or_not (map reduce_rows rvars)) as [NC|(c & Hc & CC)].
  - destruct (mi_local_general b None n (map reduce_rows rvars) V NEc HL1 HN NC Logic.I) as (ls & E1 & E2 & E3).
    exists ls. split; [exact E1|]. split; [exact E2|]. rewrite E3. f_equal. ring.
  - exists (repeat 0 n). split; [exact (mi_local_early b None n _ c NEc HL1 HN Hc CC)|]. split; [apply repeat_length|].
    destruct C as [K2|F]; [|destruct (reduced_varies n rvars HL F c Hc) as (x & y & Hx & Hy & N); exfalso; apply N, CC; assumption].
    destruct rvars as [|u [|w [|? ?]]]; try (cbn [length] in K2; lia). clear K2 Hk. cbn [map] in *.
    assert (Lu : length (reduce_rows u) = n) by exact (Forall_inv HL1). assert (Lw : length (reduce_rows w) = n) by exact (Forall_inv (Forall_inv_tail HL1)).
    unfold TotalCorr. cbn [sumf]. rewrite rows_of_2 by assumption.
    assert (Z : MI (reduce_rows u) (reduce_rows w) = 0).
    { pose proof (MI_nonneg (reduce_rows u) (reduce_rows w) ltac:(congruence)). pose proof (MI_le_l (reduce_rows u) (reduce_rows w) ltac:(congruence)) as A.
      pose proof (MI_le_l (reduce_rows w) (reduce_rows u) ltac:(congruence)) as B. rewrite (MI_sym (reduce_rows w) (reduce_rows u)) in B by congruence.
      assert (E0 : Ent c = 0) by (destruct c as [|c0 c1]; [apply Ent_nil|]; apply (Ent_const _ c0); intros z Hz; apply CC; [exact Hz|left; reflexivity]). cbn [In] in Hc. destruct Hc as [<-|[<-|[]]]; lra. }
    unfold MI in Z. replace (Ent (reduce_rows u) + (Ent (reduce_rows w) + 0) - Ent (combine (reduce_rows u) (reduce_rows w))) with 0 by lra.
    f_equal. unfold mean, sumR. replace (sumf (fun x => x) (repeat 0 n)) with 0 by (clear; induction n as [|m IH]; cbn [repeat sumf]; lra). unfold Rdiv. ring.
Qed.
Print Assumptions C07_mi_rows.

(** with three or more 2-D variables, one of them constant, the local values are all 0 while the value is the shared information
    of the others *)
Theorem C07_mi_rows_constant_refuted : let us := [[0]; [1]]%Z in let cs := [[7]; [7]]%Z in
  mi_discrete_local BE (Some 0%Z) [A2 us; A2 us; A2 cs] = Ok [0; 0] /\
  exists v, mi_discrete BE (Some 0%Z) [A2 us; A2 us; A2 cs] = Ok v /\ v = ln 2.
Proof.
  intros us cs. split.
  - unfold mi_discrete_local. rewrite (mi_init_0 [A2 us; A2 us; A2 cs] 2) by (try (simpl; lia); repeat constructor). cbn [bind].
    rewrite mi_local_codes. cbn [map to1].
    apply (mi_local_early BE None 2 [reduce_rows us; reduce_rows us; reduce_rows cs] (reduce_rows cs)); try discriminate; try lia; [repeat constructor|right; right; left; reflexivity|].
    replace (reduce_rows cs) with [0; 0]%Z by reflexivity. intros x y Hx Hy. cbn [In] in Hx, Hy. destruct Hx as [<-|[<-|[]]], Hy as [<-|[<-|[]]]; reflexivity.
  - pose proof (C15_mi_of_joint_variables BE 2 [us; us; cs] Logic.I ltac:(simpl; lia) ltac:(repeat constructor) ltac:(lia)) as E. cbn [map] in E.
    eexists. split; [exact E|]. cbn [sumf].
    assert (E4 : Ent (rows_of [] 2 [us; us; cs]) = Ent us).
    { change (rows_of [] 2 [us; us; cs]) with (map (fun x : list Z => [x; x; [7]%Z]) us). apply Ent_map_inj. intros x y _ _ Q. congruence. }
    rewrite E4. assert (E0 : Ent cs = 0) by (apply (Ent_const _ [7]%Z); intros x Hx; unfold cs in Hx; cbn [In] in Hx; destruct Hx as [<-|[<-|[]]]; reflexivity).
    rewrite E0. assert (E2 : Ent us = ln 2).
    { assert (EU : Ent us = Ent [0; 1]%Z) by (change us with (map (fun z : Z => [z]) [0; 1]%Z); apply Ent_map_inj; intros x y _ _ Q; congruence). rewrite EU.
      rewrite Ent_sample by discriminate. unfold us, prob. cbn [sumf length INR]. replace (count [0; 1]%Z 0%Z) with 1%nat by reflexivity. replace (count [0; 1]%Z 1%Z) with 1%nat by reflexivity.
      cbn [INR]. replace (1 / (1 + 1)) with (/ 2) by lra. rewrite ln_Rinv by lra. lra. }
    rewrite E2. unfold unit_of. lra.
Qed.
Print Assumptions C07_mi_rows_constant_refuted.

(** ** conditional mutual information with variables and condition of any kind *)
Definition given (i : einput) : rinput := match i with EArr a => RArr a | ETuple cols => RTuple cols end.
Lemma given_reduced i : SpecInput.usable i -> exists z, reduce_joint_space (given i) = Ok z /\ length z = input_size i /\ same_partition (SpecInput.sample i) z.
Proof.
  intros U. destruct i as [a|cols].
  - exists (to1 a). cbn [given input_size SpecInput.sample]. split; [destruct a; reflexivity|]. split; [apply to1_length|apply to1_partition].
  - pose proof U as [HN F]. cbn [given]. destruct cols as [|a r]; [cbn in HN; lia|]. cbn [input_size] in F. cbn [reduce_joint_space column_stack].
    assert (E : forallb (fun c => Nat.eqb (arr_len c) (arr_len a)) (a :: r) = true).
    { apply forallb_forall. intros c Hc. apply Nat.eqb_eq. rewrite Forall_forall in F. apply F, Hc. }
    rewrite E. cbn [rmap]. eexists. split; [reflexivity|]. split; [rewrite reduce_rows_length, map_length, seq_length; reflexivity|]. apply reduce_rows_partition.
Qed.

Lemma cmi_any_value b (x y : arr) i : valid_base b -> SpecInput.usable i -> arr_len x = input_size i -> arr_len y = input_size i -> small2 (input_size i) ->
  cmi_discrete b [x; y] (given i) = Ok (CMI (arr_rows x) (arr_rows y) (SpecInput.sample i) / unit_of b) /\
  exists ls, cmi_discrete_local b [x; y] (given i) = Ok ls /\ length ls = input_size i /\ mean ls = CMI (arr_rows x) (arr_rows y) (SpecInput.sample i) / unit_of b.
Proof.
  intros V U Lx Ly SM. destruct (given_reduced i U) as (z & Ez & Lz & Pz). pose proof U as [HN _].
  unfold cmi_discrete, cmi_discrete_local. rewrite Ez. cbn [bind]. unfold cmi_init. rewrite Lx, Ly, Lz, Nat.eqb_refl. cbn [negb orb bind].
  destruct (cmi_codes b None [x; y] z) as [G1 G2]. cbn [map] in G1, G2. rewrite G1, G2.
  pose proof (to1_length x) as Tx. pose proof (to1_length y) as Ty.
  destruct (cmi2_general b None (to1 x) (to1 y) z V ltac:(lia) ltac:(lia) ltac:(lia) ltac:(rewrite Tx, Lx; exact SM) Logic.I) as (E1 & ls & E2 & E3 & E4).
  assert (EC : CMI (to1 x) (to1 y) z = CMI (arr_rows x) (arr_rows y) (SpecInput.sample i)).
  { apply CMI_partition; try congruence; apply same_partition_sym; [apply to1_partition|apply to1_partition|exact Pz]. }
  rewrite EC in *. split; [rewrite E1; f_equal; ring|]. exists ls. split; [exact E2|]. split; [congruence|]. rewrite E4. ring.
Qed.

Theorem C16_cmi_any : forall b (x y : arr) i, big_base b -> SpecInput.usable i -> arr_len x = input_size i -> arr_len y = input_size i -> small2 (input_size i) ->
  let X := arr_rows x in let Y := arr_rows y in let Z := SpecInput.sample i in
  exists v, cmi_discrete b [x; y] (given i) = Ok v /\
    v = (Ent (combine X Z) + Ent (combine Y Z) - Ent (combine (combine X Y) Z) - Ent Z) / unit_of b /\ 0 <= v.
Proof.
  intros b x y i B U Lx Ly SM X Y Z. destruct (cmi_any_value b x y i (big_valid b B) U Lx Ly SM) as (E & _).
  eexists. split; [exact E|]. split; [reflexivity|].
  assert (R : forall a, length (arr_rows a) = arr_len a) by (intros [xs|rs]; cbn [arr_rows arr_len]; [apply map_length|reflexivity]).
  apply big_div_nonneg; [exact B|]. apply CMI_nonneg; rewrite ?R, ?(sample_length i U); congruence.
Qed.
Print Assumptions C16_cmi_any.

Theorem C07_cmi_any : forall b (x y : arr) i, valid_base b -> SpecInput.usable i -> arr_len x = input_size i -> arr_len y = input_size i -> small2 (input_size i) ->
  exists ls, cmi_discrete_local b [x; y] (given i) = Ok ls /\ length ls = input_size i /\ cmi_discrete b [x; y] (given i) = Ok (mean ls).
Proof.
  intros b x y i V U Lx Ly SM. destruct (cmi_any_value b x y i V U Lx Ly SM) as (E & ls & E1 & E2 & E3). exists ls.
  split; [exact E1|]. split; [exact E2|]. rewrite E3. exact E.
Qed.

Theorem C18_cmi_any_symmetric : forall b (x y : arr) i, valid_base b -> SpecInput.usable i -> arr_len x = input_size i -> arr_len y = input_size i -> small2 (input_size i) ->
  cmi_discrete b [x; y] (given i) = cmi_discrete b [y; x] (given i).
Proof.
  intros b x y i V U Lx Ly SM. rewrite (proj1 (cmi_any_value b x y i V U Lx Ly SM)), (proj1 (cmi_any_value b y x i V U Ly Lx SM)).
  assert (R : forall a, length (arr_rows a) = arr_len a) by (intros [xs|rs]; cbn [arr_rows arr_len]; [apply map_length|reflexivity]).
  rewrite CMI_sym; [reflexivity|rewrite !R; congruence|rewrite R, (sample_length i U); congruence].
Qed.

(** with a constant condition the conditional is the mutual information of the rows *)
Theorem C18_cmi_any_constant : forall b (us vs : list (list Z)) i, valid_base b -> SpecInput.usable i -> length us = input_size i -> length vs = input_size i -> small2 (input_size i) ->
  (forall r s, In r (SpecInput.sample i) -> In s (SpecInput.sample i) -> r = s) ->
  cmi_discrete b [A2 us; A2 vs] (given i) = mi_discrete b (Some 0%Z) [A2 us; A2 vs].
Proof.
  intros b us vs i V U Lx Ly SM C. pose proof U as [HN _]. assert (NE : us <> []) by (apply length_pos_ne; lia).
  rewrite (proj1 (cmi_any_value b (A2 us) (A2 vs) i V U Lx Ly SM)), mi_rows_value by congruence. cbn [arr_rows].
  destruct (given_reduced i U) as (z & _ & Lz & Pz). do 2 f_equal.
  pose proof (reduce_rows_partition us) as Pu. pose proof (reduce_rows_partition vs) as Pv. pose proof (reduce_rows_length us) as Lu. pose proof (reduce_rows_length vs) as Lv.
  rewrite (CMI_partition us vs (SpecInput.sample i) (reduce_rows us) (reduce_rows vs) z) by (rewrite ?(sample_length i U); congruence || assumption).
  rewrite (MI_partition us vs (reduce_rows us) (reduce_rows vs)) by (congruence || assumption).
  apply CMI_const_cond; try congruence; [apply length_pos_ne; lia|].
  intros p q Hp Hq. apply (In_nth _ _ 0%Z) in Hp, Hq. destruct Hp as (k & Hk & <-), Hq as (l & Hl & <-). destruct Pz as [PL PE]. 
  apply (PE k l [] 0%Z); [congruence|congruence|]. apply C; apply nth_In; congruence.
Qed.

(** chain rule for 2-D arrays: the joint variable is the pair of arrays side by side *)
Theorem C18_rows_chain_rule : forall b (us vs ws : list (list Z)), valid_base b -> length us = length vs -> length us = length ws -> us <> [] -> small2 (length us) ->
  table (A2 vs) -> let vw := map (fun '(r, s) => r ++ s) (combine vs ws) in
  exists v1 v2 v3, mi_discrete b (Some 0%Z) [A2 us; A2 vw] = Ok v1 /\ mi_discrete b (Some 0%Z) [A2 us; A2 ws] = Ok v2 /\
    cmi_discrete b [A2 us; A2 vs] (RArr (A2 ws)) = Ok v3 /\ v1 = v2 + v3.
Proof.
  intros b us vs ws V L1 L2 NE SM (w & W) vw. pose proof (len_pos us NE) as HN.
  assert (U : SpecInput.usable (EArr (A2 ws))) by (split; [cbn; lia|exact Logic.I]).
  assert (Lvw : length vw = length us) by (unfold vw; rewrite map_length, combine_length; lia).
  exists (MI us vw / unit_of b), (MI us ws / unit_of b), (CMI us vs ws / unit_of b).
  split; [apply mi_rows_value; congruence|]. split; [apply mi_rows_value; congruence|].
  split; [apply (proj1 (cmi_any_value b (A2 us) (A2 vs) (EArr (A2 ws)) V U L2 ltac:(cbn; congruence) ltac:(cbn; rewrite <- L2; exact SM)))|].
  rewrite (MI_partition us vw us (combine vs ws)); [rewrite (MI_chain us vs ws) by assumption; unfold Rdiv; ring|congruence|apply same_partition_refl|].
  unfold vw. apply same_partition_sym, map_inj_partition. intros [r1 s1] [r2 s2] H1 H2 E. apply in_combine_l in H1, H2.
  assert (length r1 = length r2) by (rewrite (W r1 H1), (W r2 H2); reflexivity). destruct (app_inj_len r1 r2 s1 s2 ltac:(assumption) E); congruence.
Qed.
Print Assumptions C18_rows_chain_rule.

Example C16_any_example : SpecInput.usable (ETuple [A1 [0; 1; 1]; A2 [[2; 3]; [2; 3]; [4; 5]]]%Z) /\ input_size (ETuple [A1 [0; 1; 1]; A2 [[2; 3]; [2; 3]; [4; 5]]]%Z) = 3%nat /\
  SpecInput.sample (ETuple [A1 [0; 1; 1]; A2 [[2; 3]; [2; 3]; [4; 5]]]%Z) = [[0; 2; 3]; [1; 2; 3]; [1; 4; 5]]%Z /\ small2 3 /\ table (A2 [[2; 3]; [2; 3]; [4; 5]]%Z).
Proof.
  split; [split; [cbn; lia|repeat constructor]|]. split; [reflexivity|]. split; [reflexivity|]. split; [unfold small2; lia|].
  exists 2%nat. intros r Hr. cbn [arr_rows In] in Hr. destruct Hr as [<-|[<-|[<-|[]]]]; reflexivity.
Qed.
