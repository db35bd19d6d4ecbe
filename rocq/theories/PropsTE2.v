(** Property theorems: structure of the discrete transfer entropies (C85): chain rule for joint sources, growth with
    the source history, vanishing when the condition or the destination history already contains the source history. *)
From Coq Require Import Reals Lra Lia List ZArith Arith Bool Permutation Sorted.
From Verif Require Import Res RSum Spec SpecTE Info Info2 Ord MBase MData MEntropy MMI MTE MGeneric SpecBase PBase PEntropy PCoo PMI PMI2 PMI3 PCMI PMI4 PCMI2 PMI5 PMI6 PropsMI PTE PTE2 PropsTE PGeneric PGeneric2 PropsGeneric PEst6 PropsOrd SpecInv PropsInv.
Import ListNotations.
Local Open Scope R_scope.

Ltac part_combine := split; [rewrite ?combine_length; lia|]; rewrite ?combine_length; intros;
  repeat match goal with d : (_ * _)%type |- _ => destruct d end;
  rewrite !combine_nth by (rewrite ?combine_length; lia); rewrite !pair_equal_spec;
  repeat match goal with |- context [nth ?i ?l ?d] => match goal with |- context [nth i l ?d'] => lazymatch d' with d => fail | _ =>
     rewrite !(nth_indep l d' d) by (rewrite ?combine_length in *; lia) end end end; tauto.

Section Chain.
Context {A B C D : Type} `{EqDec A} `{EqDec B} `{EqDec C} `{EqDec D}.
Variables (f : list A) (a : list B) (c : list C) (d : list D).
Hypotheses (L1 : length f = length a) (L2 : length f = length c) (L3 : length f = length d).

Lemma CMI_chain_list : CMI f (combine a c) d = CMI f c d + CMI f a (combine d c).
Proof using L1 L2 L3.
  unfold CMI.
  rewrite (Ent_partition (combine (combine a c) d) (combine a (combine d c))) by part_combine.
  rewrite (Ent_partition (combine c d) (combine d c)) by part_combine.
  rewrite (Ent_partition (combine (combine f c) d) (combine f (combine d c))) by part_combine.
  rewrite (Ent_partition (combine (combine f (combine a c)) d) (combine (combine f a) (combine d c))) by part_combine.
  ring.
Qed.
End Chain.

(** [y] a function of [z]: no information about anything beyond [z] *)
Lemma CMI_determined {A B C} `{EqDec A} `{EqDec B} `{EqDec C} (f : list A) (g : C -> B) (z : list C) :
  length f = length z -> CMI f (map g z) z = 0.
Proof.
  intros L. unfold CMI.
  assert (P1 : same_partition (combine (map g z) z) z).
  { split; [rewrite combine_length, map_length; lia|]. rewrite combine_length, map_length. intros i j [d1 d2] dy Hi Hj.
    rewrite !combine_nth by apply map_length. rewrite !pair_equal_spec.
    rewrite !(nth_indep (map g z) d1 (g dy)), !(nth_indep z d2 dy) by (rewrite ?map_length; lia). rewrite !(map_nth g). split; [tauto|].
    intros ->. tauto. }
  rewrite (Ent_partition _ _ P1).
  rewrite (Ent_partition (combine (combine f (map g z)) z) (combine f z)); [ring|].
  split; [rewrite !combine_length, map_length; lia|]. rewrite !combine_length, map_length. intros i j [[d1 d2] d3] [e1 e2] Hi Hj.
  rewrite !combine_nth by (rewrite ?combine_length, ?map_length; lia). rewrite !pair_equal_spec.
  rewrite !(nth_indep (map g z) d2 (g d3)), !(nth_indep z e2 d3), !(nth_indep f e1 d1) by (rewrite ?map_length; lia).
  rewrite !(map_nth g). split; [tauto|]. intros [-> ->]. tauto.
Qed.

(** shorter histories are parts of longer ones *)
Lemma past_suffix {A} (d : A) xs s l l' b : (l <= l')%nat -> past d xs s l b = skipn (l' - l) (past d xs s l' b).
Proof.
  intros Hl. unfold past. rewrite <- (firstn_skipn (l' - l) (seq 0 l')) at 1. rewrite map_app.
  assert (E : firstn (l' - l) (seq 0 l') = seq 0 (l' - l) /\ skipn (l' - l) (seq 0 l') = seq (l' - l) l).
  { replace (seq 0 l') with (seq 0 (l' - l) ++ seq (0 + (l' - l)) l) by (rewrite <- seq_app; f_equal; lia). simpl.
    rewrite firstn_app, skipn_app, seq_length, Nat.sub_diag, firstn_O, app_nil_r. simpl.
    rewrite firstn_all2, skipn_all2 by (rewrite seq_length; lia). auto. }
  destruct E as [-> ->]. rewrite skipn_app, map_length, seq_length, Nat.sub_diag.
  rewrite skipn_all2 by (rewrite map_length, seq_length; lia). simpl.
  replace (seq (l' - l) l) with (map (fun j => (l' - l + j)%nat) (seq 0 l)).
  - rewrite map_map. apply map_ext_in. intros j Hj. apply in_seq in Hj. do 2 f_equal. f_equal. lia.
  - clear. generalize (l' - l)%nat as q. intros q.
    assert (X : forall o, map (fun j => (q + j)%nat) (seq o l) = seq (q + o) l).
    { induction l as [|l IH]; intros o; [reflexivity|]. simpl. f_equal. rewrite IH. f_equal. lia. }
    rewrite X. f_equal. lia.
Qed.
Lemma pasts_suffix {A} (d : A) xs s l l' ts : (l <= l')%nat -> pasts d xs s l ts = map (skipn (l' - l)) (pasts d xs s l' ts).
Proof. intros Hl. unfold pasts. rewrite map_map. apply map_ext. intros b. apply past_suffix, Hl. Qed.

(** the chain rule: the joint source of [xs] and [zs] carries what [zs] carries plus what [xs] adds to it *)
Lemma past_rows (xs zs : list Z) s l b n : length xs = n -> length zs = n -> (b < n)%nat ->
  past [] (rows_of 0%Z n [xs; zs]) s l b = map (fun p => [fst p; snd p]) (combine (past 0%Z xs s l b) (past 0%Z zs s l b)).
Proof.
  intros Lx Lz Hb. unfold past. rewrite combine_map, map_map. apply map_ext_in. intros j Hj. cbn [fst snd].
  unfold rows_of. rewrite (nth_seq_map (fun t => map (fun c => nth t c 0%Z) [xs; zs])) by lia. reflexivity.
Qed.

Lemma joint_source_partition (xs zs : list Z) s l ts n : length xs = n -> length zs = n -> (forall b, In b ts -> (b < n)%nat) ->
  same_partition (map (@concat Z) (pasts [] (rows_of 0%Z n [xs; zs]) s l ts)) (combine (pasts 0%Z xs s l ts) (pasts 0%Z zs s l ts)).
Proof.
  intros Lx Lz HT. unfold pasts. rewrite combine_map, map_map.
  assert (E : map (fun b => concat (past [] (rows_of 0%Z n [xs; zs]) s l b)) ts =
              map (fun p => concat (map (fun q => [fst q; snd q]) (combine (fst p) (snd p))))
                  (map (fun b => (past 0%Z xs s l b, past 0%Z zs s l b)) ts)).
  { rewrite map_map. apply map_ext_in. intros b Hb. cbn [fst snd]. rewrite (past_rows xs zs s l b n) by auto. reflexivity. }
  rewrite E. apply same_partition_sym, map_inj_partition. intros [p1 p2] [q1 q2] Hp Hq EQ. cbn [fst snd] in EQ.
  apply in_map_iff in Hp, Hq. destruct Hp as (b1 & E1 & _), Hq as (b2 & E2 & _).
  assert (Lp : length p1 = l /\ length p2 = l /\ length q1 = l /\ length q2 = l).
  { injection E1 as <- <-. injection E2 as <- <-. rewrite !past_length. auto. }
  destruct Lp as (Lp1 & Lp2 & Lq1 & Lq2). clear E1 E2 E.
  revert p2 q1 q2 l Lp1 Lp2 Lq1 Lq2 EQ. induction p1 as [|u p1 IH]; intros [|u2 p2] [|v1 q1] [|v2 q2] l Lp1 Lp2 Lq1 Lq2 EQ; simpl in *; try lia; [reflexivity|].
  injection EQ as -> -> EQ. specialize (IH p2 q1 q2 (length p1) eq_refl ltac:(lia) ltac:(lia) ltac:(lia) EQ). congruence.
Qed.

Theorem C85_joint_source_chain_rule b (xs ys zs : list Z) l k s n : valid_base b ->
  length xs = n -> length ys = n -> length zs = n -> (1 <= l)%nat -> (1 <= k)%nat -> (1 <= s)%nat ->
  (Nat.max k l * s < n)%nat -> small2 n ->
  exists vj vz vx,
    te_discrete b (A2 (rows_of 0%Z n [xs; zs])) (A1 ys) (te_kw l k s) = Ok vj /\
    te_discrete b (A1 zs) (A1 ys) (te_kw l k s) = Ok vz /\
    cte_discrete b (A1 xs) (A1 ys) (RArr (A1 zs)) (cte_kw l k l s) = Ok vx /\ vj = vz + vx.
Proof.
  intros V Lx Ly Lz Hl Hk Hs Hd Hn.
  assert (M : Nat.max (Nat.max k l) l = Nat.max k l) by lia.
  do 3 eexists.
  split; [apply (C19_te_multivariate b _ _ l k s n); try assumption; simpl; rewrite ?rows_of_length; auto|].
  split; [apply (C19_te_is_conditional_mi b zs ys l k s n); assumption|].
  split; [apply (C24_cte_is_conditional_mi b xs ys zs l k l s n); try assumption; rewrite M; assumption|].
  rewrite M. set (ts := base_times n (Nat.max k l * s) s).
  assert (HT : forall b', In b' ts -> (b' < n)%nat) by (intros b' Hb'; unfold ts in Hb'; rewrite base_times_In in Hb' by exact Hs; lia).
  cbn [arr_rows].
  change (map (fun x : Z => [x]) ys) with (arr_rows (A1 ys)).
  change (map (@concat Z) (pasts [] (arr_rows (A1 ys)) s k ts)) with (flat_pasts (A1 ys) s k ts).
  change (presents [] (arr_rows (A1 ys)) ts) with (flat_presents (A1 ys) ts).
  rewrite flat_pasts_1d, flat_presents_1d by (try exact Hs; intros b' Hb'; rewrite Ly; auto).
  rewrite (CMI_partition _ _ _ (presents 0%Z ys ts) (combine (pasts 0%Z xs s l ts) (pasts 0%Z zs s l ts)) (pasts 0%Z ys s k ts)).
  - rewrite CMI_chain_list by (rewrite ?presents_length, ?pasts_length; reflexivity). unfold Rdiv. ring.
  - rewrite !map_length, presents_length, pasts_length. reflexivity.
  - rewrite map_length, presents_length, pasts_length. reflexivity.
  - apply singletons_partition.
  - apply joint_source_partition; assumption.
  - apply same_partition_refl.
Qed.
Print Assumptions C85_joint_source_chain_rule.

(** so a joint source never transfers less than each of its parts *)
Corollary C85_joint_source_more b (xs ys zs : list Z) l k s n : big_base b ->
  length xs = n -> length ys = n -> length zs = n -> (1 <= l)%nat -> (1 <= k)%nat -> (1 <= s)%nat ->
  (Nat.max k l * s < n)%nat -> small2 n ->
  exists vj vz,
    te_discrete b (A2 (rows_of 0%Z n [xs; zs])) (A1 ys) (te_kw l k s) = Ok vj /\
    te_discrete b (A1 zs) (A1 ys) (te_kw l k s) = Ok vz /\ vz <= vj.
Proof.
  intros B Lx Ly Lz Hl Hk Hs Hd Hn. pose proof (big_valid b B) as V.
  destruct (C85_joint_source_chain_rule b xs ys zs l k s n V Lx Ly Lz Hl Hk Hs Hd Hn) as (vj & vz & vx & E1 & E2 & E3 & E).
  exists vj, vz. split; [exact E1|]. split; [exact E2|].
  rewrite (C24_cte_is_conditional_mi b xs ys zs l k l s n) in E3; try assumption; [|replace (Nat.max (Nat.max k l) l) with (Nat.max k l) by lia; assumption].
  assert (0 <= vx); [|lra]. injection E3 as <-. apply big_div_nonneg; [exact B|]. apply CMI_nonneg; rewrite ?combine_length, ?presents_length, ?pasts_length; lia.
Qed.

(** longer source histories never transfer less, as long as the destination history is the longer one *)
Theorem C85_longer_source_history b (xs ys : list Z) l l' k s n : big_base b ->
  length xs = n -> length ys = n -> (1 <= l <= l')%nat -> (l' <= k)%nat -> (1 <= s)%nat -> (k * s < n)%nat -> small2 n ->
  exists v v', te_discrete b (A1 xs) (A1 ys) (te_kw l k s) = Ok v /\ te_discrete b (A1 xs) (A1 ys) (te_kw l' k s) = Ok v' /\ v <= v'.
Proof.
  intros B Lx Ly Hl Hk Hs Hd Hn. pose proof (big_valid b B) as V.
  assert (M : Nat.max k l = k) by lia. assert (M' : Nat.max k l' = k) by lia.
  do 2 eexists. split; [apply (C19_te_is_conditional_mi b xs ys l k s n); try assumption; try lia; rewrite M; exact Hd|].
  split; [apply (C19_te_is_conditional_mi b xs ys l' k s n); try assumption; try lia; rewrite M'; exact Hd|].
  rewrite M, M'. set (ts := base_times n (k * s) s). apply big_div_le; [exact B|].
  rewrite (pasts_suffix 0%Z xs s l l' ts) by lia.
  set (f := presents 0%Z ys ts). set (sh := pasts 0%Z xs s l' ts). set (dh := pasts 0%Z ys s k ts).
  assert (L1 : length f = length sh) by (unfold f, sh; rewrite presents_length, pasts_length; reflexivity).
  assert (L2 : length f = length dh) by (unfold f, dh; rewrite presents_length, pasts_length; reflexivity).
  rewrite (CMI_sym f (map _ sh) dh) by (rewrite ?map_length; assumption).
  rewrite (CMI_sym f sh dh) by assumption.
  apply CMI_map_le; congruence.
Qed.

(** a series transfers nothing to itself beyond a destination history at least as long as the source history *)
Theorem C85_self_transfer_zero b (xs : list Z) l k s n : valid_base b -> length xs = n ->
  (1 <= l <= k)%nat -> (1 <= s)%nat -> (k * s < n)%nat -> small2 n ->
  te_discrete b (A1 xs) (A1 xs) (te_kw l k s) = Ok 0.
Proof.
  intros V Lx Hl Hs Hd Hn. assert (M : Nat.max k l = k) by lia.
  rewrite (C19_te_is_conditional_mi b xs xs l k s n) by (try assumption; try lia; rewrite M; exact Hd).
  rewrite M. rewrite (pasts_suffix 0%Z xs s l k) by lia.
  rewrite CMI_determined by (rewrite presents_length, pasts_length; reflexivity). f_equal. unfold Rdiv. ring.
Qed.

(** conditioning on (at least) the source history removes the transfer; conditioning on (at most) the destination
    history changes nothing *)
Theorem C85_condition_on_source b (xs ys : list Z) l k m s n : valid_base b -> length xs = n -> length ys = n ->
  (1 <= l <= m)%nat -> (1 <= k)%nat -> (1 <= s)%nat -> (Nat.max k m * s < n)%nat -> small2 n ->
  cte_discrete b (A1 xs) (A1 ys) (RArr (A1 xs)) (cte_kw l k m s) = Ok 0.
Proof.
  intros V Lx Ly Hl Hk Hs Hd Hn. assert (M : Nat.max (Nat.max k l) m = Nat.max k m) by lia.
  rewrite (C24_cte_is_conditional_mi b xs ys xs l k m s n) by (try assumption; try lia; rewrite M; exact Hd).
  rewrite M. set (ts := base_times n (Nat.max k m * s) s).
  rewrite (pasts_suffix 0%Z xs s l m) by lia.
  set (dh := pasts 0%Z ys s k ts). set (ch := pasts 0%Z xs s m ts).
  assert (L : length dh = length ch) by (unfold dh, ch; rewrite !pasts_length; reflexivity).
  replace (map (skipn (m - l)) ch) with (map (fun p => skipn (m - l) (snd p)) (combine dh ch)).
  - rewrite CMI_determined by (rewrite combine_length, presents_length; unfold dh, ch; rewrite !pasts_length; lia). f_equal. unfold Rdiv. ring.
  - rewrite <- (map_map snd (skipn (m - l))). f_equal. clearbody dh ch. clear -L. revert ch L. induction dh as [|u dh IH]; intros [|v ch] L; try discriminate; [reflexivity|].
    simpl in *. f_equal. apply IH. congruence.
Qed.

Theorem C85_condition_on_destination b (xs ys : list Z) l k m s n : valid_base b -> length xs = n -> length ys = n ->
  (1 <= l)%nat -> (1 <= m <= k)%nat -> (1 <= s)%nat -> (Nat.max k l * s < n)%nat -> small2 n ->
  cte_discrete b (A1 xs) (A1 ys) (RArr (A1 ys)) (cte_kw l k m s) = te_discrete b (A1 xs) (A1 ys) (te_kw l k s).
Proof.
  intros V Lx Ly Hl Hk Hs Hd Hn. assert (M : Nat.max (Nat.max k l) m = Nat.max k l) by lia.
  rewrite (C24_cte_is_conditional_mi b xs ys ys l k m s n) by (try assumption; try lia; rewrite M; exact Hd).
  rewrite (C19_te_is_conditional_mi b xs ys l k s n) by (try assumption; lia).
  rewrite M. set (ts := base_times n (Nat.max k l * s) s). do 2 f_equal.
  rewrite (pasts_suffix 0%Z ys s m k) by lia. set (dh := pasts 0%Z ys s k ts).
  assert (Ld : length dh = length ts) by apply pasts_length.
  apply CMI_partition; rewrite ?combine_length, ?map_length, ?presents_length, ?pasts_length; try reflexivity; try lia; try apply same_partition_refl.
  split; [rewrite combine_length, map_length; lia|]. rewrite combine_length, map_length. intros i j [d1 d2] dy Hi Hj.
  rewrite !combine_nth by (rewrite map_length; reflexivity). rewrite !pair_equal_spec.
  rewrite !(nth_indep (map _ dh) d2 (skipn (k - m) dy)) by (rewrite map_length; lia).
  rewrite !(map_nth (skipn (k - m))), !(nth_indep dh d1 dy) by lia. split; [tauto|]. intros ->. tauto.
Qed.
Print Assumptions C85_condition_on_destination.

(** non-vacuous: four samples, l = k = m = s = 1 *)
Example C85_example : length [0; 1; 1; 0]%Z = 4%nat /\ (Nat.max 1 1 * 1 < 4)%nat /\ small2 4.
Proof. split; [reflexivity|]. split; [simpl; lia|unfold small2; lia]. Qed.
