(** Property theorems: MI / CMI / TE / CTE from entropies (C25), for every lawful entropy estimator. *)
From Coq Require Import Reals Lra Lia List ZArith Arith Bool Permutation Sorted.
From Verif Require Import Res RSum Spec SpecTE Info Info2 Ord MBase MData MEntropy MMI MTE MGeneric SpecBase PBase PEntropy PCoo PMI PMI2 PMI3 PCMI PMI4 PCMI2 PMI5 PMI6 PTE PTE2 PropsTE PGeneric PGeneric2.
Import ListNotations.
Local Open Scope R_scope.

(** [lawful e b] (PGeneric): on every non-empty sample [global_val()] is finite and [local_vals()]
    either averages to it with one value per sample, or is declared unavailable. *)

(** MI of any approach that uses the entropy combination is the sum of that approach's own
    entropies minus its joint entropy *)
Theorem C25_mi_from_entropies e b vars n : lawful e b -> (2 <= length vars)%nat ->
  Forall (fun a => arr_len a = n) vars -> (0 < n)%nat ->
  exists (H : einput -> R) v,
    (forall x, In x vars -> entropy_of e b (EArr x) = Ok (H (EArr x))) /\
    entropy_of e b (ETuple vars) = Ok (H (ETuple vars)) /\
    gen_mi e b (Some 0%Z) vars = Ok v /\
    value_global v = sumf (fun x => H (EArr x)) vars - H (ETuple vars) /\
    (forall ls, v = VArr ls -> length ls = n).
Proof.
  intros HL Hk F Hn.
  assert (NE : vars <> []) by (intros ->; simpl in Hk; lia).
  destruct (from_entropies_lawful e b (map EArr vars) [ETuple vars] n) as (G & v & HG & E & V & L);
    [exact HL|destruct vars; [congruence|discriminate]|exact Hn| |].
  - intros i Hi. apply in_app_or in Hi. destruct Hi as [Hi|[<-|[]]].
    + apply in_map_iff in Hi. destruct Hi as (a & <- & Ha). rewrite Forall_forall in F.
      destruct (make_data_arr a) as (xs & E1 & E2 & _); [rewrite (F a Ha); exact Hn|].
      exists xs. split; [exact E1|]. rewrite E2. auto.
    + destruct (make_data_tup n vars NE F Hn) as (xs & E1 & E2 & _). exists xs. tauto.
  - exists G, v. split; [|split; [|split; [|split]]].
    + intros x Hx. apply HG. apply in_or_app. left. apply in_map. exact Hx.
    + apply HG. apply in_or_app. right. left. reflexivity.
    + unfold gen_mi. rewrite (mi_init_0 vars n) by assumption. exact E.
    + rewrite V. rewrite sumf_map. simpl. ring.
    + intros ls ->. exact L.
Qed.

Theorem C25_cmi_from_entropies e b x y vars cond n : lawful e b ->
  Forall (fun a => arr_len a = n) (x :: y :: vars) -> arr_len cond = n -> (0 < n)%nat ->
  let all := x :: y :: vars in
  exists (H : einput -> R) v,
    (forall i, In i (map (fun a => ETuple [a; cond]) all ++ [ETuple (all ++ [cond]); EArr cond]) ->
       entropy_of e b i = Ok (H i)) /\
    gen_cmi e b all cond = Ok v /\
    value_global v = sumf (fun a => H (ETuple [a; cond])) all - H (ETuple (all ++ [cond])) - H (EArr cond) /\
    (forall ls, v = VArr ls -> length ls = n).
Proof.
  intros HL F Lc Hn all.
  destruct (from_entropies_lawful e b (map (fun a => ETuple [a; cond]) all) [ETuple (all ++ [cond]); EArr cond] n)
    as (G & v & HG & E & V & L);
    [exact HL|discriminate|exact Hn| |].
  - intros i Hi. apply in_app_or in Hi. destruct Hi as [Hi|[<-|[<-|[]]]].
    + apply in_map_iff in Hi. destruct Hi as (a & <- & Ha). rewrite Forall_forall in F.
      destruct (make_data_tup n [a; cond]) as (xs & E1 & E2 & _); [discriminate| |exact Hn|exists xs; tauto].
      constructor; [auto|]. constructor; [exact Lc|constructor].
    + destruct (make_data_tup n (all ++ [cond])) as (xs & E1 & E2 & _); [discriminate| |exact Hn|exists xs; tauto].
      apply Forall_app. split; [exact F|]. constructor; [exact Lc|constructor].
    + destruct (make_data_arr cond) as (xs & E1 & E2 & _); [lia|]. exists xs. split; [exact E1|congruence].
  - exists G, v. split; [exact HG|split; [|split]].
    + unfold gen_cmi, all. unfold cmi_init.
      pose proof (Forall_inv F) as F1. pose proof (Forall_inv (Forall_inv_tail F)) as F2.
      cbv beta in F1, F2. rewrite F1, F2, Lc, Nat.eqb_refl. exact E.
    + rewrite V. rewrite sumf_map. simpl. ring.
    + intros ls ->. exact L.
Qed.

(** TE of any such approach is H(dest hist, future) + H(source hist, dest hist) - H(all) - H(dest hist),
    with the histories [sh], [dh], [df] produced by the embedding (C20) *)
Theorem C25_te_from_entropies e b source dest l k s n : lawful e b ->
  arr_len source = n -> arr_len dest = n -> (1 <= l)%nat -> (1 <= k)%nat -> (1 <= s)%nat ->
  (Nat.max k l * s < n)%nat ->
  exists sh dh df (H : list (list Z) -> R) v,
    te_observations source dest (I l) (I k) (I s) RNone = Ok (sh, dh, df) /\
    (forall rows, In rows [hcat [dh; df]; hcat [sh; dh]; hcat [sh; dh; df]; dh] ->
       entropy_of e b (EArr (A2 rows)) = Ok (H rows)) /\
    gen_te e b source dest (te_kw l k s) RNone = Ok v /\
    value_global v = H (hcat [dh; df]) + H (hcat [sh; dh]) - H (hcat [sh; dh; df]) - H dh /\
    (forall ls, v = VArr ls -> length ls = length df).
Proof.
  intros HL Ls Ld Hl Hk Hs Hd.
  set (ts := base_times n (Nat.max k l * s) s).
  set (sh := flat_pasts source s l ts). set (dh := flat_pasts dest s k ts). set (df := flat_presents dest ts).
  assert (E0 : te_observations source dest (I l) (I k) (I s) RNone = Ok (sh, dh, df))
    by exact (te_obs_ok source dest l k s n Hl Hk Hs Ls Ld RNone ltac:(discriminate) Hd Logic.I).
  assert (Lt : (0 < length ts)%nat) by (unfold ts; rewrite base_times_length; apply nrows_pos; assumption).
  assert (L1 : length sh = length ts) by apply flat_pasts_length.
  assert (L2 : length dh = length ts) by apply flat_pasts_length.
  assert (L3 : length df = length ts) by apply flat_presents_length.
  destruct (from_entropies_lawful e b [EArr (A2 (hcat [dh; df])); EArr (A2 (hcat [sh; dh]))]
     [EArr (A2 (hcat [sh; dh; df])); EArr (A2 dh)] (length ts)) as (G & v & HG & E & V & L);
    [exact HL|discriminate|exact Lt| |].
  - assert (X : forall rows, length rows = length ts -> exists xs, make_data (EArr (A2 rows)) = Ok (dd_of xs) /\ length xs = length ts).
    { intros rows Lr. destruct (make_data_arr (A2 rows)) as (xs & E1 & E2 & _); [simpl; lia|].
      exists xs. split; [exact E1|]. simpl in E2. congruence. }
    intros i [<-|[<-|[<-|[<-|[]]]]]; apply X; rewrite ?hcat_length; assumption.
  - exists sh, dh, df, (fun rows => G (EArr (A2 rows))), v.
    split; [exact E0|]. split; [|split; [|split]].
    + intros rows [<-|[<-|[<-|[<-|[]]]]]; apply HG; simpl; tauto.
    + unfold gen_te. cbn [a_prop a_offset a_step a_src a_dest te_kw].
      rewrite te_init_plain by congruence. cbn [bind fst snd]. rewrite E0. cbn [bind]. exact E.
    + rewrite V. simpl. ring.
    + intros ls ->. rewrite L3. exact L.
Qed.

Theorem C25_cte_from_entropies e b source dest cond l k m s n : lawful e b ->
  arr_len source = n -> arr_len dest = n -> arr_len cond = n ->
  (1 <= l)%nat -> (1 <= k)%nat -> (1 <= m)%nat -> (1 <= s)%nat ->
  (Nat.max (Nat.max k l) m * s < n)%nat ->
  exists sh dh df ch (H : list (list Z) -> R) v,
    cte_observations source dest cond (I l) (I k) (I m) (I s) RNone = Ok (sh, dh, df, ch) /\
    (forall rows, In rows [hcat [dh; df; ch]; hcat [sh; dh; ch]; hcat [sh; dh; df; ch]; hcat [dh; ch]] ->
       entropy_of e b (EArr (A2 rows)) = Ok (H rows)) /\
    gen_cte e b source dest cond (cte_kw l k m s) = Ok v /\
    value_global v = H (hcat [dh; df; ch]) + H (hcat [sh; dh; ch]) - H (hcat [sh; dh; df; ch]) - H (hcat [dh; ch]).
Proof.
  intros HL Ls Ld Lc Hl Hk Hm Hs Hd.
  set (ts := base_times n (Nat.max (Nat.max k l) m * s) s).
  set (sh := flat_pasts source s l ts). set (dh := flat_pasts dest s k ts). set (df := flat_presents dest ts).
  set (ch := flat_pasts cond s m ts).
  assert (E0 : cte_observations source dest cond (I l) (I k) (I m) (I s) RNone = Ok (sh, dh, df, ch))
    by exact (cte_obs_ok source dest l k s n Hl Hk Hs Ls Ld cond m RNone Hm Lc ltac:(discriminate) Hd Logic.I).
  assert (Lt : (0 < length ts)%nat) by (unfold ts; rewrite base_times_length; apply nrows_pos; assumption).
  assert (L1 : length sh = length ts) by apply flat_pasts_length.
  assert (L2 : length dh = length ts) by apply flat_pasts_length.
  destruct (from_entropies_lawful e b [EArr (A2 (hcat [dh; df; ch])); EArr (A2 (hcat [sh; dh; ch]))]
     [EArr (A2 (hcat [sh; dh; df; ch])); EArr (A2 (hcat [dh; ch]))] (length ts)) as (G & v & HG & E & V & L);
    [exact HL|discriminate|exact Lt| |].
  - assert (X : forall rows, length rows = length ts -> exists xs, make_data (EArr (A2 rows)) = Ok (dd_of xs) /\ length xs = length ts).
    { intros rows Lr. destruct (make_data_arr (A2 rows)) as (xs & E1 & E2 & _); [simpl; lia|].
      exists xs. split; [exact E1|]. simpl in E2. congruence. }
    intros i [<-|[<-|[<-|[<-|[]]]]]; apply X; rewrite ?hcat_length; assumption.
  - exists sh, dh, df, ch, (fun rows => G (EArr (A2 rows))), v.
    split; [exact E0|]. split; [|split].
    + intros rows [<-|[<-|[<-|[<-|[]]]]]; apply HG; simpl; tauto.
    + unfold gen_cte. cbn [a_prop a_offset a_step a_src a_dest a_cond cte_kw].
      rewrite (cte_init_plain source dest cond n) by assumption. cbn [bind]. rewrite E0. cbn [bind]. exact E.
    + rewrite V. simpl. ring.
Qed.

(** the discrete and Miller-Madow estimators are lawful, so the above is not vacuous *)
Theorem C25_discrete_lawful b : valid_base b -> lawful est_discrete b /\ lawful est_mm b.
Proof.
  intros Hb. split; intros xs Hx; eexists; [apply discrete_lawful_on|apply mm_lawful_on]; assumption.
Qed.

(** Agreement of the entropy combination (instantiated with the discrete entropy) with the dedicated
    discrete estimators. *)
Lemma discrete_G b i : valid_base b -> forall xs, make_data i = Ok (dd_of xs) -> xs <> [] ->
  entropy_of est_discrete b i = Ok (Ent xs / unit_of b).
Proof.
  intros Hb xs E Hx. unfold entropy_of. rewrite E. cbn [bind].
  destruct (discrete_lawful_on b xs Hb Hx) as [-> _]. reflexivity.
Qed.

Theorem C25_mi_two_agree b xs ys : big_base b -> length xs = length ys -> xs <> [] -> small2 (length xs) ->
  exists v w, gen_mi est_discrete b (Some 0%Z) [A1 xs; A1 ys] = Ok v /\
    mi_discrete b (Some 0%Z) [A1 xs; A1 ys] = Ok w /\ value_global v = w.
Proof.
  intros Hb L Hx Hs. pose proof (big_valid b Hb) as Hv.
  assert (Hn : (0 < length xs)%nat) by (apply len_pos; exact Hx).
  destruct (C25_mi_from_entropies est_discrete b [A1 xs; A1 ys] (length xs)) as (G & v & H1 & H2 & E & V & _);
    [apply C25_discrete_lawful; exact Hv|simpl; lia| |exact Hn|].
  { constructor; [reflexivity|]. constructor; [simpl; congruence|constructor]. }
  exists v, (MI xs ys / unit_of b). split; [exact E|]. split; [apply mi2_api; assumption|].
  rewrite V. simpl.
  assert (Hy : ys <> []) by (intros ->; simpl in L; lia).
  assert (G1 : G (EArr (A1 xs)) = Ent xs / unit_of b).
  { pose proof (H1 (A1 xs) ltac:(simpl; tauto)) as Q.
    rewrite (discrete_G b (EArr (A1 xs)) Hv xs) in Q; [congruence|apply from_data_dd; exact Hx|exact Hx]. }
  assert (G2 : G (EArr (A1 ys)) = Ent ys / unit_of b).
  { pose proof (H1 (A1 ys) ltac:(simpl; tauto)) as Q.
    rewrite (discrete_G b (EArr (A1 ys)) Hv ys) in Q; [congruence|apply from_data_dd; exact Hy|exact Hy]. }
  assert (G3 : G (ETuple [A1 xs; A1 ys]) = Ent (combine xs ys) / unit_of b).
  { assert (HLn : all_len (length xs) [xs; ys]) by (constructor; [reflexivity|]; constructor; [congruence|constructor]).
    rewrite (discrete_G b (ETuple [A1 xs; A1 ys]) Hv (reduce_rows (rows_of 0%Z (length xs) [xs; ys]))) in H2.
    - rewrite reduce_rows_Ent in H2. injection H2 as <-. f_equal.
      apply Ent_partition. split; [rewrite rows_of_length, combine_length; lia|].
      rewrite rows_of_length. intros i j dx [d1 d2] Hi Hj. unfold rows_of.
      rewrite !(nth_seq_map (fun t => map (fun c => nth t c 0%Z) [xs; ys])) by assumption.
      rewrite !combine_nth by exact L. cbn [map].
      rewrite !(nth_indep xs d1 0%Z), !(nth_indep ys d2 0%Z) by congruence.
      split; intros Q; injection Q; congruence.
    - apply (make_data_tuple (length xs) [xs; ys]); [discriminate|exact HLn|exact Hn].
    - rewrite reduce_rows_nil. intros Q. apply (f_equal (@length _)) in Q. rewrite rows_of_length in Q. simpl in Q. lia. }
  rewrite G1, G2, G3. unfold MI, Rdiv. ring.
Qed.

Theorem C25_mi_many_agree b n cols : valid_base b -> (3 <= length cols)%nat -> all_len n cols -> (0 < n)%nat ->
  no_constant cols -> (Z.of_nat n ^ Z.of_nat (length cols) < 2 ^ 64)%Z ->
  exists v w, gen_mi est_discrete b (Some 0%Z) (map A1 cols) = Ok v /\
    mi_discrete b (Some 0%Z) (map A1 cols) = Ok w /\ value_global v = w.
Proof.
  intros Hv Hk HL Hn Hc Hs.
  assert (F : Forall (fun a => arr_len a = n) (map A1 cols)).
  { rewrite Forall_forall. intros a Ha. apply in_map_iff in Ha. destruct Ha as (c & <- & Hc').
    unfold all_len in HL. rewrite Forall_forall in HL. exact (HL c Hc'). }
  destruct (C25_mi_from_entropies est_discrete b (map A1 cols) n) as (G & v & H1 & H2 & E & V & _);
    [apply C25_discrete_lawful; exact Hv|rewrite map_length; lia|exact F|exact Hn|].
  exists v. eexists. split; [exact E|]. split.
  - unfold mi_discrete. rewrite (mi_init_0 (map A1 cols) n) by (rewrite ?map_length; assumption || lia). cbn [bind].
    apply (mi_nd_general b None n cols); try assumption. exact Logic.I.
  - rewrite V, Rplus_0_r, sumf_map. unfold TotalCorr, Rdiv. rewrite Rmult_minus_distr_r. f_equal.
    + rewrite <- sumf_scal_r. apply sumf_ext. intros c Hc'.
      pose proof (H1 (A1 c) (in_map A1 cols c Hc')) as Q.
      assert (c <> []).
      { intros ->. unfold all_len in HL. rewrite Forall_forall in HL. specialize (HL [] Hc'). simpl in HL. lia. }
      rewrite (discrete_G b (EArr (A1 c)) Hv c) in Q; [|apply from_data_dd; assumption|assumption].
      injection Q as <-. reflexivity.
    + rewrite (discrete_G b (ETuple (map A1 cols)) Hv (reduce_rows (rows_of 0%Z n cols))) in H2.
      * rewrite reduce_rows_Ent in H2. injection H2 as <-. reflexivity.
      * apply (make_data_tuple n cols); [intros ->; simpl in Hk; lia|exact HL|exact Hn].
      * rewrite reduce_rows_nil. intros Q. apply (f_equal (@length _)) in Q. rewrite rows_of_length in Q. simpl in Q. lia.
Qed.

Lemma discrete_rows b rows : valid_base b -> rows <> [] ->
  entropy_of est_discrete b (EArr (A2 rows)) = Ok (Ent rows / unit_of b).
Proof.
  intros Hv Hr.
  assert (reduce_rows rows <> []) by (rewrite reduce_rows_nil; exact Hr).
  rewrite (discrete_G b (EArr (A2 rows)) Hv (reduce_rows rows)); [|apply from_data_dd; assumption|assumption].
  rewrite reduce_rows_Ent. reflexivity.
Qed.

(** rectangular series: [rect w a] says every row of [a] has [w] entries (1-D arrays: [w = 1]) *)
Theorem C25_te_agree b source dest l k s n ws wd : valid_base b ->
  arr_len source = n -> arr_len dest = n -> rect ws source -> rect wd dest ->
  (1 <= l)%nat -> (1 <= k)%nat -> (1 <= s)%nat -> (Nat.max k l * s < n)%nat -> small2 n ->
  exists v w, gen_te est_discrete b source dest (te_kw l k s) RNone = Ok v /\
    te_discrete b source dest (te_kw l k s) = Ok w /\ value_global v = w.
Proof.
  intros Hv Ls Ld Rs Rd Hl Hk Hs Hd Hn.
  destruct (C25_te_from_entropies est_discrete b source dest l k s n) as (sh & dh & df & H & v & E0 & HH & E & V & _);
    try assumption; [apply C25_discrete_lawful; exact Hv|].
  destruct (te_gen_ok b None source dest l k s n Hv Logic.I Ls Ld Hl Hk Hs Hd Hn) as [W _].
  exists v. eexists. split; [exact E|]. split; [exact W|]. rewrite V, Rplus_0_r.
  rewrite (te_obs_ok source dest l k s n Hl Hk Hs Ls Ld RNone ltac:(discriminate) Hd Logic.I) in E0.
  set (ts := base_times n (Nat.max k l * s) s) in *. injection E0 as <- <- <-.
  set (sh := flat_pasts source s l ts) in *. set (dh := flat_pasts dest s k ts) in *. set (df := flat_presents dest ts) in *.
  assert (Lt : (0 < length ts)%nat) by (unfold ts; rewrite base_times_length; apply nrows_pos; assumption).
  assert (L1 : length df = length sh) by (unfold df, sh; rewrite flat_presents_length, flat_pasts_length; reflexivity).
  assert (L2 : length df = length dh) by (unfold df, dh; rewrite flat_presents_length, flat_pasts_length; reflexivity).
  assert (Lf : length df = length ts) by apply flat_presents_length.
  assert (HT : forall b, In b ts -> (b < n)%nat).
  { intros b' Hb'. unfold ts in Hb'. rewrite base_times_In in Hb' by exact Hs. lia. }
  destruct (te_space_entropies sh dh df (l * ws) (k * wd) L1 L2) as (P1 & P2 & P3);
    [apply flat_pasts_width; [exact Rs|rewrite Ls; exact HT]|apply flat_pasts_width; [exact Rd|rewrite Ld; exact HT]|].
  assert (X : forall rows, length rows = length ts -> In rows [hcat [dh; df]; hcat [sh; dh]; hcat [sh; dh; df]; dh] -> H rows = Ent rows / unit_of b).
  { intros rows Lr Hr. pose proof (HH rows Hr) as Q. rewrite discrete_rows in Q; [congruence|exact Hv|].
    intros ->. simpl in Lr. lia. }
  rewrite !X; try (simpl; tauto); try (rewrite ?hcat_length; congruence).
  rewrite (Ent_partition _ _ P1), (Ent_partition _ _ P2), (Ent_partition _ _ P3). unfold CMI, Rdiv. ring.
Qed.

Theorem C25_cte_agree b source dest cond l k m s n ws wd : valid_base b ->
  arr_len source = n -> arr_len dest = n -> length cond = n -> rect ws source -> rect wd dest ->
  (1 <= l)%nat -> (1 <= k)%nat -> (1 <= m)%nat -> (1 <= s)%nat ->
  (Nat.max (Nat.max k l) m * s < n)%nat -> small2 n ->
  exists v w, gen_cte est_discrete b source dest (A1 cond) (cte_kw l k m s) = Ok v /\
    cte_discrete b source dest (RArr (A1 cond)) (cte_kw l k m s) = Ok w /\ value_global v = w.
Proof.
  intros Hv Ls Ld Lc Rs Rd Hl Hk Hm Hs Hd Hn.
  destruct (C25_cte_from_entropies est_discrete b source dest (A1 cond) l k m s n) as (sh & dh & df & ch & H & v & E0 & HH & E & V);
    try assumption; [apply C25_discrete_lawful; exact Hv|].
  destruct (cte_gen_ok b None source dest (A1 cond) l k m s n Hv Logic.I Ls Ld Lc Hl Hk Hm Hs Hd Hn) as [W _].
  exists v. eexists. split; [exact E|]. split; [exact W|]. rewrite V, Rplus_0_r.
  rewrite (cte_obs_ok source dest l k s n Hl Hk Hs Ls Ld (A1 cond) m RNone Hm Lc ltac:(discriminate) Hd Logic.I) in E0.
  set (ts := base_times n (Nat.max (Nat.max k l) m * s) s) in *. injection E0 as <- <- <- <-.
  set (sh := flat_pasts source s l ts) in *. set (dh := flat_pasts dest s k ts) in *. set (df := flat_presents dest ts) in *.
  set (ch := flat_pasts (A1 cond) s m ts) in *.
  assert (Lt : (0 < length ts)%nat) by (unfold ts; rewrite base_times_length; apply nrows_pos; assumption).
  assert (L1 : length df = length sh) by (unfold df, sh; rewrite flat_presents_length, flat_pasts_length; reflexivity).
  assert (L2 : length df = length dh) by (unfold df, dh; rewrite flat_presents_length, flat_pasts_length; reflexivity).
  assert (L3 : length df = length ch) by (unfold df, ch; rewrite flat_presents_length, flat_pasts_length; reflexivity).
  assert (Lf : length df = length ts) by apply flat_presents_length.
  assert (HT : forall b, In b ts -> (b < n)%nat).
  { intros b' Hb'. unfold ts in Hb'. rewrite base_times_In in Hb' by exact Hs. lia. }
  destruct (cte_space_entropies sh dh df ch (l * ws) (k * wd) wd L1 L2 L3) as (P1 & P2 & P3);
    [apply flat_pasts_width; [exact Rs|rewrite Ls; exact HT]|apply flat_pasts_width; [exact Rd|rewrite Ld; exact HT]
    |apply flat_presents_width; [exact Rd|rewrite Ld; exact HT]|].
  assert (X : forall rows, length rows = length ts -> In rows [hcat [dh; df; ch]; hcat [sh; dh; ch]; hcat [sh; dh; df; ch]; hcat [dh; ch]] -> H rows = Ent rows / unit_of b).
  { intros rows Lr Hr. pose proof (HH rows Hr) as Q. rewrite discrete_rows in Q; [congruence|exact Hv|].
    intros ->. simpl in Lr. lia. }
  rewrite !X; try (simpl; tauto); try (rewrite ?hcat_length; congruence).
  rewrite (Ent_partition _ _ P1), (Ent_partition _ _ P2), (Ent_partition _ _ P3). unfold CMI, Rdiv. ring.
Qed.

(** two-variable CMI *)
Theorem C25_cmi_agree b xs ys zs : valid_base b -> length xs = length ys -> length xs = length zs -> xs <> [] ->
  small2 (length xs) ->
  exists v w, gen_cmi est_discrete b [A1 xs; A1 ys] (A1 zs) = Ok v /\
    cmi_discrete b [A1 xs; A1 ys] (RArr (A1 zs)) = Ok w /\ value_global v = w.
Proof.
  intros Hv L1 L2 Hx Hs. set (n := length xs) in *.
  assert (Hn : (0 < n)%nat) by (apply len_pos; exact Hx).
  destruct (C25_cmi_from_entropies est_discrete b (A1 xs) (A1 ys) [] (A1 zs) n) as (G & v & HG & E & V & _).
  - apply C25_discrete_lawful; exact Hv.
  - constructor; [reflexivity|]. constructor; [simpl; congruence|constructor].
  - simpl; congruence.
  - exact Hn.
  - exists v, (CMI xs ys zs / unit_of b). split; [exact E|].
    destruct (cmi2_api b xs ys zs Hv L1 L2 Hx Hs) as [W _]. split; [exact W|].
    rewrite V. clear V. simpl in HG. simpl sumf. simpl app.
    assert (T : forall cols, cols <> [] -> all_len n cols ->
      entropy_of est_discrete b (ETuple (map A1 cols)) = Ok (Ent (rows_of 0%Z n cols) / unit_of b)).
    { intros cols NE HL.
      rewrite (discrete_G b (ETuple (map A1 cols)) Hv (reduce_rows (rows_of 0%Z n cols))).
      - rewrite reduce_rows_Ent. reflexivity.
      - apply (make_data_tuple n cols); assumption.
      - rewrite reduce_rows_nil. intros Q. apply (f_equal (@length _)) in Q. rewrite rows_of_length in Q. simpl in Q. lia. }
    assert (A2l : forall us, length us = n -> all_len n [us; zs]) by (intros us Lu; constructor; [exact Lu|]; constructor; [congruence|constructor]).
    assert (G1 : G (ETuple [A1 xs; A1 zs]) = Ent (rows_of 0%Z n [xs; zs]) / unit_of b).
    { assert (Q : Ok (Ent (rows_of 0%Z n [xs; zs]) / unit_of b) = Ok (G (ETuple [A1 xs; A1 zs]))).
      { rewrite <- HG by tauto. symmetry. apply (T [xs; zs]); [discriminate|apply A2l; reflexivity]. }
      congruence. }
    assert (G2 : G (ETuple [A1 ys; A1 zs]) = Ent (rows_of 0%Z n [ys; zs]) / unit_of b).
    { assert (Q : Ok (Ent (rows_of 0%Z n [ys; zs]) / unit_of b) = Ok (G (ETuple [A1 ys; A1 zs]))).
      { rewrite <- HG by tauto. symmetry. apply (T [ys; zs]); [discriminate|apply A2l; congruence]. }
      congruence. }
    assert (G3 : G (ETuple [A1 xs; A1 ys; A1 zs]) = Ent (rows_of 0%Z n [xs; ys; zs]) / unit_of b).
    { assert (Q : Ok (Ent (rows_of 0%Z n [xs; ys; zs]) / unit_of b) = Ok (G (ETuple [A1 xs; A1 ys; A1 zs]))).
      { rewrite <- HG by tauto. symmetry. apply (T [xs; ys; zs]); [discriminate|].
        constructor; [reflexivity|]. apply A2l. congruence. }
      congruence. }
    assert (G4 : G (EArr (A1 zs)) = Ent zs / unit_of b).
    { assert (Hz : zs <> []) by (intros ->; simpl in L2; lia).
      assert (Q : Ok (Ent zs / unit_of b) = Ok (G (EArr (A1 zs)))).
      { rewrite <- HG by tauto. symmetry. apply discrete_G; [exact Hv|apply from_data_dd; exact Hz|exact Hz]. }
      congruence. }
    rewrite G1, G2, G3, G4.
    assert (P2 : forall us, length us = n -> same_partition (rows_of 0%Z n [us; zs]) (combine us zs)).
    { intros us Lu. split; [rewrite rows_of_length, combine_length; lia|].
      rewrite rows_of_length. intros i j dx [d1 d2] Hi Hj. unfold rows_of.
      rewrite !(nth_seq_map (fun t => map (fun c => nth t c 0%Z) [us; zs])) by assumption.
      rewrite !combine_nth by congruence. cbn [map].
      rewrite !(nth_indep us d1 0%Z), !(nth_indep zs d2 0%Z) by congruence.
      split; intros Q; injection Q; congruence. }
    rewrite (Ent_partition _ _ (P2 xs eq_refl)), (Ent_partition _ _ (P2 ys (eq_sym L1))).
    rewrite (Ent_partition _ _ (rows_of_3 xs ys zs n eq_refl (eq_sym L1) (eq_sym L2))).
    unfold CMI, Rdiv. ring.
Qed.

Example C25_hypotheses : small2 (length [0;1;1;0]%Z) /\ rect 1 (A1 [0;1;1;0]%Z) /\ rect 2 (A2 [[0;1];[1;1]]%Z) /\
  no_constant [[0;1];[1;0];[2;3]]%Z /\ (Z.of_nat 2 ^ Z.of_nat (length [[0;1];[1;0];[2;3]]%Z) < 2 ^ 64)%Z.
Proof.
  split; [unfold small2; simpl; lia|]. split; [apply rect_1d|]. split.
  - intros r [<-|[<-|[]]]; reflexivity.
  - split; [|simpl; lia]. intros c [<-|[<-|[<-|[]]]].
    + exists 0%Z, 1%Z. simpl. repeat split; try tauto; lia.
    + exists 1%Z, 0%Z. simpl. repeat split; try tauto; lia.
    + exists 2%Z, 3%Z. simpl. repeat split; try tauto; lia.
Qed.
