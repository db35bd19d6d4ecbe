(** Property theorems: MI, CMI, TE, CTE of the approaches whose entropy can be undefined, "ansb" and "nsb" (C83). *)
From Coq Require Import Reals Lra Lia List ZArith Arith Bool Permutation.
From Verif Require Import Res RSum Spec SpecTE Info Info2 SpecGamma SpecEst SpecInput SpecBase Ord MBase MData MEntropy MMI MTE MGeneric MEst MNsb MComb PBase PEst PEst2 PEst5 PEst6 PMI PMI4 PTE PTE2 PropsTE PGeneric PGeneric2 PropsEst PNsb4.
Import ListNotations.
Local Open Scope R_scope.
Local Notation length := List.length.

(** [r] is the signed combination of the entropies of the given inputs: their sum over [plus] minus that over [minus] if all
    of them are defined, and undefined if one of them is *)
Definition combination (H : einput -> res R) (plus minus : list einput) (r : res value) : Prop :=
  (exists G, (forall i, In i (plus ++ minus) -> H i = Ok (G i)) /\ r = Ok (VNum (sumf G plus - sumf G minus))) \/
  ((exists i, In i (plus ++ minus) /\ H i = NonFinite) /\ r = NonFinite).

(** an estimator that gives a number or is undefined, and refuses local values *)
Definition refusing (e : est) (b : base) : Prop := forall xs, xs <> [] ->
  (exists g, e_calc e b (dd_of xs) = Ok (VNum g) /\ e_local e b (dd_of xs) = Raise TheoreticalInconsistencyError) \/
  e_calc e b (dd_of xs) = NonFinite.

Lemma comb_refusing e b plus minus : refusing e b -> plus <> [] ->
  (forall i, In i (plus ++ minus) -> exists xs, make_data i = Ok (dd_of xs) /\ xs <> []) ->
  combination (entropy_of e b) plus minus (from_entropies e b plus minus).
Proof.
  intros HR NE HD. unfold from_entropies.
  assert (MD : forall l, (forall i, In i l -> In i (plus ++ minus)) -> exists ds, mapM make_data l = Ok ds /\ Forall2 (fun i d => make_data i = Ok d /\ exists xs, d = dd_of xs /\ xs <> []) l ds).
  { induction l as [|i l IH]; intros S; [exists []; split; [reflexivity|constructor]|].
    destruct IH as (ds & E1 & F); [intros; apply S; right; assumption|]. destruct (HD i (S i (or_introl eq_refl))) as (xs & Ei & Nx).
    exists (dd_of xs :: ds). split; [cbn [mapM]; rewrite Ei; cbn [bind]; rewrite E1; reflexivity|]. constructor; [|exact F]. split; [exact Ei|]. exists xs. auto. }
  destruct (MD plus) as (dp & P1 & P2); [intros; apply in_or_app; tauto|].
  destruct (MD minus) as (dm & M1 & M2); [intros; apply in_or_app; tauto|].
  rewrite P1. cbn [bind]. rewrite M1. cbn [bind]. clear P1 M1 MD HD.
  (* globals of a list *)
  assert (GL : forall l ds, Forall2 (fun i d => make_data i = Ok d /\ exists xs, d = dd_of xs /\ xs <> []) l ds ->
    (exists G, (forall i, In i l -> entropy_of e b i = Ok (G i)) /\ mapM (e_global e b) ds = Ok (map G l)) \/
    ((exists i, In i l /\ entropy_of e b i = NonFinite) /\ mapM (e_global e b) ds = NonFinite)).
  { intros l ds F. induction F as [|i d l ds (Ei & xs & -> & Nx) F IH]; [left; exists (fun _ => 0); split; [intros i []|reflexivity]|].
    assert (EG : entropy_of e b i = e_global e b (dd_of xs)) by (unfold entropy_of; rewrite Ei; reflexivity).
    destruct (HR xs Nx) as [(g & Eg & _)|Eg].
    - assert (E1 : e_global e b (dd_of xs) = Ok g) by (unfold e_global; rewrite Eg; reflexivity).
      destruct IH as [(G & HG & EM)|((j & Hj & Ej) & EM)].
      + left. exists (fun j => match entropy_of e b j with Ok g => g | _ => 0 end). split.
        * intros j [<-|Hj]; [rewrite EG, E1; reflexivity|rewrite (HG j Hj); reflexivity].
        * cbn [mapM map]. rewrite E1. cbn [bind]. rewrite EM. cbn [bind]. rewrite EG, E1. do 2 f_equal. apply map_ext_in. intros j Hj. rewrite (HG j Hj). reflexivity.
      + right. split; [exists j; split; [right; exact Hj|exact Ej]|]. cbn [mapM]. rewrite E1. cbn [bind]. rewrite EM. reflexivity.
    - assert (E1 : e_global e b (dd_of xs) = NonFinite) by (unfold e_global; rewrite Eg; reflexivity).
      right. split; [exists i; split; [left; reflexivity|rewrite EG; exact E1]|]. cbn [mapM]. rewrite E1. reflexivity. }
  assert (GV : combination (entropy_of e b) plus minus (let* gp := mapM (e_global e b) dp in let* gm := mapM (e_global e b) dm in Ok (VNum (sumR gp - sumR gm)))).
  { destruct (GL plus dp P2) as [(G & HG & EM)|((j & Hj & Ej) & EM)]; rewrite EM; cbn [bind].
    - destruct (GL minus dm M2) as [(G' & HG' & EM')|((j & Hj & Ej) & EM')]; rewrite EM'; cbn [bind].
      + left. exists (fun j => match entropy_of e b j with Ok g => g | _ => 0 end). split.
        * intros j Hj. apply in_app_or in Hj. destruct Hj as [Hj|Hj]; [rewrite (HG j Hj)|rewrite (HG' j Hj)]; reflexivity.
        * unfold sumR. rewrite !sumf_map. do 2 f_equal. f_equal; apply sumf_ext; intros j Hj; [rewrite (HG j Hj)|rewrite (HG' j Hj)]; reflexivity.
      + right. split; [exists j; split; [apply in_or_app; right; exact Hj|exact Ej]|reflexivity].
    - right. split; [exists j; split; [apply in_or_app; left; exact Hj|exact Ej]|reflexivity]. }
  (* the first entropy decides which path is taken *)
  destruct P2 as [|i d l ds (Ei & xs & -> & Nx) F]; [congruence|].
  destruct (HR xs Nx) as [(g & Eg & El)|Eg].
  - cbn [mapM]. rewrite El. cbn [bind]. exact GV.
  - assert (El : e_local e b (dd_of xs) = NonFinite) by (unfold e_local; rewrite Eg; reflexivity).
    cbn [mapM]. rewrite El. cbn [bind]. right. split; [|reflexivity]. exists i. split; [left; reflexivity|].
    unfold entropy_of. rewrite Ei. cbn [bind]. unfold e_global. rewrite Eg. reflexivity.
Qed.

(** the inputs of the combinations are usable data *)
Lemma data_arr a n : arr_len a = n -> (0 < n)%nat -> exists xs, make_data (EArr a) = Ok (dd_of xs) /\ xs <> [].
Proof. intros L Hn. destruct (make_data_arr a) as (xs & E & _ & N); [lia|]. exists xs. auto. Qed.
Lemma data_tup cols n : cols <> [] -> Forall (fun a => arr_len a = n) cols -> (0 < n)%nat -> exists xs, make_data (ETuple cols) = Ok (dd_of xs) /\ xs <> [].
Proof. intros NE F Hn. destruct (make_data_tup n cols NE F Hn) as (xs & E & _ & N). exists xs. auto. Qed.

Section all.
Context (e : est) (b : base) (HR : refusing e b).
Lemma comb_mi vars n : (2 <= length vars)%nat -> Forall (fun a => arr_len a = n) vars -> (0 < n)%nat ->
  combination (entropy_of e b) (map EArr vars) [ETuple vars] (gen_mi e b (Some 0%Z) vars).
Proof.
  intros Hk F Hn. assert (NE : vars <> []) by (intros ->; simpl in Hk; lia). unfold gen_mi. rewrite (mi_init_0 vars n) by assumption. cbn [bind].
  apply comb_refusing; [exact HR|destruct vars; [congruence|discriminate]|]. intros i Hi. apply in_app_or in Hi. destruct Hi as [Hi|[<-|[]]].
  - apply in_map_iff in Hi. destruct Hi as (a & <- & Ha). rewrite Forall_forall in F. apply (data_arr a n); auto.
  - apply (data_tup vars n); assumption.
Qed.
Lemma comb_cmi x y vars cond n : Forall (fun a => arr_len a = n) (x :: y :: vars) -> arr_len cond = n -> (0 < n)%nat ->
  combination (entropy_of e b) (map (fun v => ETuple [v; cond]) (x :: y :: vars)) [ETuple ((x :: y :: vars) ++ [cond]); EArr cond] (gen_cmi e b (x :: y :: vars) cond).
Proof.
  intros F Lc Hn. unfold gen_cmi, cmi_init. pose proof (Forall_inv F) as F1. pose proof (Forall_inv (Forall_inv_tail F)) as F2. cbv beta in F1, F2.
  rewrite F1, F2, Lc, Nat.eqb_refl. cbn [negb orb bind]. apply comb_refusing; [exact HR|discriminate|]. intros i Hi. apply in_app_or in Hi. destruct Hi as [Hi|[<-|[<-|[]]]].
  - apply in_map_iff in Hi. destruct Hi as (a & <- & Ha). rewrite Forall_forall in F. apply (data_tup [a; cond] n); [discriminate| |exact Hn]. constructor; [auto|]. constructor; [exact Lc|constructor].
  - apply (data_tup _ n); [discriminate| |exact Hn]. apply Forall_app. split; [exact F|]. constructor; [exact Lc|constructor].
  - apply (data_arr cond n); assumption.
Qed.
Lemma comb_te source dest l k s n : arr_len source = n -> arr_len dest = n -> (1 <= l)%nat -> (1 <= k)%nat -> (1 <= s)%nat -> (Nat.max k l * s < n)%nat ->
  exists sh dh df, te_observations source dest (I l) (I k) (I s) RNone = Ok (sh, dh, df) /\
    combination (entropy_of e b) [EArr (A2 (hcat [dh; df])); EArr (A2 (hcat [sh; dh]))] [EArr (A2 (hcat [sh; dh; df])); EArr (A2 dh)]
      (gen_te e b source dest (te_kw l k s) RNone).
Proof.
  intros Ls Ld Hl Hk Hs Hd. set (ts := base_times n (Nat.max k l * s) s).
  set (sh := flat_pasts source s l ts). set (dh := flat_pasts dest s k ts). set (df := flat_presents dest ts).
  assert (E0 : te_observations source dest (I l) (I k) (I s) RNone = Ok (sh, dh, df)) by exact (te_obs_ok source dest l k s n Hl Hk Hs Ls Ld RNone ltac:(discriminate) Hd Logic.I).
  assert (Lt : (0 < length ts)%nat) by (unfold ts; rewrite base_times_length; apply nrows_pos; assumption).
  assert (L1 : length sh = length ts) by apply flat_pasts_length. assert (L2 : length dh = length ts) by apply flat_pasts_length.
  exists sh, dh, df. split; [exact E0|]. unfold gen_te. cbn [a_prop a_offset a_step a_src a_dest te_kw]. rewrite te_init_plain by congruence. cbn [bind fst snd]. rewrite E0. cbn [bind].
  cbn [te_spaces]. apply comb_refusing; [exact HR|discriminate|]. intros i [<-|[<-|[<-|[<-|[]]]]]; apply (data_arr _ (length ts)); try exact Lt; cbn [arr_len]; rewrite ?hcat_length; assumption.
Qed.
Lemma comb_cte source dest cond l k m s n : arr_len source = n -> arr_len dest = n -> arr_len cond = n ->
  (1 <= l)%nat -> (1 <= k)%nat -> (1 <= m)%nat -> (1 <= s)%nat -> (Nat.max (Nat.max k l) m * s < n)%nat ->
  exists sh dh df ch, cte_observations source dest cond (I l) (I k) (I m) (I s) RNone = Ok (sh, dh, df, ch) /\
    combination (entropy_of e b) [EArr (A2 (hcat [dh; df; ch])); EArr (A2 (hcat [sh; dh; ch]))] [EArr (A2 (hcat [sh; dh; df; ch])); EArr (A2 (hcat [dh; ch]))]
      (gen_cte e b source dest cond (cte_kw l k m s)).
Proof.
  intros Ls Ld Lc Hl Hk Hm Hs Hd. set (ts := base_times n (Nat.max (Nat.max k l) m * s) s).
  set (sh := flat_pasts source s l ts). set (dh := flat_pasts dest s k ts). set (df := flat_presents dest ts). set (ch := flat_pasts cond s m ts).
  assert (E0 : cte_observations source dest cond (I l) (I k) (I m) (I s) RNone = Ok (sh, dh, df, ch))
    by exact (cte_obs_ok source dest l k s n Hl Hk Hs Ls Ld cond m RNone Hm Lc ltac:(discriminate) Hd Logic.I).
  assert (Lt : (0 < length ts)%nat) by (unfold ts; rewrite base_times_length; apply nrows_pos; assumption).
  assert (L1 : length sh = length ts) by apply flat_pasts_length. assert (L2 : length dh = length ts) by apply flat_pasts_length.
  exists sh, dh, df, ch. split; [exact E0|]. unfold gen_cte. cbn [a_prop a_offset a_step a_src a_dest a_cond cte_kw]. rewrite (cte_init_plain source dest cond n) by assumption. cbn [bind]. rewrite E0. cbn [bind].
  cbn [cte_spaces]. apply comb_refusing; [exact HR|discriminate|]. intros i [<-|[<-|[<-|[<-|[]]]]]; apply (data_arr _ (length ts)); try exact Lt; cbn [arr_len]; rewrite ?hcat_length; assumption.
Qed.
End all.

Lemma ansb_refusing b : valid_base b -> refusing (est_ansb None) b.
Proof.
  intros V xs NE. pose proof (nvals_le xs) as L. destruct (Nat.eq_dec (nvals xs) (length xs)) as [Eq|Ne].
  - right. cbn [est_ansb e_calc]. rewrite ansb_undefined by exact Eq. reflexivity.
  - left. exists (AnsbH xs / unit_of b). unfold e_local. cbn [est_ansb e_calc e_extract]. rewrite ansb_ok by (try assumption; lia). split; reflexivity.
Qed.
Lemma nsb_refusing E Kg b : nsb_lib E -> valid_base b -> refusing (est_nsb E Kg) b.
Proof.
  intros HE V xs NE. cbn [est_nsb e_calc].
  assert (C : (exists g, nsb_simple E Kg b (dd_of xs) = Ok g) \/ nsb_simple E Kg b (dd_of xs) = NonFinite).
  { set (K := match Kg with Some k => k | None => Z.of_nat (nvals xs) end).
    destruct (Z.eq_dec K (Z.of_nat (length xs))) as [ES|NS]; [right; apply nsb_simple_same; [exact NE|]; unfold K in ES; destruct Kg; lia|].
    destruct (Z.eq_dec K 1) as [E1|N1]; [right; apply nsb_simple_one; [exact HE|]; unfold K in E1; destruct Kg; lia|].
    destruct (Z_le_gt_dec K 0) as [E0|G0].
    - right. unfold nsb_simple. replace (match Kg with Some k => k | None => Z.of_nat (dd_K (dd_of xs)) end) with K by (unfold K; rewrite dd_K_of; reflexivity).
      rewrite np_log_bad by (apply (IZR_le K 0); lia). reflexivity.
    - left. destruct (nsb_simple_ok E HE Kg b xs (Z.to_nat K) V NE ltac:(lia) ltac:(lia)) as (h & _ & EH); [unfold K; destruct Kg; lia|]. eexists; exact EH. }
  destruct C as [(g & EG)|EG]; [left; exists g|right]; unfold e_local; cbn [est_nsb e_calc e_extract]; rewrite EG; [split; reflexivity|reflexivity].
Qed.

(** MI = sum of the entropies minus the joint entropy, or undefined if one of them is *)
Theorem C83_mi E Kg und b vars n : nsb_lib E -> valid_base b -> 0 <= und -> nsb_K_ok Kg = true ->
  (2 <= length vars)%nat -> Forall (fun a => arr_len a = n) vars -> (0 < n)%nat ->
  combination (entropy_ansb None b) (map EArr vars) [ETuple vars] (ansb_mi und b (Some 0%Z) vars) /\
  combination (entropy_nsb E Kg b) (map EArr vars) [ETuple vars] (nsb_mi E Kg b (Some 0%Z) vars).
Proof.
  intros HE V Hu OK Hk F Hn. unfold ansb_mi, nsb_mi. rewrite (mi_init_0 vars n) by assumption. cbn [bind]. destruct (Rlt_dec und 0) as [X|_]; [lra|]. rewrite OK.
  split; apply (comb_mi _ b) with (n := n); auto using ansb_refusing, nsb_refusing.
Qed.
Theorem C83_cmi E Kg und b x y vars cond n : nsb_lib E -> valid_base b -> 0 <= und -> nsb_K_ok Kg = true ->
  Forall (fun a => arr_len a = n) (x :: y :: vars) -> arr_len cond = n -> (0 < n)%nat ->
  let plus := map (fun v => ETuple [v; cond]) (x :: y :: vars) in
  let minus := [ETuple ((x :: y :: vars) ++ [cond]); EArr cond] in
  combination (entropy_ansb None b) plus minus (ansb_cmi und b (x :: y :: vars) cond) /\
  combination (entropy_nsb E Kg b) plus minus (nsb_cmi E Kg b (x :: y :: vars) cond).
Proof.
  intros HE V Hu OK F Lc Hn plus minus. unfold ansb_cmi, nsb_cmi.
  pose proof (comb_cmi (est_ansb None) b (ansb_refusing b V) x y vars cond n F Lc Hn) as A. pose proof (comb_cmi (est_nsb E Kg) b (nsb_refusing E Kg b HE V) x y vars cond n F Lc Hn) as B.
  assert (EI : exists u, cmi_init (x :: y :: vars) (arr_len cond) = Ok u).
  { unfold cmi_init. pose proof (Forall_inv F) as F1. pose proof (Forall_inv (Forall_inv_tail F)) as F2. cbv beta in F1, F2. rewrite F1, F2, Lc, Nat.eqb_refl. eexists. reflexivity. }
  destruct EI as (u & ->). cbn [bind]. destruct (Rlt_dec und 0) as [X|_]; [lra|]. rewrite OK. split; assumption.
Qed.
Theorem C83_te E Kg und b source dest l k s n : nsb_lib E -> valid_base b -> 0 <= und -> nsb_K_ok Kg = true ->
  arr_len source = n -> arr_len dest = n -> (1 <= l)%nat -> (1 <= k)%nat -> (1 <= s)%nat -> (Nat.max k l * s < n)%nat ->
  exists sh dh df, te_observations source dest (I l) (I k) (I s) RNone = Ok (sh, dh, df) /\
    let plus := [EArr (A2 (hcat [dh; df])); EArr (A2 (hcat [sh; dh]))] in
    let minus := [EArr (A2 (hcat [sh; dh; df])); EArr (A2 dh)] in
    combination (entropy_ansb None b) plus minus (ansb_te und b source dest (te_kw l k s) RNone) /\
    combination (entropy_nsb E Kg b) plus minus (nsb_te E Kg b source dest (te_kw l k s) RNone).
Proof.
  intros HE V Hu OK Ls Ld Hl Hk Hs Hd.
  destruct (comb_te (est_ansb None) b (ansb_refusing b V) source dest l k s n Ls Ld Hl Hk Hs Hd) as (sh & dh & df & E0 & A).
  destruct (comb_te (est_nsb E Kg) b (nsb_refusing E Kg b HE V) source dest l k s n Ls Ld Hl Hk Hs Hd) as (sh' & dh' & df' & E0' & B).
  assert (Q : (sh', dh', df') = (sh, dh, df)) by congruence. injection Q as -> -> ->.
  exists sh, dh, df. split; [exact E0|]. unfold ansb_te, nsb_te. cbn [a_prop a_offset a_step te_kw]. rewrite te_init_plain by congruence. cbn [bind].
  destruct (Rlt_dec und 0) as [X|_]; [lra|]. rewrite OK. split; assumption.
Qed.
Theorem C83_cte E Kg und b source dest cond l k m s n : nsb_lib E -> valid_base b -> 0 <= und -> nsb_K_ok Kg = true ->
  arr_len source = n -> arr_len dest = n -> arr_len cond = n ->
  (1 <= l)%nat -> (1 <= k)%nat -> (1 <= m)%nat -> (1 <= s)%nat -> (Nat.max (Nat.max k l) m * s < n)%nat ->
  exists sh dh df ch, cte_observations source dest cond (I l) (I k) (I m) (I s) RNone = Ok (sh, dh, df, ch) /\
    let plus := [EArr (A2 (hcat [dh; df; ch])); EArr (A2 (hcat [sh; dh; ch]))] in
    let minus := [EArr (A2 (hcat [sh; dh; df; ch])); EArr (A2 (hcat [dh; ch]))] in
    combination (entropy_ansb None b) plus minus (ansb_cte und b source dest cond (cte_kw l k m s)) /\
    combination (entropy_nsb E Kg b) plus minus (nsb_cte E Kg b source dest cond (cte_kw l k m s)).
Proof.
  intros HE V Hu OK Ls Ld Lc Hl Hk Hm Hs Hd.
  destruct (comb_cte (est_ansb None) b (ansb_refusing b V) source dest cond l k m s n Ls Ld Lc Hl Hk Hm Hs Hd) as (sh & dh & df & ch & E0 & A).
  destruct (comb_cte (est_nsb E Kg) b (nsb_refusing E Kg b HE V) source dest cond l k m s n Ls Ld Lc Hl Hk Hm Hs Hd) as (sh' & dh' & df' & ch' & E0' & B).
  assert (Q : (sh', dh', df', ch') = (sh, dh, df, ch)) by congruence. injection Q as -> -> -> ->.
  exists sh, dh, df, ch. split; [exact E0|]. unfold ansb_cte, nsb_cte. cbn [a_prop a_offset cte_kw]. rewrite (cte_init_plain source dest cond n) by assumption. cbn [bind].
  destruct (Rlt_dec und 0) as [X|_]; [lra|]. rewrite OK. split; assumption.
Qed.
Print Assumptions C83_te.

(** a negative [undersampled] and a non-positive K are rejected by all four *)
Theorem C83_parameters E K und b vars n x y cond : und < 0 -> (K <= 0)%Z -> (0 < n)%nat ->
  (2 <= length vars)%nat -> Forall (fun a => arr_len a = n) vars -> arr_len x = n -> arr_len y = n -> arr_len cond = n ->
  ansb_mi und b (Some 0%Z) vars = Raise ValueError /\ nsb_mi E (Some K) b (Some 0%Z) vars = Raise ValueError /\
  ansb_cmi und b [x; y] cond = Raise ValueError /\ nsb_cmi E (Some K) b [x; y] cond = Raise ValueError /\
  (forall l k s, (1 <= s)%nat -> ansb_te und b x y (te_kw l k s) RNone = Raise ValueError /\ nsb_te E (Some K) b x y (te_kw l k s) RNone = Raise ValueError) /\
  (forall l k m s, (1 <= s)%nat -> ansb_cte und b x y cond (cte_kw l k m s) = Raise ValueError /\ nsb_cte E (Some K) b x y cond (cte_kw l k m s) = Raise ValueError).
Proof.
  intros Hu HK Hn Hk F Lx Ly Lc.
  assert (EK : nsb_K_ok (Some K) = false) by (cbn; apply Z.ltb_ge; lia).
  assert (EC : exists u, cmi_init [x; y] (arr_len cond) = Ok u) by (unfold cmi_init; rewrite Lx, Ly, Lc, Nat.eqb_refl; eexists; reflexivity). destruct EC as (u & EC).
  unfold ansb_mi, nsb_mi, ansb_cmi, nsb_cmi. rewrite (mi_init_0 vars n) by assumption. rewrite EC, EK. cbn [bind].
  destruct (Rlt_dec und 0) as [X|X] eqn:DR; [|lra]. repeat split.
  - unfold ansb_te. cbn [a_prop a_offset a_step te_kw]. rewrite te_init_plain by congruence. cbn [bind]. rewrite DR. reflexivity.
  - unfold nsb_te. cbn [a_prop a_offset a_step te_kw]. rewrite te_init_plain by congruence. cbn [bind]. rewrite EK. reflexivity.
  - unfold ansb_cte. cbn [a_prop a_offset cte_kw]. rewrite (cte_init_plain x y cond n) by assumption. cbn [bind]. rewrite DR. reflexivity.
  - unfold nsb_cte. cbn [a_prop a_offset cte_kw]. rewrite (cte_init_plain x y cond n) by assumption. cbn [bind]. rewrite EK. reflexivity.
Qed.

(** ANSB MI sees the numbers of distinct values only *)
Theorem C83_ansb_mi_two b x y n und : valid_base b -> 0 <= und -> arr_len x = n -> arr_len y = n -> (0 < n)%nat ->
  let Kx := nvals (sample (EArr x)) in let Ky := nvals (sample (EArr y)) in let Kxy := nvals (sample (ETuple [x; y])) in
  ansb_mi und b (Some 0%Z) [x; y] =
    if (Kx <? n)%nat && (Ky <? n)%nat && (Kxy <? n)%nat
    then Ok (VNum ((euler_gamma - ln 2 + 2 * ln (INR n) - psi (n - Kx) - psi (n - Ky) + psi (n - Kxy)) / unit_of b)) else NonFinite.
Proof.
  intros V Hu Lx Ly Hn Kx Ky Kxy.
  assert (U1 : SpecInput.usable (EArr x)) by (split; [cbn; lia|exact Logic.I]). assert (U2 : SpecInput.usable (EArr y)) by (split; [cbn; lia|exact Logic.I]).
  assert (F : Forall (fun a => arr_len a = n) [x; y]) by (constructor; [exact Lx|constructor; [exact Ly|constructor]]).
  assert (U3 : SpecInput.usable (ETuple [x; y])) by (split; [cbn; lia|cbn [input_size]; rewrite Lx; exact F]).
  pose proof (C49_ansb_closed_form b _ V U1) as A1. pose proof (C49_ansb_closed_form b _ V U2) as A2. pose proof (C49_ansb_closed_form b _ V U3) as A3.
  unfold ansb_mi. rewrite (mi_init_0 [x; y] n) by (try assumption; cbn; lia). cbn [bind]. destruct (Rlt_dec und 0) as [X|_]; [lra|].
  pose proof (comb_mi _ b (ansb_refusing b V) [x; y] n ltac:(cbn; lia) F Hn) as C. change (entropy_of (est_ansb None) b) with (entropy_ansb None b) in C. cbn [map] in C.
  cbn [input_size] in A1, A2, A3. rewrite Lx in A1, A3. rewrite Ly in A2. fold Kx in A1. fold Ky in A2. fold Kxy in A3.
  destruct C as [(G & HG & ->)|((i & Hi & Ei) & ->)].
  - rewrite HG in A1 by (cbn; tauto). rewrite HG in A2 by (cbn; tauto). rewrite HG in A3 by (cbn; tauto).
    destruct (Kx <? n)%nat; [|discriminate]. destruct (Ky <? n)%nat; [|discriminate]. destruct (Kxy <? n)%nat; [|discriminate]. cbn [andb].
    assert (B1 : G (EArr x) = AnsbH (sample (EArr x)) / unit_of b) by congruence. assert (B2 : G (EArr y) = AnsbH (sample (EArr y)) / unit_of b) by congruence.
    assert (B3 : G (ETuple [x; y]) = AnsbH (sample (ETuple [x; y])) / unit_of b) by congruence.
    unfold AnsbH in B1, B2, B3. rewrite sample_length in B1 by exact U1. rewrite sample_length in B2 by exact U2. rewrite sample_length in B3 by exact U3.
    cbn [input_size] in B1, B2, B3. rewrite Lx in B1, B3. rewrite Ly in B2. fold Kx in B1. fold Ky in B2. fold Kxy in B3.
    do 2 f_equal. cbn [sumf]. rewrite B1, B2, B3. unfold Rdiv. ring.
  - destruct Hi as [<-|[<-|[<-|[]]]]; [rewrite A1 in Ei|rewrite A2 in Ei|rewrite A3 in Ei];
      destruct (Kx <? n)%nat, (Ky <? n)%nat, (Kxy <? n)%nat; cbn [andb]; try discriminate; reflexivity.
Qed.

(** with an explicit number of states ANSB uses nothing of the data but its size, and is undefined from K = N on *)
Theorem C83_ansb_explicit_K b i K : valid_base b -> SpecInput.usable i ->
  entropy_ansb (Some K) b i = if (K <? Z.of_nat (input_size i))%Z
    then Ok ((euler_gamma - ln 2 + 2 * ln (INR (input_size i)) - psi (Z.to_nat (Z.of_nat (input_size i) - K))) / unit_of b) else NonFinite.
Proof.
  intros V U. destruct (usable_data i U) as (xs & E & NE & _ & L). unfold entropy_ansb, entropy_of. rewrite E. cbn [bind].
  unfold e_global. cbn [est_ansb e_calc]. unfold ansb_simple. rewrite dd_N_of, L. set (n := input_size i) in *.
  assert (Pn : 0 < INR n) by (apply lt_0_INR; destruct xs; [congruence|cbn in L; lia]).
  destruct (Z.eqb_spec (Z.of_nat n - K) 0) as [X|X]; destruct (Z.ltb_spec K (Z.of_nat n)) as [Y|Y]; try lia; try reflexivity; rewrite <- INR_IZR_INZ, np_log_ok by exact Pn; cbn [bind]; unfold digamma.
  - destruct (Z.leb_spec (Z.of_nat n - K) 0); [lia|]. cbn [bind]. rewrite to_base_ok by exact V. reflexivity.
  - destruct (Z.leb_spec (Z.of_nat n - K) 0); [reflexivity|lia].
Qed.

(** the hypotheses on concrete data: (0,0,1,1,0) and (0,1,1,1,0) have two values each and three joint ones, so the ANSB MI is
    defined; for the three samples (0,1,2) and (0,0,1) it is not *)
Example C83_example : (exists v, ansb_mi (1/10) BE (Some 0%Z) [A1 [0;0;1;1;0]; A1 [0;1;1;1;0]]%Z = Ok v) /\
  ansb_mi (1/10) BE (Some 0%Z) [A1 [0;1;2]; A1 [0;0;1]]%Z = NonFinite.
Proof.
  split.
  - rewrite (C83_ansb_mi_two BE _ _ 5 (1/10) Logic.I) by (try reflexivity; try lra; lia). eexists. reflexivity.
  - rewrite (C83_ansb_mi_two BE _ _ 3 (1/10) Logic.I) by (try reflexivity; try lra; lia). reflexivity.
Qed.
