(** Proofs: discrete and Miller-Madow entropies. *)
From Coq Require Import Reals Lra Lia List ZArith Arith Bool Permutation Sorted.
From Verif Require Import Res RSum Spec Info Info2 Gibbs Ord MBase MData MEntropy SpecBase PBase.
Import ListNotations.
Local Open Scope R_scope.

Lemma from_data_dd xs : xs <> [] -> from_data xs = Ok (dd_of xs).
Proof. exact (from_data_ok xs). Qed.

Lemma entropy_1d b xs : valid_base b -> xs <> [] ->
  entropy_discrete b (EArr (A1 xs)) = Ok (Ent xs / unit_of b).
Proof.
  intros V NE. unfold entropy_discrete. cbn [make_data]. rewrite from_data_dd by exact NE.
  cbn [bind]. apply discrete_simple_ok. exact V.
Qed.

Lemma entropy_2d b rs : valid_base b -> rs <> [] ->
  entropy_discrete b (EArr (A2 rs)) = Ok (Ent rs / unit_of b).
Proof.
  intros V NE. unfold entropy_discrete. cbn [make_data reduce_joint_space bind].
  rewrite from_data_dd by (rewrite reduce_rows_nil; exact NE). cbn [bind].
  rewrite discrete_simple_ok by exact V. rewrite reduce_rows_Ent. reflexivity.
Qed.

Lemma make_data_tuple n cols : cols <> [] -> all_len n cols -> (0 < n)%nat ->
  make_data (ETuple (map A1 cols)) = Ok (dd_of (reduce_rows (rows_of 0%Z n cols))).
Proof.
  intros NE HL Hn. cbn [make_data].
  assert (E : existsb (fun c => negb (Nat.eqb (arr_len c)
     match map A1 cols with [] => 0%nat | a :: _ => arr_len a end)) (map A1 cols) = false).
  { apply not_true_iff_false. intros E. apply existsb_exists in E.
    destruct E as [a [Ha N]]. apply negb_true_iff, Nat.eqb_neq in N. apply N.
    unfold all_len in HL. rewrite Forall_forall in HL.
    apply in_map_iff in Ha. destruct Ha as [c [<- Hc]].
    destruct cols as [|c0 cs]; [congruence|]. cbn.
    rewrite (HL c Hc), (HL c0 (or_introl eq_refl)). reflexivity. }
  rewrite E. cbn [reduce_joint_space]. rewrite (column_stack_ok n) by assumption.
  cbn [rmap bind]. apply from_data_dd. rewrite reduce_rows_nil.
  intros F. apply (f_equal (@length _)) in F. rewrite rows_of_length in F. simpl in F. lia.
Qed.

Lemma entropy_tuple b n cols : valid_base b -> cols <> [] -> all_len n cols -> (0 < n)%nat ->
  entropy_discrete b (ETuple (map A1 cols)) = Ok (Ent (rows_of 0%Z n cols) / unit_of b).
Proof.
  intros V NE HL Hn. unfold entropy_discrete. rewrite (make_data_tuple n) by assumption.
  cbn [bind]. rewrite discrete_simple_ok by exact V. rewrite reduce_rows_Ent. reflexivity.
Qed.

Lemma entropy_tuple_bad b cols c d :
  In c cols -> In d cols -> arr_len c <> arr_len d ->
  entropy_discrete b (ETuple cols) = Raise ValueError.
Proof.
  intros Hc Hd N. unfold entropy_discrete. cbn [make_data].
  set (n0 := match cols with [] => 0%nat | a :: _ => arr_len a end).
  assert (E : existsb (fun c => negb (Nat.eqb (arr_len c) n0)) cols = true).
  { apply existsb_exists. destruct (Nat.eq_dec (arr_len c) n0) as [E1|N1].
    - exists d. split; [exact Hd|]. apply negb_true_iff, Nat.eqb_neq. lia.
    - exists c. split; [exact Hc|]. apply negb_true_iff, Nat.eqb_neq. exact N1. }
  rewrite E. reflexivity.
Qed.

Lemma Ent_max_iff (xs : list Z) : xs <> [] ->
  (Ent xs = ln (INR (length (distinct xs))) <->
   forall x y, In x xs -> In y xs -> count xs x = count xs y).
Proof.
  intros NE. rewrite <- (EntVec_probs xs).
  set (p := map (prob xs) (unique xs)).
  assert (Lp : length p = length (distinct xs)) by (unfold p; rewrite map_length; apply unique_length).
  rewrite <- Lp.
  assert (NEp : p <> []).
  { intros E. apply (f_equal (@length R)) in E. rewrite Lp in E.
    pose proof (distinct_length_pos xs NE). simpl in E. lia. }
  assert (Sp : sumR p = 1) by (unfold p, sumR; rewrite sumf_map; apply prob_sum1; exact NE).
  destruct (EntVec_le_ln p NEp (probs_pos xs) Sp) as [_ Heq]. rewrite Heq.
  assert (HN : 0 < INR (length xs)) by (apply INR_pos; destruct xs; simpl; [congruence|lia]).
  split.
  - intros HU x y Hx Hy. rewrite Forall_forall in HU.
    assert (Px : prob xs x = / INR (length p)) by (apply HU; apply in_map; apply unique_In; exact Hx).
    assert (Py : prob xs y = / INR (length p)) by (apply HU; apply in_map; apply unique_In; exact Hy).
    apply INR_eq. rewrite <- Py in Px. unfold prob in Px.
    apply (Rmult_eq_reg_r (/ INR (length xs))); [exact Px|apply Rinv_neq_0_compat; lra].
  - intros HC. apply Forall_forall. intros q Hq. unfold p in Hq. apply in_map_iff in Hq.
    destruct Hq as [v [<- Hv]]. rewrite unique_In in Hv.
    assert (E : INR (length p) * prob xs v = 1).
    { rewrite <- Sp. unfold p at 2, sumR. rewrite sumf_map.
      rewrite (sumf_ext _ (fun _ => prob xs v)).
      - rewrite sumf_const. unfold p. rewrite map_length. reflexivity.
      - intros w Hw. rewrite unique_In in Hw. unfold prob. rewrite (HC w v Hw Hv). reflexivity. }
    apply (Rmult_eq_reg_l (INR (length p))); [rewrite E, Rinv_r; [reflexivity|]|].
    all: apply not_0_INR; rewrite Lp; pose proof (distinct_length_pos xs NE); lia.
Qed.

(** ** local values *)
Lemma dget_combine {V} (f : Z -> V) (u : list Z) k :
  In k u -> dget (combine u (map f u)) k = Some (f k).
Proof.
  induction u as [|a u IH]; intros Hk; [destruct Hk|]. cbn [map combine dget].
  destruct (in_dec Z.eq_dec k u) as [Hi|Ni].
  - rewrite IH by exact Hi. reflexivity.
  - destruct Hk as [->|Hk]; [|contradiction].
    assert (E : forall w : list Z, ~ In k w -> dget (combine w (map f w)) k = None).
    { clear. induction w as [|b w IHw]; intros N; [reflexivity|]. cbn [map combine dget].
      rewrite IHw by (intros C; apply N; right; exact C).
      destruct (Z.eq_dec b k) as [->|]; [destruct N; left; reflexivity|reflexivity]. }
    rewrite E by exact Ni. destruct (Z.eq_dec k k); [reflexivity|congruence].
Qed.

Lemma lookup_probs xs : lookup_data (distribution_dict (dd_of xs)) (dd_of xs) = Ok (map (prob xs) xs).
Proof.
  unfold lookup_data. cbn [dd_data dd_of]. apply mapM_ok. intros x Hx.
  unfold dget_exn, distribution_dict. rewrite probs_dd_of. cbn [dd_uniq dd_of].
  rewrite dget_combine by (apply unique_In; exact Hx). reflexivity.
Qed.

Lemma local_1d b xs : valid_base b -> xs <> [] ->
  local_discrete b (EArr (A1 xs)) = Ok (map (fun x => - (ln (prob xs x) / unit_of b)) xs).
Proof.
  intros V NE. unfold local_discrete. cbn [make_data]. rewrite from_data_dd by exact NE. cbn [bind].
  unfold discrete_local. rewrite lookup_probs. cbn [bind].
  rewrite (mapM_ok _ (fun p => ln p / unit_of b)).
  - cbn [bind]. rewrite !map_map. reflexivity.
  - intros p Hp. apply in_map_iff in Hp. destruct Hp as [v [<- Hv]].
    apply log_base_ok; [exact V|apply prob_pos; exact Hv].
Qed.

Lemma mean_local (xs : list Z) u c : xs <> [] ->
  mean (map (fun x => - (ln (prob xs x) / u) + c) xs) = Ent xs / u + c.
Proof.
  intros NE. unfold mean. rewrite map_length. unfold sumR. rewrite sumf_map, sumf_plus, sumf_opp, sumf_div, sumf_const.
  rewrite Ent_sample by exact NE.
  assert (0 < INR (length xs)) by (apply INR_pos; destruct xs; simpl; [congruence|lia]).
  unfold Rdiv. rewrite Rmult_plus_distr_r. replace (INR (length xs) * c * / INR (length xs)) with c by (field; lra).
  ring.
Qed.

(** ** Miller-Madow *)
Lemma mm_factor_ok b xs : valid_base b -> xs <> [] ->
  mm_factor b (dd_of xs) =
  Ok ((INR (length (distinct xs)) - 1) / (2 * INR (length xs)) / unit_of b).
Proof.
  intros V NE. unfold mm_factor.
  assert (HN : 0 < INR (length xs)) by (apply INR_pos; destruct xs; simpl; [congruence|lia]).
  unfold dd_K, dd_N. cbn [dd_of dd_uniq dd_data]. rewrite <- INR_IZR_INZ, unique_length.
  rewrite np_div_ok by lra. cbn [bind]. apply to_base_ok. exact V.
Qed.

Lemma mm_simple_ok b xs : valid_base b -> xs <> [] ->
  mm_simple b (dd_of xs) =
  Ok ((Ent xs + (INR (length (distinct xs)) - 1) / (2 * INR (length xs))) / unit_of b).
Proof.
  intros V NE. unfold mm_simple. rewrite mm_factor_ok by assumption. cbn [bind].
  rewrite probs_dd_of, plogp_ok by (auto using probs_pos). rewrite EntVec_probs. cbn [bind].
  f_equal. unfold Rdiv. ring.
Qed.

Lemma mm_1d b xs : valid_base b -> xs <> [] ->
  entropy_mm b (EArr (A1 xs)) =
  Ok ((Ent xs + (INR (length (distinct xs)) - 1) / (2 * INR (length xs))) / unit_of b).
Proof.
  intros V NE. unfold entropy_mm. cbn [make_data]. rewrite from_data_dd by exact NE. cbn [bind].
  apply mm_simple_ok; assumption.
Qed.

Lemma mm_local_1d b xs : valid_base b -> xs <> [] ->
  local_mm b (EArr (A1 xs)) =
  Ok (map (fun x => - (ln (prob xs x) / unit_of b)
        + (INR (length (distinct xs)) - 1) / (2 * INR (length xs)) / unit_of b) xs).
Proof.
  intros V NE. unfold local_mm. cbn [make_data]. rewrite from_data_dd by exact NE. cbn [bind].
  unfold mm_local. rewrite lookup_probs. cbn [bind]. rewrite mm_factor_ok by assumption. cbn [bind].
  rewrite (mapM_ok _ (fun p => ln p / unit_of b)).
  - cbn [bind]. rewrite !map_map. reflexivity.
  - intros p Hp. apply in_map_iff in Hp. destruct Hp as [v [<- Hv]].
    apply log_base_ok; [exact V|apply prob_pos; exact Hv].
Qed.

(** local values average to the global value, for every input that yields local values *)
Lemma make_data_inv i d : make_data i = Ok d -> exists xs, xs <> [] /\ d = dd_of xs.
Proof.
  assert (G : forall xs, from_data xs = Ok d -> exists xs, xs <> [] /\ d = dd_of xs).
  { intros xs E. destruct xs as [|x xs']; [discriminate|]. exists (x :: xs').
    rewrite from_data_dd in E by discriminate. injection E as <-. split; [discriminate|reflexivity]. }
  destruct i as [[xs|rs]|cols]; cbn [make_data]; intros E.
  - apply (G xs). exact E.
  - apply bind_ok in E. destruct E as [r [_ E]]. apply (G r). exact E.
  - destruct (existsb _ cols); [discriminate|].
    apply bind_ok in E. destruct E as [r [_ E]]. apply (G r). exact E.
Qed.

(** non-valid bases: the first logarithm fails *)
Lemma log_base_1 x : log_base (BNum 1) x = NonFinite.
Proof.
  unfold log_base. destruct (Req_EM_T 1 2); [lra|]. destruct (Req_EM_T 1 10); [lra|].
  destruct (Req_EM_T 1 0); [lra|]. destruct (Rlt_dec 1 0); [lra|].
  unfold np_log. destruct (Rlt_dec 0 x); cbn [bind]; [|reflexivity].
  destruct (Rlt_dec 0 1); [|lra]. cbn [bind]. rewrite ln_1. apply np_div_bad.
Qed.
Lemma log_base_0 x : log_base (BNum 0) x = Ok 0.
Proof.
  unfold log_base. destruct (Req_EM_T 0 2); [lra|]. destruct (Req_EM_T 0 10); [lra|].
  destruct (Req_EM_T 0 0); [reflexivity|lra].
Qed.
Lemma log_base_neg r x : r < 0 -> log_base (BNum r) x = Raise ValueError.
Proof.
  intros L. unfold log_base. destruct (Req_EM_T r 2); [lra|]. destruct (Req_EM_T r 10); [lra|].
  destruct (Req_EM_T r 0); [lra|]. destruct (Rlt_dec r 0); [reflexivity|contradiction].
Qed.
Lemma mapM_all_fail {A B} (f : A -> res B) l (e : res B) :
  l <> [] -> (forall x, f x = e) -> (forall b, e <> Ok b) ->
  mapM f l = match e with Raise x => Raise x | _ => NonFinite end.
Proof.
  intros NE Hf He. destruct l as [|x xs]; [congruence|]. simpl. rewrite Hf.
  destruct e; [destruct (He a); reflexivity| |]; reflexivity.
Qed.

Lemma probs_dd_ne xs : xs <> [] -> probabilities (dd_of xs) <> [].
Proof.
  intros NE. rewrite probs_dd_of. intros E. apply (f_equal (@length R)) in E.
  rewrite map_length, unique_length in E. pose proof (distinct_length_pos xs NE). simpl in E. lia.
Qed.

Lemma entropy_base_neg r i d : r < 0 -> make_data i = Ok d ->
  entropy_discrete (BNum r) i = Raise ValueError.
Proof.
  intros L E. unfold entropy_discrete. rewrite E. cbn [bind].
  destruct (make_data_inv _ _ E) as [xs [NE ->]]. unfold discrete_simple, plogp.
  rewrite (mapM_all_fail _ _ (Raise ValueError)); [reflexivity|apply probs_dd_ne; exact NE| |discriminate].
  intros x. apply log_base_neg. exact L.
Qed.
Lemma entropy_base_1 i d : make_data i = Ok d ->
  entropy_discrete (BNum 1) i = NonFinite.
Proof.
  intros E. unfold entropy_discrete. rewrite E. cbn [bind].
  destruct (make_data_inv _ _ E) as [xs [NE ->]]. unfold discrete_simple, plogp.
  rewrite (mapM_all_fail _ _ NonFinite); [reflexivity|apply probs_dd_ne; exact NE| |discriminate].
  intros x. apply log_base_1.
Qed.
Lemma entropy_base_0 i d : make_data i = Ok d -> entropy_discrete (BNum 0) i = Ok 0.
Proof.
  intros E. unfold entropy_discrete. rewrite E. cbn [bind]. unfold discrete_simple, plogp.
  rewrite (mapM_ok _ (fun _ => 0)) by (intros; apply log_base_0). cbn [bind].
  rewrite <- (map_id (probabilities d)) at 1. rewrite dot_map.
  rewrite (sumf_ext _ (fun _ => 0)) by (intros; ring). rewrite sumf_zero. f_equal. ring.
Qed.

(** number of samples of an input *)
Lemma make_data_len i d : make_data i = Ok d ->
  exists xs, xs <> [] /\ d = dd_of xs /\
    length xs = match i with EArr a => arr_len a | ETuple cols => arr_len (hd (A1 []) cols) end.
Proof.
  assert (G : forall xs, from_data xs = Ok d -> xs <> [] /\ d = dd_of xs).
  { intros xs E. destruct xs as [|x xs']; [discriminate|].
    rewrite from_data_dd in E by discriminate. injection E as <-. split; [discriminate|reflexivity]. }
  destruct i as [[xs|rs]|cols]; cbn [make_data]; intros E.
  - exists xs. destruct (G xs E). auto.
  - cbn [reduce_joint_space bind] in E. destruct (G _ E). eexists; split; [eassumption|].
    split; [assumption|]. cbn. apply reduce_rows_length.
  - destruct (existsb _ cols); [discriminate|].
    apply bind_ok in E. destruct E as [r [R E]]. exists r. destruct (G r E). split; [assumption|].
    split; [assumption|]. cbn [reduce_joint_space] in R. unfold rmap in R.
    apply bind_ok in R. destruct R as [rows [C Er]]. injection Er as <-.
    rewrite reduce_rows_length. unfold column_stack in C.
    destruct cols as [|a cs]; [discriminate|]. destruct (forallb _ _); [|discriminate].
    injection C as <-. rewrite map_length, seq_length. reflexivity.
Qed.

Lemma local_discrete_mean b i ls : valid_base b -> local_discrete b i = Ok ls ->
  entropy_discrete b i = Ok (mean ls) /\
  length ls = match i with EArr a => arr_len a | ETuple cols => arr_len (hd (A1 []) cols) end.
Proof.
  intros V E. unfold local_discrete in E. apply bind_ok in E. destruct E as [d [M E]].
  destruct (make_data_len i d M) as [xs [NE [-> L]]].
  assert (E1 : local_discrete b (EArr (A1 xs)) = Ok ls).
  { unfold local_discrete. cbn [make_data]. rewrite from_data_dd by exact NE. exact E. }
  rewrite local_1d in E1 by assumption. injection E1 as <-. split.
  - unfold entropy_discrete. rewrite M. cbn [bind]. rewrite discrete_simple_ok by exact V.
    pose proof (mean_local xs (unit_of b) 0 NE) as ML. rewrite Rplus_0_r in ML. rewrite <- ML.
    do 2 f_equal. apply map_ext. intros x. ring.
  - rewrite map_length. exact L.
Qed.

Lemma local_mm_mean b i ls : valid_base b -> local_mm b i = Ok ls ->
  entropy_mm b i = Ok (mean ls) /\
  length ls = match i with EArr a => arr_len a | ETuple cols => arr_len (hd (A1 []) cols) end.
Proof.
  intros V E. unfold local_mm in E. apply bind_ok in E. destruct E as [d [M E]].
  destruct (make_data_len i d M) as [xs [NE [-> L]]].
  assert (E1 : local_mm b (EArr (A1 xs)) = Ok ls).
  { unfold local_mm. cbn [make_data]. rewrite from_data_dd by exact NE. exact E. }
  rewrite mm_local_1d in E1 by assumption. injection E1 as <-. split.
  - unfold entropy_mm. rewrite M. cbn [bind]. rewrite mm_simple_ok by assumption.
    rewrite mean_local by exact NE. f_equal. unfold Rdiv. ring.
  - rewrite map_length. exact L.
Qed.
