(** Property theorems: the NSB entropy estimator (C82). *)
From Coq Require Import Reals Lra Lia List ZArith Arith Permutation.
From Coquelicot Require Import Coquelicot.
From Verif Require Import Res RSum Spec Ord Info2 SpecGamma SpecEst SpecInput SpecBase MBase MData MEntropy MMI MGeneric MEst PBase PEst PEst5 PMI PMI4 PGeneric PropsEst SpecNsb MNsb PNsb PNsb2 PNsb3 PNsb4.
Import ListNotations.
Local Open Scope R_scope.
Local Notation length := List.length.

(** the number of states used: the argument K, or the number of observed values *)
Definition nsb_states (Kg : option Z) (i : einput) : Z := match Kg with Some k => k | None => Z.of_nat (nvals (sample i)) end.

Lemma entropy_nsb_cases E Kg b i : nsb_lib E -> valid_base b -> usable i ->
  let K := nsb_states Kg i in
  (((K <= 1)%Z \/ K = Z.of_nat (input_size i)) /\ entropy_nsb E Kg b i = NonFinite) \/
  ((2 <= K)%Z /\ K <> Z.of_nat (input_size i) /\
   exists h, is_nsb (digam E) (trigam E) (Z.to_nat K) (sample i) h /\ entropy_nsb E Kg b i = Ok (h / unit_of b)).
Proof.
  intros HE V U K. destruct (usable_data i U) as (xs & EX & NE & SP & L). unfold entropy_nsb, entropy_of, e_global. rewrite EX. cbn [bind est_nsb e_calc].
  pose proof (equi_partition _ _ SP) as Q.
  assert (EK : K = match Kg with Some k => k | None => Z.of_nat (nvals xs) end) by (unfold K, nsb_states; rewrite (equi_nvals _ _ Q); reflexivity).
  destruct (Z.eq_dec K (Z.of_nat (input_size i))) as [ES|NS].
  { left. split; [right; exact ES|]. rewrite nsb_simple_same; [reflexivity|exact NE|]. rewrite L. destruct Kg; [rewrite <- EK; exact ES|]. lia. }
  destruct (Z.eq_dec K 1) as [E1|N1].
  { left. split; [left; lia|]. rewrite nsb_simple_one; [reflexivity|exact HE|]. destruct Kg; lia. }
  destruct (Z_le_gt_dec K 0) as [E0|G0].
  { left. split; [left; lia|]. unfold nsb_simple.
    replace (match Kg with Some k => k | None => Z.of_nat (dd_K (dd_of xs)) end) with K by (rewrite EK, dd_K_of; reflexivity).
    rewrite np_log_bad by (apply (IZR_le K 0); lia). reflexivity. }
  right. split; [lia|]. split; [exact NS|].
  destruct (nsb_simple_ok E HE Kg b xs (Z.to_nat K) V NE ltac:(lia) ltac:(lia)) as (h & Hh & EH).
  - destruct Kg; lia.
  - exists h. split; [|rewrite EH; reflexivity]. apply (equi_nsb _ _ _ xs (sample i)); [lia|apply equi_sym; exact Q|exact Hh].
Qed.

(** the value is the ratio of the two integrals, in units of the base *)
Theorem C82_nsb_value E Kg b i : nsb_lib E -> valid_base b -> usable i ->
  (2 <= nsb_states Kg i)%Z -> nsb_states Kg i <> Z.of_nat (input_size i) ->
  exists h, is_nsb (digam E) (trigam E) (Z.to_nat (nsb_states Kg i)) (sample i) h /\ entropy_nsb E Kg b i = Ok (h / unit_of b).
Proof.
  intros HE V U HK HN. destruct (entropy_nsb_cases E Kg b i HE V U) as [([X|X] & _)|(_ & _ & H)]; [lia|contradiction|exact H].
Qed.
Print Assumptions C82_nsb_value.

(** it is undefined (nan) exactly when the number of states equals the number of samples or is at most one *)
Theorem C82_nsb_undefined E Kg b i : nsb_lib E -> valid_base b -> usable i ->
  entropy_nsb E Kg b i = NonFinite <-> ((nsb_states Kg i <= 1)%Z \/ nsb_states Kg i = Z.of_nat (input_size i)).
Proof.
  intros HE V U. destruct (entropy_nsb_cases E Kg b i HE V U) as [(X & EQ)|(P & Q & h & _ & EQ)]; rewrite EQ; split; auto; try discriminate. intros [X|X]; [lia|contradiction].
Qed.

(** the specification determines the value *)
Theorem C82_nsb_unique D T K (xs : list (list Z)) h h' : is_nsb D T K xs h -> is_nsb D T K xs h' -> h = h'.
Proof. apply is_nsb_unique. Qed.

(** it lies between 0 and the logarithm of the number of OBSERVED values, also if a larger number of states is given *)
Theorem C82_nsb_range E Kg b i h : nsb_lib E -> big_base b -> usable i -> entropy_nsb E Kg b i = Ok h ->
  0 <= h <= ln (INR (nvals (sample i))) / unit_of b.
Proof.
  intros HE B U EQ. destruct (entropy_nsb_cases E Kg b i HE (big_valid b B) U) as [(_ & X)|(P & Q & h0 & Hh & X)]; rewrite X in EQ; [discriminate|].
  injection EQ as <-. destruct HE as (HD & HT & _).
  pose proof (is_nsb_range _ _ HD HT (Z.to_nat (nsb_states Kg i)) (sample i) h0 ltac:(lia) (sample_ne i U) Hh) as R.
  split; [apply nonneg_unit; [exact B|apply R]|apply le_unit; [exact B|apply R]].
Qed.
Print Assumptions C82_nsb_range.

(** numerical choices do not matter: the value is the same for every log-gamma with the recurrence, every integrator that is
    exact, and every result of the search for the extremum *)
Lemma is_nsb_lib D T D' T' K (xs : list (list Z)) h : is_digamma D -> is_digamma D' -> is_trigamma T -> is_trigamma T' -> (2 <= K)%nat -> xs <> [] ->
  is_nsb D T K xs h -> is_nsb D' T' K xs h.
Proof.
  intros HD HD' HT HT' HK NE (num & den & Hn & Hd & P & ->). pose proof (lnK_pos K HK) as PL.
  assert (ED : forall x, 0 < x -> D x = D' x).
  { intros x Hx. pose proof (uniqueness_sum _ _ _ (HD x Hx) (HD' x Hx)). lra. }
  assert (ET : forall x, 0 < x -> T x = T' x) by (intros x Hx; apply (uniqueness_sum _ _ _ (HT x Hx) (HT' x Hx))).
  assert (PK : 0 <= INR K) by apply pos_INR. assert (PV : 0 <= INR (nvals xs)) by apply pos_INR. assert (PN : 0 < INR (length xs)) by (destruct xs; [congruence|apply lt_0_INR; cbn; lia]).
  assert (EX : forall x, 0 < x -> xi_density T K x = xi_density T' K x).
  { intros x Hx. unfold xi_density. assert (0 <= INR K * x) by (apply Rmult_le_pos; lra). rewrite !ET by lra. reflexivity. }
  exists num, den. split; [|split; [|split; [exact P|reflexivity]]].
  - apply is_RInt_ext with (2 := Hn). rewrite Rmin_left, Rmax_right by lra. intros x Hx. rewrite EX by lra. f_equal.
    unfold posterior_entropy, bycount. assert (0 <= INR (nvals xs) * x) by (apply Rmult_le_pos; lra). rewrite ED by lra. f_equal.
    apply sumf_ext. intros v _. pose proof (pos_INR (count xs v)). rewrite ED by lra. reflexivity.
  - apply is_RInt_ext with (2 := Hd). rewrite Rmin_left, Rmax_right by lra. intros x Hx. rewrite EX by lra. reflexivity.
Qed.
Theorem C82_nsb_numerics E E' Kg b i : nsb_lib E -> nsb_lib E' -> valid_base b -> usable i -> entropy_nsb E Kg b i = entropy_nsb E' Kg b i.
Proof.
  intros HE HE' V U.
  destruct (entropy_nsb_cases E Kg b i HE V U) as [([X|X] & EQ)|(P & Q & h & Hh & EQ)];
  destruct (entropy_nsb_cases E' Kg b i HE' V U) as [([X'|X'] & EQ')|(P' & Q' & h' & Hh' & EQ')]; try congruence; try lia.
  rewrite EQ, EQ'. f_equal. f_equal. apply (is_nsb_unique (digam E') (trigam E') _ _ _ _) with (2 := Hh').
  apply (is_nsb_lib (digam E) (trigam E)) with (7 := Hh); try apply HE; try apply HE'; [lia|apply sample_ne, U].
Qed.

(** only the multiset of counts matters: order and names of the values do not *)
Theorem C82_nsb_counts_only E Kg b i j : nsb_lib E -> valid_base b -> usable i -> usable j -> renamed i j -> entropy_nsb E Kg b i = entropy_nsb E Kg b j.
Proof.
  intros HE V U W R. pose proof (renamed_equi i j R) as Q.
  assert (L : input_size i = input_size j) by (rewrite <- (sample_length i U), <- (sample_length j W); apply (equi_len _ _ Q)).
  assert (K : nsb_states Kg i = nsb_states Kg j) by (unfold nsb_states; rewrite (equi_nvals _ _ Q); reflexivity).
  destruct (entropy_nsb_cases E Kg b i HE V U) as [([X|X] & EQ)|(P & N & h & Hh & EQ)];
  destruct (entropy_nsb_cases E Kg b j HE V W) as [([X'|X'] & EQ')|(P' & N' & h' & Hh' & EQ')]; try congruence; try lia.
  rewrite EQ, EQ'. f_equal. f_equal. apply (is_nsb_unique (digam E) (trigam E) _ _ _ _) with (2 := Hh').
  apply (equi_nsb _ _ _ (sample i) (sample j)); [lia|exact Q|]. rewrite <- K. exact Hh.
Qed.

(** a constant sample, whose entropy is 0, gives nan *)
Theorem C82_nsb_constant E b (v : Z) n : nsb_lib E -> valid_base b -> (0 < n)%nat -> entropy_nsb E None b (EArr (A1 (repeat v n))) = NonFinite.
Proof.
  intros HE V Hn. assert (U : usable (EArr (A1 (repeat v n)))) by (split; [cbn; rewrite repeat_length; exact Hn|exact Logic.I]).
  apply C82_nsb_undefined; [exact HE|exact V|exact U|]. left. unfold nsb_states, sample, arr_rows.
  assert (X : forall m, (nvals (map (fun x : Z => [x]) (repeat v m)) <= 1)%nat).
  { intros m. unfold nvals, distinct. apply (NoDup_incl_length (l' := [[v]])); [apply NoDup_nodup|]. intros r Hr. apply nodup_In in Hr.
    apply in_map_iff in Hr. destruct Hr as (x & <- & Hx). rewrite (repeat_spec _ _ _ Hx). left; reflexivity. }
  specialize (X n). lia.
Qed.

(** local values are refused *)
Theorem C82_nsb_local E Kg b i h : entropy_nsb E Kg b i = Ok h -> local_of (est_nsb E Kg) b i = Raise TheoreticalInconsistencyError.
Proof.
  unfold entropy_nsb, entropy_of, local_of, e_global, e_local. destruct (make_data i) as [d| |]; cbn [bind]; [|discriminate|discriminate].
  cbn [est_nsb e_calc e_extract]. destruct (nsb_simple E Kg b d); cbn [rmap bind]; [reflexivity|discriminate|discriminate].
Qed.

(** MI is the sum of the NSB entropies of the variables minus that of the joint variable, when all of them are defined *)
Theorem C82_nsb_mi E Kg b vars n (G0 : arr -> R) hj : (2 <= length vars)%nat -> List.Forall (fun a => arr_len a = n) vars -> (0 < n)%nat -> nsb_K_ok Kg = true ->
  (forall x, In x vars -> entropy_nsb E Kg b (EArr x) = Ok (G0 x)) -> entropy_nsb E Kg b (ETuple vars) = Ok hj ->
  exists v, nsb_mi E Kg b (Some 0%Z) vars = Ok v /\ value_global v = sumf G0 vars - hj.
Proof.
  intros Hk F Hn OK HH HJ. assert (NE : vars <> []) by (intros ->; simpl in Hk; lia).
  set (G := fun i : einput => match i with EArr a => G0 a | ETuple _ => hj end).
  assert (LA : forall i xs g, make_data i = Ok (dd_of xs) -> entropy_nsb E Kg b i = Ok g -> lawful_on (est_nsb E Kg) b xs g).
  { intros i xs g EX EG. unfold entropy_nsb, entropy_of in EG. rewrite EX in EG. cbn [bind] in EG. split; [exact EG|]. right; right.
    unfold e_global, e_local in *. cbn [est_nsb e_calc e_extract] in *. destruct (nsb_simple E Kg b (dd_of xs)); cbn in *; [reflexivity|discriminate|discriminate]. }
  destruct (from_entropies_ok (est_nsb E Kg) b (map EArr vars) [ETuple vars] n G) as (v & EV & VV & _).
  - destruct vars; [congruence|discriminate].
  - exact Hn.
  - intros i Hi. apply in_app_or in Hi. destruct Hi as [Hi|[<-|[]]].
    + apply in_map_iff in Hi. destruct Hi as (a & <- & Ha). rewrite List.Forall_forall in F.
      destruct (make_data_arr a) as (xs & E1 & E2 & _); [rewrite (F a Ha); exact Hn|]. exists xs. split; [exact E1|]. split; [rewrite E2; auto|].
      apply (LA (EArr a)); [exact E1|apply HH; exact Ha].
    + destruct (make_data_tup n vars NE F Hn) as (xs & E1 & E2 & _). exists xs. split; [exact E1|]. split; [exact E2|]. apply (LA (ETuple vars)); assumption.
  - exists v. split.
    + unfold nsb_mi, gen_mi. rewrite (mi_init_0 vars n) by assumption. cbn [bind]. rewrite OK. exact EV.
    + rewrite VV. rewrite sumf_map. rewrite (sumf_ext _ G0) by reflexivity. cbn [sumf]. unfold G. ring.
Qed.
(** an explicit number of states must be positive *)
Theorem C82_nsb_mi_K E b K vars n : (2 <= length vars)%nat -> List.Forall (fun a => arr_len a = n) vars -> (0 < n)%nat -> (K <= 0)%Z ->
  nsb_mi E (Some K) b (Some 0%Z) vars = Raise ValueError.
Proof.
  intros Hk F Hn HK. unfold nsb_mi. rewrite (mi_init_0 vars n) by assumption. cbn [bind nsb_K_ok]. destruct (Z.ltb_spec 0 K); [lia|reflexivity].
Qed.

(** the hypotheses on a concrete case: such library functions exist, (3,3,5) has two values among three samples, and the
    estimate lies between 0 and ln 2 *)
Example C82_example : exists E, nsb_lib E /\ exists h, entropy_nsb E None BE (EArr (A1 [3; 3; 5]%Z)) = Ok h /\ 0 <= h <= ln 2.
Proof.
  destruct (nsb_lib_ex (fun _ _ => 1)) as (E & HE & _). exists E. split; [exact HE|].
  assert (U : usable (EArr (A1 [3; 3; 5]%Z))) by (split; [cbn; lia|exact Logic.I]).
  destruct (C82_nsb_value E None BE (EArr (A1 [3; 3; 5]%Z)) HE Logic.I U) as (h & _ & EH); [cbn; lia|cbn; lia|].
  exists (h / unit_of BE). split; [exact EH|]. pose proof (C82_nsb_range E None BE _ _ HE Logic.I U EH) as R.
  change (nvals (sample (EArr (A1 [3; 3; 5]%Z)))) with 2%nat in R. cbn [unit_of] in *. change (INR 2) with 2 in R. lra.
Qed.
