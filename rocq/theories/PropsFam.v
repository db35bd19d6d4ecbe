(** C80: Renyi and Tsallis mutual information and conditional mutual information. *)
From Coq Require Import Reals Lra Lia List ZArith Arith Bool Permutation.
From Verif Require Import Res RSum Spec SpecBase SpecGamma MBase PBase MTE MPct MNorm PropsPct MEst PEst PEst2 MCont SpecKern PKern PKern2 PKern3 MKnn SpecKnn SpecKnn2 PKnn PKnn2 PropsKnn PropsKnn2 PKnn3 PropsKnn4 PropsKnn5 PKnn4 PropsKnn6 MFam PropsKnn7 SpecFam PFam.
Import ListNotations.
Local Open Scope R_scope.

(** the specified entropy for each of the two estimators *)
Definition spec_H (f : family) (G : R -> R) (u : R) : nat -> nat -> nat -> R -> (nat -> R) -> R :=
  match f with Renyi => renyi_H G u | Tsallis => tsallis_H G u end.

Lemma last_app {A} (l : list A) x d : last (l ++ [x]) d = x.
Proof. induction l as [|y l IH]; [reflexivity|]. cbn [app]. destruct (l ++ [x]) eqn:E; [destruct l; discriminate|exact IH]. Qed.
Lemma firstn_app_exact {A} (l : list A) x : firstn (length l) (l ++ [x]) = l.
Proof. rewrite firstn_app, firstn_all, Nat.sub_diag. cbn. apply app_nil_r. Qed.
Lemma tables_app n vs ws : tables n vs -> tables n ws -> tables n (vs ++ ws).
Proof. unfold tables. intros. apply Forall_app; auto. Qed.
Lemma tables_pair n vs v z : tables n vs -> In v vs -> tables n [z] -> tables n [v; z].
Proof. intros T Hv Tz. apply (tables_app n [v] [z]); [|exact Tz]. unfold tables. apply Forall_cons; [apply (tables_in n vs); assumption|apply Forall_nil]. Qed.

Lemma map_ne {A B} (g : A -> B) l : (2 <= length l)%nat -> map g l <> [].
Proof. destruct l; cbn; [lia|discriminate]. Qed.

Lemma F2_len {A B} (Q : A -> B -> Prop) l l' : Forall2 Q l l' -> length l = length l'.
Proof. induction 1; cbn; congruence. Qed.

Section C80.
  Context (E : nenv) (b : base) (V : valid_base b) (HG : is_gamma (gam E)).
  Notation G := (gam E).
  Notation "'U'" := (unit_of b).

  Lemma Hj_value f n k q vars h : (1 <= k < n)%nat -> 0 < q < INR k + 1 -> entropy_is (spec_H f G U) n k q vars h ->
    Hj f E (ex_args k q b) n vars = Ok h.
  Proof.
    intros Hk Hq (ds & es & T & R & ->). unfold Hj. rewrite fam_entropy_eq.
    assert (TJ : table n (total_dim ds) (jrows n vars)) by (apply (joined_table n ds vars T)).
    assert (RJ : radii (Some 2) n [jrows n vars] k es).
    { intros t Ht. destruct (R t Ht) as [K _]. destruct (radii_exist (Some 2) n [jrows n vars] k Hk) as (es' & He').
      replace (es t) with (es' t); [apply He'; exact Ht|]. apply (kth_unique (Some 2) n vars k t); [|exact K].
      apply (joined_kth (Some 2) n [] vars k t (es' t) Ht). apply He'. exact Ht. }
    assert (PE : forall t, (t < n)%nat -> 0 < es t) by (intros t Ht; apply R; exact Ht).
    assert (OF : forall val, (forall G b k q rho n d, is_gamma G -> valid_base b -> (1 <= k)%nat -> q < INR k + 1 -> (1 <= n)%nat -> rho <> [] -> (forall r, In r rho -> 0 < r) ->
       fam_of f b q G (Z.of_nat k) (euclidean_ball d 1) rho n d = Ok (val G b q k n d rho)) ->
       expfam (fam_of f) E (ex_args k q b) (FArr (F2 (jrows n vars))) = Ok (val G b q k (n - 1)%nat (total_dim ds) (map es (seq 0 n)))).
    { intros val HV. rewrite (expfam_rows (fam_of f) val E b n [total_dim ds] [jrows n vars] (FArr (F2 (jrows n vars))) k q es HV); try assumption.
      - rewrite td1. reflexivity.
      - apply (tabs1 n _ (F2 (jrows n vars))). exact TJ.
      - apply (rows1 n (total_dim ds) (F2 (jrows n vars))). exact TJ. }
    destruct f; cbn [fam_of spec_H] in *.
    - rewrite (OF renyi_value renyi_of_ok). unfold renyi_value, renyi_H. fold (total_dim ds). reflexivity.
    - rewrite (OF tsallis_value tsallis_of_ok). unfold tsallis_value, tsallis_H. fold (total_dim ds). reflexivity.
  Qed.

  Lemma fam_mi_plain f a n vars : (2 <= length vars)%nat -> tables n (map rows2d vars) ->
    fam_mi f E a 0 (Some 0%Z) false vars =
    let* _ := e_check a in let* hs := mapM (fun v => Hj f E a n [v]) (map rows2d vars) in let* hj := Hj f E a n (map rows2d vars) in Ok (sumR hs - hj).
  Proof.
    intros Hv T. unfold fam_mi. rewrite (fmi_init_ok n) by assumption. cbn [bind]. rewrite no_noise. cbn [bind].
    rewrite (gen_mi_ok f E a n) by (try assumption; apply map_ne; exact Hv). reflexivity.
  Qed.
  Lemma fam_cmi_plain f a n vars cond : (2 <= length vars)%nat -> tables n (map rows2d vars) -> tables n [rows2d cond] ->
    fam_cmi f E a 0 (Some 0%Z) false vars cond =
    let* _ := e_check a in let* hs := mapM (fun v => Hj f E a n [v; rows2d cond]) (map rows2d vars) in
    let* hj := Hj f E a n (map rows2d vars ++ [rows2d cond]) in let* hz := Hj f E a n [rows2d cond] in Ok (sumR hs - hj - hz).
  Proof.
    intros Hv T Tz. unfold fam_cmi. cbn [bind]. rewrite (fcmi_init_ok n) by assumption. cbn [bind fst snd]. rewrite no_noise. cbn [bind].
    rewrite firstn_app_exact, last_app.
    rewrite (gen_cmi_ok f E a n) by (try assumption; apply map_ne; exact Hv). reflexivity.
  Qed.
  Lemma mapM_values f n k q (vs : list (list (list pt))) hs : (1 <= k < n)%nat -> 0 < q < INR k + 1 ->
    Forall2 (entropy_is (spec_H f G U) n k q) vs hs -> mapM (Hj f E (ex_args k q b) n) vs = Ok hs.
  Proof.
    intros Hk Hq F. induction F as [|v h vs hs Hh F IH]; [reflexivity|]. cbn [mapM]. rewrite (Hj_value f n k q v h) by assumption. cbn [bind].
    rewrite IH. reflexivity.
  Qed.

  (** ** the value: the sum of the entropies of the variables less the entropy of the joint variable *)
  Theorem C80_mi_value : forall f n vars k q hs hj,
    (2 <= length vars)%nat -> tables n (map rows2d vars) -> (1 <= k < n)%nat -> 0 < q < INR k + 1 ->
    Forall2 (fun x h => entropy_is (spec_H f G U) n k q [rows2d x] h) vars hs ->
    entropy_is (spec_H f G U) n k q (map rows2d vars) hj ->
    fam_mi f E (ex_args k q b) 0 (Some 0%Z) false vars = Ok (sumR hs - hj).
  Proof.
    intros f n vars k q hs hj Hv T Hk Hq F J. rewrite (fam_mi_plain f _ n) by assumption. rewrite e_check_ok by (try lia; lra). cbn [bind].
    rewrite mapM_map.
    assert (M : mapM (fun x => Hj f E (ex_args k q b) n [rows2d x]) vars = Ok hs).
    { rewrite <- (mapM_map (Hj f E (ex_args k q b) n) (fun x => [rows2d x])). apply mapM_values; try assumption.
      clear - F. induction F; cbn; constructor; assumption. }
    rewrite M. cbn [bind]. rewrite (Hj_value f n k q _ hj) by assumption. reflexivity.
  Qed.
  (** conditional: the sum of H(x_i, z) less H(x_1, ..., x_m, z) and H(z) *)
  Theorem C80_cmi_value : forall f n vars cond k q hs hj hz,
    (2 <= length vars)%nat -> tables n (map rows2d vars) -> tables n [rows2d cond] -> (1 <= k < n)%nat -> 0 < q < INR k + 1 ->
    Forall2 (fun x h => entropy_is (spec_H f G U) n k q [rows2d x; rows2d cond] h) vars hs ->
    entropy_is (spec_H f G U) n k q (map rows2d vars ++ [rows2d cond]) hj ->
    entropy_is (spec_H f G U) n k q [rows2d cond] hz ->
    fam_cmi f E (ex_args k q b) 0 (Some 0%Z) false vars cond = Ok (sumR hs - hj - hz).
  Proof.
    intros f n vars cond k q hs hj hz Hv T Tz Hk Hq F J Z. rewrite (fam_cmi_plain f _ n) by assumption. rewrite e_check_ok by (try lia; lra). cbn [bind].
    rewrite mapM_map.
    assert (M : mapM (fun x => Hj f E (ex_args k q b) n [rows2d x; rows2d cond]) vars = Ok hs).
    { rewrite <- (mapM_map (Hj f E (ex_args k q b) n) (fun x => [rows2d x; rows2d cond])). apply mapM_values; try assumption.
      clear - F. induction F; cbn; constructor; assumption. }
    rewrite M. cbn [bind]. rewrite (Hj_value f n k q _ hj), (Hj_value f n k q _ hz) by assumption. reflexivity.
  Qed.

  (** these entropies exist if no two samples coincide *)
  Lemma joint_distinct n vars v : tables n vars -> In v vars -> all_distinct n v ->
    forall t u, (t < n)%nat -> (u < n)%nat -> t <> u -> 0 < jdist (Some 2) vars t u.
  Proof.
    intros T Hv D t u Ht Hu N. apply Rlt_le_trans with (jdist (Some 2) [v] t u); [rewrite jdist_1; apply D; assumption|].
    apply (jdist_mono (Some 2) n [v] vars); try assumption; [cbn; lra|].
    apply in_split in Hv as (l1 & l2 & ->). exists (l1 ++ l2). cbn. symmetry. apply Permutation_middle.
  Qed.
  Theorem C80_defined : forall f n k q vars v, (1 <= k < n)%nat -> tables n vars -> In v vars -> all_distinct n v ->
    exists h, entropy_is (spec_H f G U) n k q vars h.
  Proof.
    intros f n k q vars v Hk T Hv D. destruct (tables_tabs _ _ T) as (ds & Td). destruct (radii_exist (Some 2) n vars k Hk) as (es & He).
    eexists. exists ds, es. split; [exact Td|]. split; [|reflexivity]. intros t Ht. split; [apply He; exact Ht|].
    destruct (He t Ht) as ((u & Hu & Nu & ->) & _). apply (joint_distinct n vars v); auto.
  Qed.

  (** ** the order of the variables does not matter *)
  Theorem C80_mi_symmetric : forall f n vars vars' k q,
    (2 <= length vars)%nat -> tables n (map rows2d vars) -> (1 <= k < n)%nat -> 0 < q -> Permutation vars vars' ->
    fam_mi f E (ex_args k q b) 0 (Some 0%Z) false vars' = fam_mi f E (ex_args k q b) 0 (Some 0%Z) false vars.
  Proof.
    intros f n vars vars' k q Hv T Hk Hq P.
    assert (PR : Permutation (map rows2d vars) (map rows2d vars')) by (apply Permutation_map; exact P).
    assert (T' : tables n (map rows2d vars')) by (unfold tables in *; apply (Permutation_Forall PR); exact T).
    rewrite !(fam_mi_plain f _ n) by (try assumption; rewrite <- (Permutation_length P); exact Hv).
    rewrite e_check_ok by (try lia; lra). cbn [bind]. rewrite <- (Hj_perm f E _ n _ _ T PR).
    symmetry. apply (mapM_sum_perm _ _ _ (fun s => let* hj := Hj f E (ex_args k q b) n (map rows2d vars) in Ok (s - hj)) PR).
    intros v Hv'. apply (noraise_H f E b k q n); try assumption. apply jrows_length.
  Qed.
  Theorem C80_cmi_symmetric : forall f n vars vars' cond k q,
    (2 <= length vars)%nat -> tables n (map rows2d vars) -> tables n [rows2d cond] -> (1 <= k < n)%nat -> 0 < q -> Permutation vars vars' ->
    fam_cmi f E (ex_args k q b) 0 (Some 0%Z) false vars' cond = fam_cmi f E (ex_args k q b) 0 (Some 0%Z) false vars cond.
  Proof.
    intros f n vars vars' cond k q Hv T Tz Hk Hq P.
    assert (PR : Permutation (map rows2d vars) (map rows2d vars')) by (apply Permutation_map; exact P).
    assert (T' : tables n (map rows2d vars')) by (unfold tables in *; apply (Permutation_Forall PR); exact T).
    rewrite !(fam_cmi_plain f _ n) by (try assumption; rewrite <- (Permutation_length P); exact Hv).
    rewrite e_check_ok by (try lia; lra). cbn [bind].
    rewrite <- (Hj_perm f E _ n (map rows2d vars ++ [rows2d cond]) _ (tables_app _ _ _ T Tz) (Permutation_app_tail _ PR)).
    symmetry. apply (mapM_sum_perm _ _ _ (fun s => let* hj := Hj f E (ex_args k q b) n (map rows2d vars ++ [rows2d cond]) in
       let* hz := Hj f E (ex_args k q b) n [rows2d cond] in Ok (s - hj - hz)) PR).
    intros v Hv'. apply (noraise_H f E b k q n); try assumption. apply jrows_length.
  Qed.

  (** ** scaling and reordering: Renyi *)
  Definition scaled (n : nat) (sg : nat -> nat) (c : R) (v v' : list pt) : Prop :=
    (exists d, table n d v /\ table n d v') /\
    forall t u, (t < n)%nat -> (u < n)%nat -> dst (Some 2) (nth (sg t) v' []) (nth (sg u) v' []) = c * dst (Some 2) (nth t v []) (nth u v []).
  Lemma scaled_tabs n sg c vs vs' : Forall2 (scaled n sg c) vs vs' -> exists ds, tabs n ds vs /\ tabs n ds vs'.
  Proof.
    induction 1 as [|v v' vs vs' ((d & D1 & D2) & _) F (ds & T & T')]; [exists []; split; apply Forall2_nil|].
    exists (d :: ds). split; apply Forall2_cons; assumption.
  Qed.
  Lemma Hj_scaled n ds vs vs' v k q sg c : (1 <= k < n)%nat -> 0 < q < INR k + 1 -> 0 < c -> Permutation (map sg (seq 0 n)) (seq 0 n) ->
    Forall2 (scaled n sg c) vs vs' -> tabs n ds vs -> In v vs -> all_distinct n v ->
    exists h, Hj Renyi E (ex_args k q b) n vs = Ok h /\ Hj Renyi E (ex_args k q b) n vs' = Ok (h + INR (total_dim ds) * ln c / U).
  Proof.
    intros Hk Hq Hc P F T Hv D.
    assert (T' : tabs n ds vs').
    { clear - F T Hk. revert ds T. induction F as [|x x' vs vs' ((d & D1 & D2) & _) F IH]; intros ds T; inversion T as [|d0 ? ds0 ? T0 T1]; subst; [apply Forall2_nil|].
      apply Forall2_cons; [|apply IH; exact T1].
      assert (d0 = d) as -> by (rewrite <- (table_nth n d0 x 0 T0), <- (table_nth n d x 0 D1) by lia; reflexivity). exact D2. }
    assert (SB : forall t, (t < n)%nat -> (sg t < n)%nat).
    { intros t Ht. assert (X : In (sg t) (seq 0 n)) by (apply (Permutation_in _ P), in_map, in_seq; lia). apply in_seq in X. lia. }
    assert (TT : tables n vs) by (eapply tabs_tables; exact T). assert (TT' : tables n vs') by (eapply tabs_tables; exact T').
    assert (JD : forall t u, (t < n)%nat -> (u < n)%nat -> jdist (Some 2) vs' (sg t) (sg u) = c * jdist (Some 2) vs t u).
    { intros t u Ht Hu. rewrite !(jdist_norm (Some 2) n) by (try assumption; try (apply SB; assumption); cbn; lra).
      rewrite <- norm_scale by (cbn; lra). f_equal. rewrite map_map. clear - F Ht Hu.
      induction F as [|x x' l l' H F IH]; cbn [map]; [reflexivity|]. rewrite <- IH. f_equal. apply H; assumption. }
    destruct (radii_exist (Some 2) n [rows2d (F2 (jrows n vs))] k Hk) as (es & He).
    unfold Hj. cbn [fam_entropy].
    destruct (C78_scaling E b n (total_dim ds) (F2 (jrows n vs)) (F2 (jrows n vs')) k q sg c es V HG) as (h & H1 & H2); try assumption.
    - apply (joined_table n ds vs T).
    - apply (joined_table n ds vs' T').
    - intros t u Ht Hu. cbn [rows2d]. rewrite !jrows_nth by (try assumption; apply SB; assumption). apply (JD t u Ht Hu).
    - apply (radii_pos (Some 2) n (F2 (jrows n vs)) k es); [|exact He]. intros t u Ht Hu N. cbn [rows2d]. rewrite !jrows_nth by assumption.
      apply (joint_distinct n vs v TT Hv D t u Ht Hu N).
    - exists h. split; assumption.
  Qed.

  (** applying isometries to the variables, reordering the samples and rescaling all variables by the same factor leaves
      the Renyi mutual information unchanged *)
  Theorem C80_mi_scaling : forall n vars vars' k q sg c,
    (2 <= length vars)%nat -> (1 <= k < n)%nat -> 0 < q < INR k + 1 -> 0 < c -> Permutation (map sg (seq 0 n)) (seq 0 n) ->
    Forall2 (scaled n sg c) (map rows2d vars) (map rows2d vars') -> Forall (fun x => all_distinct n (rows2d x)) vars ->
    exists v, fam_mi Renyi E (ex_args k q b) 0 (Some 0%Z) false vars = Ok v /\
              fam_mi Renyi E (ex_args k q b) 0 (Some 0%Z) false vars' = Ok v.
  Proof.
    intros n vars vars' k q sg c Hv Hk Hq Hc P F D.
    destruct (scaled_tabs _ _ _ _ _ F) as (ds & T & T').
    assert (LL : length vars' = length vars).
    { pose proof (F2_len _ _ _ F) as X. rewrite !map_length in X. symmetry. exact X. }
    rewrite !(fam_mi_plain Renyi _ n) by (try lia; eapply tabs_tables; eassumption).
    rewrite e_check_ok by (try lia; lra). cbn [bind].
    assert (J : exists h, Hj Renyi E (ex_args k q b) n (map rows2d vars) = Ok h /\ Hj Renyi E (ex_args k q b) n (map rows2d vars') = Ok (h + INR (total_dim ds) * ln c / U)).
    { destruct vars as [|x vars]; [cbn in Hv; lia|]. inversion D; subst. apply (Hj_scaled n ds _ _ (rows2d x) k q sg c); try assumption. left; reflexivity. }
    destruct J as (hj & -> & ->).
    assert (M : exists hs hs', mapM (fun v => Hj Renyi E (ex_args k q b) n [v]) (map rows2d vars) = Ok hs /\
                 mapM (fun v => Hj Renyi E (ex_args k q b) n [v]) (map rows2d vars') = Ok hs' /\ sumR hs' = sumR hs + INR (total_dim ds) * ln c / U).
    { clear - V HG Hk Hq Hc P F T D. revert vars' ds F T. induction D as [|x vars Dx D IH]; intros vars' ds F T.
      - inversion F as [E1 E2|]; subst. destruct vars'; [|discriminate]. inversion T; subst. exists [], []. split; [reflexivity|]. split; [reflexivity|]. cbn. unfold Rdiv. ring.
      - destruct vars' as [|x' vars']; [inversion F|]. inversion F as [|? ? ? ? Sx F']; subst. inversion T as [|d ? ds' ? Tx T']; subst.
        destruct (IH vars' ds' F' T') as (hs & hs' & M1 & M2 & S).
        destruct (Hj_scaled n [d] [rows2d x] [rows2d x'] (rows2d x) k q sg c) as (h & H1 & H2); try assumption.
        { apply Forall2_cons; [exact Sx|apply Forall2_nil]. } { apply Forall2_cons; [exact Tx|apply Forall2_nil]. } { left; reflexivity. }
        exists (h :: hs), ((h + INR (total_dim [d]) * ln c / U) :: hs'). cbn [map mapM]. rewrite H1, H2, M1, M2. split; [reflexivity|]. split; [reflexivity|].
        unfold sumR in *. cbn [sumf]. rewrite S. rewrite td1. change (total_dim (d :: ds')) with (d + total_dim ds')%nat. rewrite plus_INR. unfold Rdiv. ring. }
    destruct M as (hs & hs' & -> & -> & S). cbn [bind]. eexists. split; [reflexivity|]. f_equal. rewrite S. ring.
  Qed.
  (** for the conditional Renyi mutual information of m variables the same operations add (m - 2) dim(z) ln c: nothing for
      two variables *)
  Theorem C80_cmi_scaling : forall n vars vars' cond cond' dz k q sg c,
    (2 <= length vars)%nat -> (1 <= k < n)%nat -> 0 < q < INR k + 1 -> 0 < c -> Permutation (map sg (seq 0 n)) (seq 0 n) ->
    Forall2 (scaled n sg c) (map rows2d vars) (map rows2d vars') -> scaled n sg c (rows2d cond) (rows2d cond') ->
    table n dz (rows2d cond) -> all_distinct n (rows2d cond) ->
    exists v, fam_cmi Renyi E (ex_args k q b) 0 (Some 0%Z) false vars cond = Ok v /\
              fam_cmi Renyi E (ex_args k q b) 0 (Some 0%Z) false vars' cond' = Ok (v + (INR (length vars) - 2) * INR dz * ln c / U).
  Proof.
    intros n vars vars' cond cond' dz k q sg c Hv Hk Hq Hc P F Sz Tz D.
    destruct (scaled_tabs _ _ _ _ _ F) as (ds & T & T').
    assert (LL : length vars' = length vars).
    { pose proof (F2_len _ _ _ F) as X. rewrite !map_length in X. symmetry. exact X. }
    assert (Tz' : tables n [rows2d cond']) by (destruct Sz as ((d & _ & X) & _); unfold tables; apply Forall_cons; [eexists; exact X|apply Forall_nil]).
    assert (Tzz : tables n [rows2d cond]) by (unfold tables; apply Forall_cons; [eexists; exact Tz|apply Forall_nil]).
    rewrite !(fam_cmi_plain Renyi _ n) by (first [lia | exact Tz' | exact Tzz | eapply tabs_tables; eassumption]).
    rewrite e_check_ok by (try lia; lra). cbn [bind].
    destruct (Hj_scaled n (ds ++ [dz]) (map rows2d vars ++ [rows2d cond]) (map rows2d vars' ++ [rows2d cond']) (rows2d cond) k q sg c) as (hj & -> & ->); try assumption.
    { apply Forall2_app; [exact F|]. apply Forall2_cons; [exact Sz|apply Forall2_nil]. }
    { apply tabs_app; [exact T|]. apply Forall2_cons; [exact Tz|apply Forall2_nil]. }
    { apply in_or_app. right. left. reflexivity. }
    destruct (Hj_scaled n [dz] [rows2d cond] [rows2d cond'] (rows2d cond) k q sg c) as (hz & -> & ->); try assumption.
    { apply Forall2_cons; [exact Sz|apply Forall2_nil]. } { apply Forall2_cons; [exact Tz|apply Forall2_nil]. } { left; reflexivity. }
    assert (M : exists hs hs', mapM (fun v => Hj Renyi E (ex_args k q b) n [v; rows2d cond]) (map rows2d vars) = Ok hs /\
                 mapM (fun v => Hj Renyi E (ex_args k q b) n [v; rows2d cond']) (map rows2d vars') = Ok hs' /\
                 sumR hs' = sumR hs + (INR (total_dim ds) + INR (length vars) * INR dz) * ln c / U).
    { clear - V HG Hk Hq Hc P F T D Sz Tz. revert vars' ds F T. induction vars as [|x vars IH]; intros vars' ds F T.
      - inversion F as [E1 E2|]; subst. destruct vars'; [|discriminate]. inversion T; subst. exists [], []. split; [reflexivity|]. split; [reflexivity|]. cbn. unfold Rdiv. ring.
      - destruct vars' as [|x' vars']; [inversion F|]. inversion F as [|? ? ? ? Sx F']; subst. inversion T as [|d ? ds' ? Tx T']; subst.
        destruct (IH vars' ds' F' T') as (hs & hs' & M1 & M2 & S).
        destruct (Hj_scaled n [d; dz] [rows2d x; rows2d cond] [rows2d x'; rows2d cond'] (rows2d cond) k q sg c) as (h & H1 & H2); try assumption.
        { repeat (apply Forall2_cons; [assumption|]). apply Forall2_nil. } { repeat (apply Forall2_cons; [assumption|]). apply Forall2_nil. } { right; left; reflexivity. }
        exists (h :: hs), ((h + INR (total_dim [d; dz]) * ln c / U) :: hs'). cbn [map mapM]. rewrite H1, H2, M1, M2. split; [reflexivity|]. split; [reflexivity|].
        unfold sumR in *. cbn [sumf]. rewrite S. change (total_dim (d :: ds')) with (d + total_dim ds')%nat.
        change (total_dim [d; dz]) with (d + (dz + 0))%nat. cbn [length]. rewrite S_INR, !plus_INR. cbn [INR]. unfold Rdiv. ring. }
    destruct M as (hs & hs' & -> & -> & S). cbn [bind]. eexists. split; [reflexivity|]. f_equal. rewrite S, total_dim_app, plus_INR, td1. unfold Rdiv. ring.
  Qed.
End C80.
