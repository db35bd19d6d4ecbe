(** C115: small changes of the data, and vanishing noise. *)
From Coq Require Import Reals Lra Lia List ZArith Arith Bool Permutation.
From Verif Require Import Res RSum Spec SpecTE SpecTEc SpecBase SpecGamma MBase PBase MTE PTE2 MPct MNorm PropsPct MEst PEst PEst2 MCont SpecKern PKern PKern2 PKern3 PKern4 PKern5 PTEc MKnn SpecKnn SpecKnn2 PKnn PKnn2 PropsKnn PropsKnn2 PropsKnn3 PKnn3 PropsKnn4 PropsKnn5 PKnn4 PropsKnn6 MFam PropsKnn7 SpecFam PFam PropsFam PropsFam2 PropsFam3 SpecPert PPert PPert2.
Import ListNotations.
Local Open Scope R_scope.

Lemma close_near d vars vars' : close_data d vars vars' -> near_all d (map rows2d vars) (map rows2d vars').
Proof. intros F. unfold near_all. induction F; cbn; constructor; assumption. Qed.
Lemma stable_continuous f r vars : stable (map rows2d vars) r ->
  (exists del, 0 < del /\ forall vars', close_data del vars vars' -> f vars' = r (map rows2d vars')) -> continuous_in_data f vars.
Proof.
  intros (h & A & F) (d & Hd & X). assert (S0 : f vars = r (map rows2d vars)).
  { apply X. clear - Hd. unfold close_data. induction vars as [|x l IH]; constructor; [|exact IH].
    pose proof (near_all_refl d [rows2d x] ltac:(lra)) as N. inversion N; assumption. }
  exists h. split; [rewrite S0; exact A|]. intros eps He. destruct (F eps He) as (d' & Hd' & Q). exists (Rmin d d'). split; [apply Rmin_pos; assumption|].
  intros vars' C.
  assert (M : forall e, Rmin d d' <= e -> close_data e vars vars').
  { intros e L. unfold close_data in *. eapply Forall2_imp; [|exact C]. intros x y. apply Forall2_imp. intros p q. apply Forall2_imp. intros u v ?. lra. }
  rewrite X by (apply M, Rmin_l). apply Q. apply close_near, M, Rmin_r.
Qed.
Lemma close_tables d n vars vars' : close_data d vars vars' -> tables n (map rows2d vars) -> tables n (map rows2d vars').
Proof. intros C T. eapply near_tables; [apply close_near; exact C|exact T]. Qed.
Lemma close_length d vars vars' : close_data d vars vars' -> length vars' = length vars.
Proof. intros C. symmetry. eapply Forall2_len. exact C. Qed.

Section C115.
  Context (E : nenv) (b : base) (V : valid_base b) (HG : is_gamma (gam E)).
  Notation G := (gam E).
  Notation "'U'" := (unit_of b).

  (** ** metric entropy *)
  Section Metric.
    Context (w : variant) (m : mink) (Hp : norm_ok (np_of m)).
    Notation p := (np_of m).
    Lemma kl_stable n ds vs k : (1 <= total_dim ds)%nat -> tabs n ds vs -> (1 <= k < n)%nat -> apart p n k vs ->
      stable vs (fun ws => kl_entropy E (ksg_args w m b k) (FArr (F2 (jrows n ws)))).
    Proof.
      intros Hd T Hk Ha. pose proof (unit_ne b V) as UN.
      apply (stable_radii p n vs k _ (fun es => mean (map (fun t => kl_value G w p n (total_dim ds) k (es t)) (seq 0 n)) / U)); try assumption.
      - intros es He. unfold Rdiv. apply (lim_es_comp n (fun es => mean (map (fun t => kl_value G w p n (total_dim ds) k (es t)) (seq 0 n))) es (fun x => x * / U));
          [|apply (continuity_pt_mult (fun x => x) (fun _ => / U)); [apply cont_id|apply continuity_pt_const; intros ? ?; reflexivity]].
        pose proof (lim_es_mean n (kl_value G w p n (total_dim ds) k) es) as L. intros eps Heps.
        destruct (L ltac:(intros t Ht; apply cont_kl_value; try assumption; apply (Ha t); [exact Ht|apply He; exact Ht]) eps Heps) as (d & Hd' & Q).
        exists d. split; [exact Hd'|]. intros es' B. specialize (Q es' B). rewrite !map_map in Q. exact Q.
      - exists 1. split; [lra|]. intros ws N es He Pe. pose proof (near_tabs _ _ _ _ _ N T) as T'.
        destruct (kl_rows E w m b Hp V HG n ds ws (FArr (F2 (jrows n ws))) k es Hd T' Hk eq_refl He) as [_ X].
        rewrite X. do 3 f_equal. apply map_ext_in. intros t Ht. apply in_seq in Ht. unfold kl_local.
        specialize (Pe t ltac:(lia)). destruct (Req_EM_T (es t) 0); [lra|reflexivity].
    Qed.
    Theorem C115_entropy : forall n d a k, (1 <= d)%nat -> table n d (rows2d a) -> (1 <= k < n)%nat -> apart p n k [rows2d a] ->
      continuous_in_data (fun l => kl_entropy E (ksg_args w m b k) (FArr (hd (F1 []) l))) [a].
    Proof.
      intros n d a k Hd T Hk Ha. assert (TD : total_dim [d] = d) by (cbn; lia).
      apply (stable_continuous _ (fun ws => kl_entropy E (ksg_args w m b k) (FArr (F2 (jrows n ws))))).
      - apply (kl_stable n [d] [rows2d a] k); try assumption; [rewrite TD; exact Hd|]. apply Forall2_cons; [exact T|apply Forall2_nil].
      - exists 1. split; [lra|]. intros l C. inversion C as [|? x ? l' H C']; subst. inversion C'; subst. cbn [hd map].
        unfold kl_entropy, kl_entropy_local. cbn [make_rows rows2d]. rewrite single_jrows; [reflexivity|]. apply (close_table _ _ _ _ _ H T).
    Qed.
    Theorem C115_joint_entropy : forall n ds cols k, cols <> [] -> (1 <= fold_right Nat.add 0 ds)%nat -> tabs n ds (map rows2d cols) -> (1 <= k < n)%nat ->
      apart p n k (map rows2d cols) -> continuous_in_data (fun l => kl_entropy E (ksg_args w m b k) (FTuple l)) cols.
    Proof.
      intros n ds cols k Hc Hd T Hk Ha.
      apply (stable_continuous _ (fun ws => kl_entropy E (ksg_args w m b k) (FArr (F2 (jrows n ws))))); [apply (kl_stable n ds); assumption|].
      exists 1. split; [lra|]. intros l C. pose proof (close_tables _ n _ _ C (tabs_tables _ _ _ T)) as T'.
      assert (NE : l <> []) by (intros ->; apply close_length in C; destruct cols; [congruence|discriminate]).
      unfold kl_entropy, kl_entropy_local. rewrite (make_rows_tuple n l) by assumption. reflexivity.
    Qed.
  End Metric.

  (** ** Renyi and Tsallis *)
  Lemma apart_separated n k vs : (1 <= k < n)%nat -> tables n vs -> apart (Some 2) n k vs ->
    forall ws, tables n ws -> (exists r, Permutation ws (vs ++ r)) -> apart (Some 2) n k ws.
  Proof.
    intros Hk T Ha ws T' (r & P) t e Ht K. destruct (Rlt_or_le 0 e) as [|L]; [assumption|exfalso].
    destruct (radii_exist (Some 2) n vs k Hk) as (es & He). pose proof (He t Ht) as K'. pose proof (Ha t (es t) Ht K') as Pe.
    destruct K as (_ & _ & W). destruct K' as (_ & C & _).
    assert (X : (within (Some 2%R) n ws t e <= closer (Some 2%R) n vs t (es t))%nat); [|lia].
    unfold within, closer. apply filter_mono_len. intros u Hu. apply others_in in Hu as [U1 U2].
    pose proof (jdist_mono (Some 2) n vs ws t u ltac:(cbn; lra) T' Ht U1 (ex_intro _ r P)) as J.
    destruct (Rle_dec (jdist (Some 2) ws t u) e); [|discriminate]. intros _. destruct (Rlt_dec (jdist (Some 2) vs t u) (es t)); [reflexivity|lra].
  Qed.
  Lemma Hj_stable f n k q vs : (1 <= k < n)%nat -> 0 < q < INR k + 1 -> tables n vs -> apart (Some 2) n k vs ->
    stable vs (Hj f E (ex_args k q b) n).
  Proof.
    intros Hk Hq T Ha. destruct (tables_tabs _ _ T) as (ds & TT). pose proof (unit_ne b V) as UN.
    assert (Hp : norm_ok (Some 2)) by (cbn; lra).
    apply (stable_radii (Some 2) n vs k _ (spec_H f G U n (total_dim ds) k q)); try assumption.
    - intros es He. apply lim_spec_H; try assumption; try lra. intros t Ht. apply (Ha t); [exact Ht|apply He; exact Ht].
    - exists 1. split; [lra|]. intros ws N es He Pe. apply (Hj_value E b V HG f n k q); try assumption.
      exists ds, es. split; [exact (near_tabs _ _ _ _ _ N TT)|]. split; [intros t Ht; split; [apply He|apply Pe]; exact Ht|reflexivity].
  Qed.
  Theorem C115_family_entropy : forall f n d a k q, table n d (rows2d a) -> (1 <= k < n)%nat -> 0 < q < INR k + 1 -> apart (Some 2) n k [rows2d a] ->
    continuous_in_data (fun l => fam_entropy f E (ex_args k q b) (FArr (hd (F1 []) l))) [a].
  Proof.
    intros f n d a k q T Hk Hq Ha. apply (stable_continuous _ (Hj f E (ex_args k q b) n)).
    - apply Hj_stable; try assumption. apply Forall_cons; [eexists; exact T|apply Forall_nil].
    - exists 1. split; [lra|]. intros l C. inversion C as [|? x ? l' H C']; subst. inversion C'; subst. cbn [hd map].
      rewrite <- (H_one f E _ n) by (apply (close_table _ _ _ _ _ H T)). apply H_rows. reflexivity.
  Qed.
  Theorem C115_family_joint_entropy : forall f n cols k q, cols <> [] -> tables n (map rows2d cols) -> (1 <= k < n)%nat -> 0 < q < INR k + 1 ->
    apart (Some 2) n k (map rows2d cols) -> continuous_in_data (fun l => fam_entropy f E (ex_args k q b) (FTuple l)) cols.
  Proof.
    intros f n cols k q Hc T Hk Hq Ha. apply (stable_continuous _ (Hj f E (ex_args k q b) n)); [apply Hj_stable; assumption|].
    exists 1. split; [lra|]. intros l C. pose proof (close_tables _ n _ _ C T) as T'.
    assert (NE : l <> []) by (intros ->; apply close_length in C; destruct cols; [congruence|discriminate]).
    apply H_rows. rewrite (make_rows_tuple n l) by assumption. reflexivity.
  Qed.
  Theorem C115_family_mi : forall f n vars k q, (2 <= length vars)%nat -> tables n (map rows2d vars) -> (1 <= k < n)%nat -> 0 < q < INR k + 1 ->
    (forall x, In x vars -> apart (Some 2) n k [rows2d x]) ->
    continuous_in_data (fam_mi f E (ex_args k q b) 0 (Some 0%Z) false) vars.
  Proof.
    intros f n vars k q Hv T Hk Hq Ha. set (N := length vars). set (vs := map rows2d vars). assert (Lv : length vs = N) by apply map_length.
    assert (Ti : forall i, (i < N)%nat -> tables n [nth i vs []]).
    { intros i Hi. unfold tables. apply Forall_cons; [|apply Forall_nil]. unfold tables in T. rewrite Forall_forall in T. apply T. apply nth_In. fold vs. lia. }
    assert (Ai : forall i, (i < N)%nat -> apart (Some 2) n k [nth i vs []]).
    { intros i Hi. unfold vs. rewrite (nth_indep _ [] (rows2d (F1 []))) by (rewrite map_length; exact Hi). rewrite map_nth. apply Ha. apply nth_In. exact Hi. }
    apply (stable_continuous _ (fun ws => let* a := (let* hs := mapM (fun i => Hj f E (ex_args k q b) n (sel [i] ws)) (seq 0 N) in Ok (sumR hs)) in
       let* c := Hj f E (ex_args k q b) n ws in Ok (a - c))).
    - apply stable_minus.
      + apply stable_sum. intros i Hi. apply in_seq in Hi. apply (stable_sel vs [i]). cbn [sel map]. apply Hj_stable; try assumption; [apply Ti|apply Ai]; lia.
      + apply Hj_stable; try assumption. apply (apart_separated n k [nth 0 vs []]); try assumption; [apply Ti; lia|apply Ai; lia|].
        fold vs. destruct vs as [|v l]; [cbn in Lv; lia|]. exists l. reflexivity.
    - exists 1. split; [lra|]. intros l C. pose proof (close_tables _ n _ _ C T) as T'. pose proof (close_length _ _ _ C) as LL.
      rewrite (fam_mi_plain E f _ n) by (try assumption; lia). rewrite e_check_ok by (try lia; lra). cbn [bind].
      rewrite (mapM_index (fun v => Hj f E (ex_args k q b) n [v]) (map rows2d l) N) by (rewrite map_length; exact LL). unfold sel. cbn [map].
      destruct (mapM _ (seq 0 N)); cbn [bind]; reflexivity.
  Qed.
  (** the first array of the list is the condition *)
  Theorem C115_family_cmi : forall f n vars cond k q, (2 <= length vars)%nat -> tables n (map rows2d (cond :: vars)) -> (1 <= k < n)%nat -> 0 < q < INR k + 1 ->
    apart (Some 2) n k [rows2d cond] ->
    continuous_in_data (fun l => fam_cmi f E (ex_args k q b) 0 (Some 0%Z) false (tl l) (hd (F1 []) l)) (cond :: vars).
  Proof.
    intros f n vars cond k q Hv T Hk Hq Ha. set (N := length vars). set (vs := map rows2d (cond :: vars)). assert (Lv : length vs = S N) by apply map_length.
    assert (Ti : forall i, (i < S N)%nat -> tables n [nth i vs []]).
    { intros i Hi. unfold tables. apply Forall_cons; [|apply Forall_nil]. unfold tables in T. rewrite Forall_forall in T. apply T. apply nth_In. fold vs. lia. }
    assert (V0 : nth 0 vs [] = rows2d cond) by reflexivity.
    assert (T2 : forall i, (i < S N)%nat -> tables n (sel [i; 0%nat] vs)).
    { intros i Hi. apply (tables_app n [nth i vs []] [nth 0 vs []]); apply Ti; lia. }
    assert (P2 : forall ws, length ws = S N -> sel (seq 1 N ++ [0%nat]) ws = tl ws ++ [hd [] ws]).
    { intros [|c l] L; [discriminate|]. injection L as L. unfold sel. rewrite map_app. cbn [tl hd map nth]. f_equal.
      rewrite <- seq_shift, map_map. cbn [nth]. rewrite <- L. change (sel (seq 0 (length l)) l = l). apply sel_all. reflexivity. }
    assert (Tz : tables n [rows2d cond]) by (rewrite <- V0; apply Ti; lia).
    assert (Tv : tables n (map rows2d vars)) by (unfold tables in *; cbn [map] in T; inversion T; assumption).
    apply (stable_continuous _ (fun ws => let* d := (let* a := (let* hs := mapM (fun i => Hj f E (ex_args k q b) n (sel [i; 0%nat] ws)) (seq 1 N) in Ok (sumR hs)) in
       let* c := Hj f E (ex_args k q b) n (sel (seq 1 N ++ [0%nat]) ws) in Ok (a - c)) in let* z := Hj f E (ex_args k q b) n (sel [0%nat] ws) in Ok (d - z))).
    - apply stable_minus; [apply stable_minus|].
      + apply stable_sum. intros i Hi. apply in_seq in Hi. apply (stable_sel vs [i; 0%nat]). apply Hj_stable; try assumption; [apply T2; lia|].
        apply (apart_separated n k [rows2d cond]); try assumption; [apply T2; lia|]. exists [nth i vs []]. cbn [sel map app]. rewrite V0. apply perm_swap.
      + apply (stable_sel vs (seq 1 N ++ [0%nat])). rewrite (P2 vs Lv). unfold vs. cbn [map tl hd].
        assert (TA : tables n (map rows2d vars ++ [rows2d cond])) by (apply tables_app; assumption).
        apply Hj_stable; try assumption. apply (apart_separated n k [rows2d cond]); try assumption. exists (map rows2d vars). apply Permutation_app_comm.
      + apply (stable_sel vs [0%nat]). apply Hj_stable; try assumption.
    - exists 1. split; [lra|]. intros l C. pose proof (close_tables _ n _ _ C T) as T'. pose proof (close_length _ _ _ C) as LL.
      destruct l as [|c l]; [discriminate|]. cbn [tl hd]. cbn [map length] in LL. injection LL as LL. cbn [map] in T'.
      assert (Tz' : tables n [rows2d c]) by (unfold tables in *; inversion T'; apply Forall_cons; [assumption|apply Forall_nil]).
      assert (Tv' : tables n (map rows2d l)) by (unfold tables in *; inversion T'; assumption).
      rewrite (fam_cmi_plain E f _ n) by (try assumption; lia). rewrite e_check_ok by (try lia; lra). cbn [bind].
      rewrite P2 by (cbn [map length]; rewrite map_length; lia). cbn [map tl hd sel nth].
      rewrite (mapM_index (fun v => Hj f E (ex_args k q b) n [v; rows2d c]) (map rows2d l) N) by (rewrite map_length; exact LL).
      rewrite <- seq_shift, mapM_map. cbn [nth].
      destruct (mapM _ (seq 0 N)); cbn [bind]; try reflexivity. destruct (Hj f E (ex_args k q b) n (map rows2d l ++ [rows2d c])); reflexivity.
  Qed.
End C115.
