(** Proofs: combining entropies of any lawful estimator. *)
From Coq Require Import Reals Lra Lia List ZArith Arith Bool Permutation Sorted.
From Verif Require Import Res RSum Spec SpecTE Info Info2 Ord MBase MData MEntropy MMI MTE MGeneric SpecBase PBase PEntropy PCoo PMI PMI2 PMI3 PCMI PMI4 PCMI2 PMI5 PMI6 PTE PTE2.
Import ListNotations.
Local Open Scope R_scope.

(** on the (non-empty) sample [xs] the estimator has global value [g], and its local values, if it
    offers any, are one per sample point and average to [g] *)
Definition lawful_on (e : est) (b : base) (xs : list Z) (g : R) : Prop :=
  e_global e b (dd_of xs) = Ok g /\
  ((exists ls, e_local e b (dd_of xs) = Ok ls /\ length ls = length xs /\ mean ls = g) \/
   e_local e b (dd_of xs) = Raise UnsupportedOperation \/
   e_local e b (dd_of xs) = Raise TheoreticalInconsistencyError).

Lemma mapM_fail {A B} (f : A -> res B) (l : list A) :
  (forall x, In x l -> (exists y, f x = Ok y) \/ f x = Raise UnsupportedOperation \/ f x = Raise TheoreticalInconsistencyError) ->
  (exists ys, mapM f l = Ok ys) \/ mapM f l = Raise UnsupportedOperation \/ mapM f l = Raise TheoreticalInconsistencyError.
Proof.
  induction l as [|x l IH]; intros H; [left; exists []; reflexivity|]. simpl.
  destruct (H x (or_introl eq_refl)) as [(y & ->)|[-> | ->]]; simpl; try tauto.
  destruct IH as [(ys & ->)|[-> | ->]]; simpl; try tauto; [intros; apply H; right; assumption|].
  left. eexists. reflexivity.
Qed.

Lemma sumf_mean (ls : list (list R)) n : (0 < n)%nat -> (forall l, In l ls -> length l = n) ->
  sumf (fun t => sumf (fun l => nth t l 0) ls) (seq 0 n) / INR n = sumf mean ls.
Proof.
  intros Hn H. induction ls as [|l ls IH]; simpl.
  - rewrite sumf_zero. unfold Rdiv. ring.
  - rewrite sumf_plus. rewrite <- IH by (intros; apply H; right; assumption).
    unfold mean. rewrite (H l (or_introl eq_refl)). unfold Rdiv. rewrite Rmult_plus_distr_r. f_equal. f_equal.
    unfold sumR. rewrite <- (sumf_map (fun t => nth t l 0) (fun x => x) (seq 0 n)).
    rewrite <- (list_as_map 0 l n (H l (or_introl eq_refl))). reflexivity.
Qed.

Lemma from_entropies_ok e b plus minus n (G : einput -> R) : plus <> [] -> (0 < n)%nat ->
  (forall i, In i (plus ++ minus) -> exists xs, make_data i = Ok (dd_of xs) /\ length xs = n /\ lawful_on e b xs (G i)) ->
  exists v, from_entropies e b plus minus = Ok v /\ value_global v = sumf G plus - sumf G minus /\
    match v with VArr ls => length ls = n | VNum _ => True end.
Proof.
  intros Hne Hn H. unfold from_entropies.
  assert (D : forall l, (forall i, In i l -> In i (plus ++ minus)) ->
     exists ds, mapM make_data l = Ok ds /\ mapM (e_global e b) ds = Ok (map G l) /\
       Forall2 (fun i d => exists xs, d = dd_of xs /\ length xs = n /\ lawful_on e b xs (G i)) l ds).
  { induction l as [|i l IH]; intros Hl; [exists []; repeat split; constructor|].
    destruct IH as (ds & E1 & E2 & E3); [intros; apply Hl; right; assumption|].
    destruct (H i (Hl i (or_introl eq_refl))) as (xs & Ei & Lx & [Eg Ll]).
    exists (dd_of xs :: ds). split; [|split].
    - simpl. rewrite Ei. cbn [bind]. rewrite E1. reflexivity.
    - cbn [mapM map]. rewrite Eg. cbn [bind]. rewrite E2. reflexivity.
    - constructor; [|exact E3]. exists xs. repeat split; assumption. }
  destruct (D plus) as (dp & P1 & P2 & P3); [intros; apply in_or_app; tauto|].
  destruct (D minus) as (dm & M1 & M2 & M3); [intros; apply in_or_app; tauto|].
  rewrite P1. cbn [bind]. rewrite M1. cbn [bind].
  assert (L : forall l ds, Forall2 (fun i d => exists xs, d = dd_of xs /\ length xs = n /\ lawful_on e b xs (G i)) l ds ->
     (exists ls, mapM (e_local e b) ds = Ok ls /\ (forall x, In x ls -> length x = n) /\ sumf mean ls = sumf G l /\ length ls = length l)
     \/ mapM (e_local e b) ds = Raise UnsupportedOperation \/ mapM (e_local e b) ds = Raise TheoreticalInconsistencyError).
  { intros l ds F. induction F as [|i d l ds (xs & -> & Lx & [_ Hl]) F IH].
    - left. exists []. repeat split; simpl; tauto.
    - simpl. destruct Hl as [(ls & -> & Ll & Ml)|[-> | ->]]; simpl; try tauto.
      destruct IH as [(lss & -> & A1 & A2 & A3)|[-> | ->]]; simpl; try tauto.
      left. exists (ls :: lss). split; [reflexivity|]. split; [|split].
      + intros x [<-|Hx]; [congruence|auto].
      + simpl. congruence.
      + simpl. congruence. }
  assert (GV : exists v, (let* gp := mapM (e_global e b) dp in
      let* gm := mapM (e_global e b) dm in Ok (VNum (sumR gp - sumR gm))) = Ok v /\
      value_global v = sumf G plus - sumf G minus /\ match v with VArr ls => length ls = n | VNum _ => True end).
  { rewrite P2. cbn [bind]. rewrite M2. cbn [bind]. eexists. split; [reflexivity|]. split; [|exact Logic.I].
    simpl. unfold sumR. rewrite !sumf_map. reflexivity. }
  destruct (L plus dp P3) as [(lp & -> & Lp1 & Lp2 & Lp3)|[-> | ->]]; cbn [bind]; try exact GV.
  destruct (L minus dm M3) as [(lm & -> & Lm1 & Lm2 & Lm3)|[-> | ->]]; cbn [bind]; try exact GV.
  unfold vcomb.
  assert (Hhd : length (hd [] lp) = n).
  { destruct lp as [|x lp]; [destruct plus; [congruence|discriminate]|]. apply Lp1. left. reflexivity. }
  rewrite Hhd.
  replace (forallb (fun l => Nat.eqb (length l) n) (lp ++ lm)) with true.
  - eexists. split; [reflexivity|]. split; [|rewrite map_length, seq_length; reflexivity].
    simpl. unfold mean. rewrite map_length, seq_length. unfold sumR. rewrite sumf_map, sumf_minus.
    unfold Rdiv. rewrite Rmult_minus_distr_r. fold (sumf (fun t => sumf (fun l => nth t l 0) lp) (seq 0 n) / INR n).
    fold (sumf (fun t => sumf (fun l => nth t l 0) lm) (seq 0 n) / INR n).
    rewrite !sumf_mean by assumption. congruence.
  - symmetry. apply forallb_forall. intros x Hx. apply Nat.eqb_eq. apply in_app_or in Hx. destruct Hx; auto.
Qed.

(** an estimator that is lawful on every non-empty sample *)
Definition lawful (e : est) (b : base) : Prop := forall xs, xs <> [] -> exists g, lawful_on e b xs g.

Lemma discrete_simple_dd b xs : valid_base b -> xs <> [] ->
  discrete_simple b (dd_of xs) = Ok (Ent xs / unit_of b).
Proof. intros. apply discrete_simple_ok; assumption. Qed.

Lemma discrete_lawful_on b xs : valid_base b -> xs <> [] -> lawful_on est_discrete b xs (Ent xs / unit_of b).
Proof.
  intros Hb Hne. unfold lawful_on, e_global, e_local. cbn [e_calc e_extract est_discrete].
  rewrite discrete_simple_dd by assumption. split; [reflexivity|]. left.
  unfold rmap. cbn [bind].
  pose proof (local_1d b xs Hb Hne) as E. unfold local_discrete in E. cbn [make_data] in E.
  rewrite from_data_dd in E by exact Hne. cbn [bind] in E. rewrite E.
  eexists. split; [reflexivity|]. split; [apply map_length|].
  pose proof (mean_local xs (unit_of b) 0 Hne) as M. rewrite Rplus_0_r in M. rewrite <- M.
  f_equal. apply map_ext. intros x. ring.
Qed.

Lemma mm_lawful_on b xs : valid_base b -> xs <> [] -> lawful_on est_mm b xs ((Ent xs + mmc xs) / unit_of b).
Proof.
  intros Hb Hne. unfold lawful_on, e_global, e_local. cbn [e_calc e_extract est_mm].
  rewrite mm_simple_ok by assumption. split; [reflexivity|]. left.
  unfold rmap. cbn [bind].
  pose proof (mm_local_1d b xs Hb Hne) as E. unfold local_mm in E. cbn [make_data] in E.
  rewrite from_data_dd in E by exact Hne. cbn [bind] in E. rewrite E.
  eexists. split; [reflexivity|]. split; [apply map_length|].
  rewrite mean_local by exact Hne. unfold mmc, Rdiv. ring.
Qed.

(** data of a tuple of arrays, 1-D or 2-D, as rows *)
Lemma column_stack_gen n (cols : list arr) : cols <> [] -> Forall (fun a => arr_len a = n) cols ->
  column_stack cols = Ok (map (fun t => concat (map (fun c => nth t (arr_rows c) []) cols)) (seq 0 n)).
Proof.
  intros NE F. unfold column_stack. destruct cols as [|a r]; [congruence|].
  assert (La : arr_len a = n) by (inversion F; assumption). rewrite La.
  replace (forallb (fun c => Nat.eqb (arr_len c) n) (a :: r)) with true; [reflexivity|].
  symmetry. apply forallb_forall. intros c Hc. rewrite Forall_forall in F. apply Nat.eqb_eq. auto.
Qed.

Definition joint_rows (n : nat) (cols : list arr) : list (list Z) :=
  map (fun t => concat (map (fun c => nth t (arr_rows c) []) cols)) (seq 0 n).

Lemma make_data_tuple_gen n cols : cols <> [] -> Forall (fun a => arr_len a = n) cols -> (0 < n)%nat ->
  make_data (ETuple cols) = Ok (dd_of (reduce_rows (joint_rows n cols))).
Proof.
  intros NE F Hn. cbn [make_data].
  assert (E : existsb (fun c => negb (Nat.eqb (arr_len c)
     match cols with [] => 0%nat | a :: _ => arr_len a end)) cols = false).
  { destruct cols as [|a r]; [congruence|]. assert (La : arr_len a = n) by (inversion F; assumption). rewrite La.
    rewrite Forall_forall in F.
    destruct (existsb (fun c => negb (Nat.eqb (arr_len c) n)) (a :: r)) eqn:X; [|reflexivity].
    apply existsb_exists in X. destruct X as (c & Hc & Hx). rewrite (F c Hc), Nat.eqb_refl in Hx. discriminate. }
  rewrite E. cbn [reduce_joint_space]. rewrite (column_stack_gen n) by assumption. unfold rmap. cbn [bind].
  apply from_data_dd. rewrite reduce_rows_nil. unfold joint_rows. destruct n; [lia|discriminate].
Qed.

Lemma make_data_arr a : (0 < arr_len a)%nat ->
  exists xs, make_data (EArr a) = Ok (dd_of xs) /\ length xs = arr_len a /\ xs <> [].
Proof.
  destruct a as [xs|rs]; simpl; intros H.
  - exists xs. assert (xs <> []) by (destruct xs; [simpl in H; lia|discriminate]).
    split; [apply from_data_dd; assumption|]. split; [reflexivity|assumption].
  - exists (reduce_rows rs). assert (reduce_rows rs <> []) by (rewrite reduce_rows_nil; destruct rs; [simpl in H; lia|discriminate]).
    split; [apply from_data_dd; assumption|]. split; [apply reduce_rows_length|assumption].
Qed.

Lemma make_data_tup n cols : cols <> [] -> Forall (fun a => arr_len a = n) cols -> (0 < n)%nat ->
  exists xs, make_data (ETuple cols) = Ok (dd_of xs) /\ length xs = n /\ xs <> [].
Proof.
  intros NE F Hn. eexists. split; [apply (make_data_tuple_gen n); assumption|].
  assert (L : length (reduce_rows (joint_rows n cols)) = n)
    by (rewrite reduce_rows_length; unfold joint_rows; rewrite map_length, seq_length; reflexivity).
  split; [exact L|]. intros E. rewrite E in L. simpl in L. lia.
Qed.

(** for a lawful estimator the combination is the combination of [entropy(...)] values *)
Lemma from_entropies_lawful e b plus minus n : lawful e b -> plus <> [] -> (0 < n)%nat ->
  (forall i, In i (plus ++ minus) -> exists xs, make_data i = Ok (dd_of xs) /\ length xs = n) ->
  exists (G : einput -> R) v,
    (forall i, In i (plus ++ minus) -> entropy_of e b i = Ok (G i)) /\
    from_entropies e b plus minus = Ok v /\ value_global v = sumf G plus - sumf G minus /\
    match v with VArr ls => length ls = n | VNum _ => True end.
Proof.
  intros HL Hne Hn H.
  set (G := fun i => match entropy_of e b i with Ok g => g | _ => 0 end).
  assert (HG : forall i, In i (plus ++ minus) -> exists xs, make_data i = Ok (dd_of xs) /\ length xs = n /\ lawful_on e b xs (G i)).
  { intros i Hi. destruct (H i Hi) as (xs & E & L). exists xs. split; [exact E|]. split; [exact L|].
    assert (Hx : xs <> []) by (destruct xs; [simpl in L; lia|discriminate]).
    destruct (HL xs Hx) as (g & Hg). replace (G i) with g; [exact Hg|].
    unfold G, entropy_of. rewrite E. cbn [bind]. destruct Hg as [-> _]. reflexivity. }
  destruct (from_entropies_ok e b plus minus n G Hne Hn HG) as (v & E1 & E2 & E3).
  exists G, v. split; [|split; [exact E1|split; [exact E2|exact E3]]].
  intros i Hi. destruct (HG i Hi) as (xs & E & _ & [Eg _]). unfold entropy_of. rewrite E. exact Eg.
Qed.
