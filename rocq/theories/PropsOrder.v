(** C113: Renyi and Tsallis measures are continuous in their order at 1. *)
From Coq Require Import Reals Lra Lia List ZArith Arith Bool Permutation.
From Verif Require Import Res RSum Spec SpecTE SpecTEc SpecBase SpecGamma MBase PBase MTE PTE2 MPct MNorm PropsPct MEst PEst PEst2 MCont SpecKern PKern PKern2 PKern3 PKern4 PKern5 PTEc MKnn SpecKnn SpecKnn2 PKnn PKnn2 PropsKnn PropsKnn2 PropsKnn3 PKnn3 PropsKnn4 PropsKnn5 PKnn4 PropsKnn6 MFam PropsKnn7 SpecFam PFam PropsFam PropsFam2 PropsFam3 SpecOrder PGamma POrder.
Import ListNotations.
Local Open Scope R_scope.

(** more variables keep samples separated *)
Lemma separated_more n k vs ws : (1 <= k < n)%nat -> tables n ws -> (exists r, Permutation ws (vs ++ r)) ->
  separated n k vs -> separated n k ws.
Proof.
  intros Hk T P Hs t e Ht K. destruct (Rlt_or_le 0 e) as [|L]; [assumption|exfalso].
  destruct (radii_exist (Some 2) n vs k Hk) as (es & He). pose proof (He t Ht) as K'. set (e' := es t) in *. pose proof (Hs t e' Ht K') as Pe.
  destruct K as (_ & _ & W). destruct K' as (_ & C & _).
  assert (X : (within (Some 2%R) n ws t e <= closer (Some 2%R) n vs t e')%nat); [|lia].
  unfold within, closer. assert (Y : forall u, In u (others n t) -> (u < n)%nat).
  { intros u Hu. apply filter_In in Hu as (Hu & _). apply in_seq in Hu. lia. }
  clear W C. revert Y. generalize (others n t) as l. induction l as [|u l IH]; intros Y; [cbn; lia|]. cbn [filter].
  specialize (IH (fun u Hu => Y u (or_intror Hu))).
  pose proof (jdist_mono (Some 2) n vs ws t u ltac:(cbn; lra) T Ht (Y u (or_introl eq_refl)) P) as J.
  destruct (Rle_dec (jdist (Some 2) ws t u) e); destruct (Rlt_dec (jdist (Some 2) vs t u) e'); cbn [length]; try lia. lra.
Qed.

(** the unit in which the limit is measured, relative to the result at order 1 *)
Definition per_unit (f : family) (b : base) : R := match f with Renyi => 1 | Tsallis => unit_of b end.

Section C113.
  Context (E : nenv) (b : base) (V : valid_base b) (HG : is_gamma (gam E)) (HC : log_convex (gam E)).
  Notation G := (gam E).
  Notation "'U'" := (unit_of b).

  Lemma spec_lim f n d k es : (1 <= k < n)%nat -> (forall t, (t < n)%nat -> 0 < es t) ->
    lim1 (fun q => spec_H f G U n d k q es) (per_unit f b * spec_H f G U n d k 1 es).
  Proof.
    intros Hk Hpos. assert (NE : map es (seq 0 n) <> []) by (apply PKern3.map_ne, seq_ne; lia).
    assert (PP : forall e, In e (map es (seq 0 n)) -> 0 < e).
    { intros e Hin. apply in_map_iff in Hin as (t & <- & Ht). apply in_seq in Ht. apply Hpos. lia. }
    pose proof (unit_ne b V) as UN.
    assert (NQ : forall q, 0 < Rabs (q - 1) < 1 -> q <> 1).
    { intros q (A & _) ->. replace (1 - 1) with 0 in A by ring. rewrite Rabs_R0 in A. lra. }
    destruct f; cbn [spec_H per_unit]; unfold renyi_H, tsallis_H; (destruct (Req_EM_T 1 1); [|congruence]).
    - apply (lim1_ext (fun q => ln (lps_integral G (n - 1) d k q (map es (seq 0 n))) / (1 - q) / U)).
      + exists 1. split; [lra|]. intros q Q. apply NQ in Q. destruct (Req_EM_T q 1); [contradiction|reflexivity].
      + rewrite Rmult_1_l. apply (lim1_div U). apply renyi_lim; try assumption; lia.
    - apply (lim1_ext (fun q => (1 - lps_integral G (n - 1) d k q (map es (seq 0 n))) / (q - 1))).
      + exists 1. split; [lra|]. intros q Q. apply NQ in Q. destruct (Req_EM_T q 1); [contradiction|reflexivity].
      + replace (U * (lps_shannon (n - 1) d k (map es (seq 0 n)) / U)) with (lps_shannon (n - 1) d k (map es (seq 0 n))) by (field; exact UN).
        apply tsallis_lim; try assumption; lia.
  Qed.

  (** the entropy of a joint variable, as a function of the order *)
  Definition ent_fun f n k (vars : list (list pt)) (h : R -> R) : Prop :=
    (forall q, entropy_is (spec_H f G U) n k q vars (h q)) /\ lim1 h (per_unit f b * h 1).
  Lemma ent_exists f n k vars : (1 <= k < n)%nat -> tables n vars -> separated n k vars -> exists h, ent_fun f n k vars h.
  Proof.
    intros Hk T Hs. destruct (tables_tabs _ _ T) as (ds & Td). destruct (radii_exist (Some 2) n vars k Hk) as (es & He).
    assert (Hp : forall t, (t < n)%nat -> 0 < es t) by (intros t Ht; apply (Hs t); [exact Ht|apply He; exact Ht]).
    exists (fun q => spec_H f G U n (fold_right Nat.add 0%nat ds) k q es). split.
    - intros q. exists ds, es. split; [exact Td|]. split; [|reflexivity]. intros t Ht. split; [apply He|apply Hp]; exact Ht.
    - apply spec_lim; assumption.
  Qed.
  Lemma ents_exist {A} f n k (g : A -> list (list pt)) (xs : list A) : (1 <= k < n)%nat ->
    (forall x, In x xs -> tables n (g x) /\ separated n k (g x)) -> exists hs, Forall2 (fun x h => ent_fun f n k (g x) h) xs hs.
  Proof.
    intros Hk. induction xs as [|x xs IH]; intros H; [exists []; constructor|].
    destruct (H x (or_introl eq_refl)) as (T & Sx). destruct (ent_exists f n k (g x) Hk T Sx) as (h & Hh).
    destruct IH as (hs & F); [intros; apply H; right; assumption|]. exists (h :: hs). constructor; assumption.
  Qed.
  Lemma ents_values {A} f n k (g : A -> list (list pt)) (xs : list A) hs q : Forall2 (fun x h => ent_fun f n k (g x) h) xs hs ->
    Forall2 (fun x h => entropy_is (spec_H f G U) n k q (g x) h) xs (map (fun h => h q) hs).
  Proof. induction 1 as [|x h xs hs (X & _) F IH]; [constructor|]. cbn [map]. constructor; [apply X|exact IH]. Qed.
  Lemma ents_lim {A} f n k (g : A -> list (list pt)) (xs : list A) hs : Forall2 (fun x h => ent_fun f n k (g x) h) xs hs ->
    lim1 (fun q => sumR (map (fun h => h q) hs)) (per_unit f b * sumR (map (fun h => h 1) hs)).
  Proof.
    intros F. replace (per_unit f b * sumR (map (fun h => h 1) hs)) with (sumR (map (fun h => per_unit f b * h 1) hs)).
    2:{ unfold sumR. rewrite !sumf_map. apply sumf_scal. }
    apply lim1_sum. induction F as [|x h xs hs (_ & X) F IH]; [constructor|]. cbn [map]. constructor; assumption.
  Qed.

  (** results equal to such a function for all orders below k + 1 *)
  Lemma tends_of (r : R -> res R) (h : R -> R) k v : (1 <= k)%nat -> (forall q, 0 < q < INR k + 1 -> r q = Ok (h q)) -> lim1 h v -> tends_at_one r v.
  Proof.
    intros Hk Hr L eps He. destruct (L eps He) as (d & D & X). exists (Rmin d 1). split; [apply Rmin_pos; lra|].
    intros q (Q1 & Q2). pose proof (Rmin_l d 1). pose proof (Rmin_r d 1). exists (h q).
    split; [apply Hr; apply (near_one k Hk q); split; lra|apply X; split; lra].
  Qed.
  Definition scaled_limit f (r : R -> res R) : Prop := exists v, r 1 = Ok v /\ tends_at_one r (per_unit f b * v).
  Lemma limit_of f (r : R -> res R) (h : R -> R) k : (1 <= k)%nat -> (forall q, 0 < q < INR k + 1 -> r q = Ok (h q)) ->
    lim1 h (per_unit f b * h 1) -> scaled_limit f r.
  Proof.
    intros Hk Hr L. exists (h 1). split; [|apply (tends_of r h k); assumption]. apply Hr.
    pose proof (le_INR 1 k Hk) as X. change (INR 1) with 1 in X. lra.
  Qed.
  Lemma limit_continuous f r : f = Renyi \/ b = BE -> scaled_limit f r -> continuous_at_one r.
  Proof.
    intros Hf (v & A & B). exists v. split; [exact A|]. replace v with (per_unit f b * v); [exact B|].
    destruct Hf as [->| ->]; [cbn; ring|]. destruct f; cbn; ring.
  Qed.

  Lemma joint_limit f n vars k : (1 <= k < n)%nat -> tables n vars -> separated n k vars ->
    scaled_limit f (fun q => Hj f E (ex_args k q b) n vars).
  Proof.
    intros Hk T Hs. destruct (ent_exists f n k vars Hk T Hs) as (h & X & L). apply (limit_of f _ h k); [lia| |exact L].
    intros q Hq. apply Hj_value; auto.
  Qed.
  Lemma entropy_limit f n d a k : table n d (rows2d a) -> (1 <= k < n)%nat -> separated n k [rows2d a] ->
    scaled_limit f (fun q => fam_entropy f E (ex_args k q b) (FArr a)).
  Proof.
    intros T Hk Hs. destruct (joint_limit f n [rows2d a] k Hk) as (v & A & B); [apply Forall_cons; [exists d; exact T|apply Forall_nil]|exact Hs|].
    assert (X : forall q, fam_entropy f E (ex_args k q b) (FArr a) = Hj f E (ex_args k q b) n [rows2d a]).
    { intros q. rewrite <- H_one by apply T. apply H_rows. destruct a; reflexivity. }
    exists v. split; [rewrite X; exact A|]. intros eps He. destruct (B eps He) as (dl & D & Y). exists dl. split; [exact D|].
    intros q Q. rewrite X. apply Y. exact Q.
  Qed.
  (** ** entropies *)
  Theorem C113_entropy : forall f n d a k, f = Renyi \/ b = BE ->
    table n d (rows2d a) -> (1 <= k < n)%nat -> separated n k [rows2d a] ->
    continuous_at_one (fun q => fam_entropy f E (ex_args k q b) (FArr a)).
  Proof. intros f n d a k Hf T Hk Hs. apply (limit_continuous f); [exact Hf|]. apply (entropy_limit f n d); assumption. Qed.
  Theorem C113_joint_entropy : forall f n cols k, f = Renyi \/ b = BE ->
    cols <> [] -> tables n (map rows2d cols) -> (1 <= k < n)%nat -> separated n k (map rows2d cols) ->
    continuous_at_one (fun q => fam_entropy f E (ex_args k q b) (FTuple cols)).
  Proof.
    intros f n cols k Hf Hc T Hk Hs. destruct (limit_continuous f _ Hf (joint_limit f n (map rows2d cols) k Hk T Hs)) as (v & A & B).
    assert (X : forall q, fam_entropy f E (ex_args k q b) (FTuple cols) = Hj f E (ex_args k q b) n (map rows2d cols)).
    { intros q. apply H_rows. rewrite (make_rows_tuple n) by assumption. reflexivity. }
    exists v. split; [rewrite X; exact A|]. intros eps He. destruct (B eps He) as (dl & D & Y). exists dl. split; [exact D|].
    intros q Q. rewrite X. apply Y. exact Q.
  Qed.
  Theorem C113_cross_entropy : forall f N M d p q k, f = Renyi \/ b = BE ->
    table N d (rows2d p) -> table M d (rows2d q) -> (1 <= N)%nat -> (2 <= k <= M)%nat ->
    (forall x e, In x (rows2d p) -> kth_point (Some 2) (rows2d q) k x e -> 0 < e) ->
    continuous_at_one (fun r => fam_cross f E (ex_args k r b) p q).
  Proof.
    intros f N M d p q k Hf Tp Tq HN Hk Hs. apply (limit_continuous f); [exact Hf|].
    destruct (ref_radii_exist (Some 2) (rows2d p) (rows2d q) k) as (es & He); [rewrite (proj1 Tq); lia|].
    assert (Hp : forall t, (t < N)%nat -> 0 < es t).
    { intros t Ht. apply (Hs (nth t (rows2d p) [])); [apply nth_In; rewrite (proj1 Tp); exact Ht|]. apply He. rewrite (proj1 Tp). exact Ht. }
    assert (NE : map es (seq 0 N) <> []) by (apply PKern3.map_ne, seq_ne; lia).
    assert (PP : forall e, In e (map es (seq 0 N)) -> 0 < e).
    { intros e Hin. apply in_map_iff in Hin as (t & <- & Ht). apply in_seq in Ht. apply Hp. lia. }
    assert (K1 : 0 < 1 < INR k + 1) by (pose proof (lt_0_INR k ltac:(lia)); lra).
    pose proof (unit_ne b V) as UN.
    assert (B1 : exists v, fam_cross f E (ex_args k 1 b) p q = Ok v /\ v = lps_shannon M d k (map es (seq 0 N)) / U).
    { eexists. split; [|reflexivity]. destruct f; apply (C79_cross_value E b V HG N M d p q k 1 es Tp Tq HN Hk K1 He Hp); reflexivity. }
    destruct B1 as (v & B1 & ->). eexists. split; [exact B1|].
    assert (NQ : forall r, 0 < Rabs (r - 1) < 1 -> 0 < r < INR k + 1 /\ r <> 1) by (intros r; apply near_one; lia).
    assert (L : exists h, lim1 h (per_unit f b * (lps_shannon M d k (map es (seq 0 N)) / U)) /\
               forall r, 0 < Rabs (r - 1) < 1 -> fam_cross f E (ex_args k r b) p q = Ok (h r)).
    { destruct f; cbn [per_unit fam_cross].
      - exists (fun r => ln (lps_integral G M d k r (map es (seq 0 N))) / (1 - r) / U). split.
        + rewrite Rmult_1_l. apply (lim1_div U). apply renyi_lim; try assumption; lia.
        + intros r Hr. apply NQ in Hr as (R1 & R2). apply (C79_cross_value E b V HG N M d p q k r es Tp Tq HN Hk R1 He Hp). exact R2.
      - exists (fun r => (1 - lps_integral G M d k r (map es (seq 0 N))) / (r - 1)). split.
        + replace (U * (lps_shannon M d k (map es (seq 0 N)) / U)) with (lps_shannon M d k (map es (seq 0 N))) by (field; exact UN).
          apply tsallis_lim; try assumption; lia.
        + intros r Hr. apply NQ in Hr as (R1 & R2). apply (C79_cross_value E b V HG N M d p q k r es Tp Tq HN Hk R1 He Hp). exact R2. }
    destruct L as (h & L & X). intros eps Heps. destruct (L eps Heps) as (dl & D & Y). exists (Rmin dl 1). split; [apply Rmin_pos; lra|].
    intros r (R1 & R2). pose proof (Rmin_l dl 1). pose proof (Rmin_r dl 1). exists (h r). split; [apply X; split; lra|apply Y; split; lra].
  Qed.

  (** ** mutual information and conditional mutual information *)
  Lemma mi_limit f n vars k : (2 <= length vars)%nat -> tables n (map rows2d vars) -> (1 <= k < n)%nat ->
    (forall x, In x vars -> separated n k [rows2d x]) ->
    scaled_limit f (fun q => fam_mi f E (ex_args k q b) 0 (Some 0%Z) false vars).
  Proof.
    intros Hv T Hk Hs.
    assert (TX : forall x, In x vars -> tables n [rows2d x]).
    { intros x Hx. apply Forall_cons; [|apply Forall_nil]. apply (tables_in n (map rows2d vars)); [exact T|apply in_map; exact Hx]. }
    destruct (ents_exist f n k (fun x : farr => [rows2d x]) vars Hk) as (hs & F); [auto|].
    destruct (ent_exists f n k (map rows2d vars) Hk T) as (hj & J & LJ).
    { destruct vars as [|x vars]; [cbn in Hv; lia|]. apply (separated_more n k [rows2d x]); try assumption; [|apply Hs; left; reflexivity].
      exists (map rows2d vars). reflexivity. }
    apply (limit_of f _ (fun q => sumR (map (fun h => h q) hs) - hj q) k); [lia| |].
    - intros q Hq. apply (C80_mi_value E b V HG f n); try assumption; [|apply J]. apply (ents_values f n k (fun x : farr => [rows2d x])). exact F.
    - rewrite Rmult_minus_distr_l. apply lim1_minus; [|exact LJ]. apply (ents_lim f n k (fun x : farr => [rows2d x]) vars). exact F.
  Qed.
  Theorem C113_mi : forall f n vars k, f = Renyi \/ b = BE ->
    (2 <= length vars)%nat -> tables n (map rows2d vars) -> (1 <= k < n)%nat ->
    (forall x, In x vars -> separated n k [rows2d x]) ->
    continuous_at_one (fun q => fam_mi f E (ex_args k q b) 0 (Some 0%Z) false vars).
  Proof. intros f n vars k Hf Hv T Hk Hs. apply (limit_continuous f); [exact Hf|]. apply (mi_limit f n); assumption. Qed.
  Lemma cmi_limit f n vars cond k : (2 <= length vars)%nat -> tables n (map rows2d vars) -> tables n [rows2d cond] -> (1 <= k < n)%nat ->
    separated n k [rows2d cond] ->
    scaled_limit f (fun q => fam_cmi f E (ex_args k q b) 0 (Some 0%Z) false vars cond).
  Proof.
    intros Hv T Tz Hk Hs.
    assert (TX : forall x, In x vars -> tables n [rows2d x; rows2d cond]).
    { intros x Hx. apply (tables_pair n (map rows2d vars)); [exact T|apply in_map; exact Hx|exact Tz]. }
    assert (TJ : tables n (map rows2d vars ++ [rows2d cond])) by (apply tables_app; assumption).
    destruct (ents_exist f n k (fun x : farr => [rows2d x; rows2d cond]) vars Hk) as (hs & F).
    { intros x Hx. split; [apply TX; exact Hx|]. apply (separated_more n k [rows2d cond]); auto. exists [rows2d x]. apply perm_swap. }
    destruct (ent_exists f n k (map rows2d vars ++ [rows2d cond]) Hk TJ) as (hj & J & LJ).
    { apply (separated_more n k [rows2d cond]); auto. exists (map rows2d vars). apply Permutation_app_comm. }
    destruct (ent_exists f n k [rows2d cond] Hk Tz Hs) as (hz & Z & LZ).
    apply (limit_of f _ (fun q => sumR (map (fun h => h q) hs) - hj q - hz q) k); [lia| |].
    - intros q Hq. apply (C80_cmi_value E b V HG f n); try assumption; [|apply J|apply Z].
      apply (ents_values f n k (fun x : farr => [rows2d x; rows2d cond])). exact F.
    - rewrite !Rmult_minus_distr_l. apply lim1_minus; [apply lim1_minus|exact LZ]; [|exact LJ]. apply (ents_lim f n k (fun x : farr => [rows2d x; rows2d cond]) vars). exact F.
  Qed.
  Theorem C113_cmi : forall f n vars cond k, f = Renyi \/ b = BE ->
    (2 <= length vars)%nat -> tables n (map rows2d vars) -> tables n [rows2d cond] -> (1 <= k < n)%nat ->
    separated n k [rows2d cond] ->
    continuous_at_one (fun q => fam_cmi f E (ex_args k q b) 0 (Some 0%Z) false vars cond).
  Proof. intros f n vars cond k Hf Hv T Tz Hk Hs. apply (limit_continuous f); [exact Hf|]. apply (cmi_limit f n); assumption. Qed.
  (** at orders near 1 a Tsallis result is in nats, while the result at order 1 is in the unit of the base *)
  Theorem C113_tsallis_units : forall n vars cond k,
    (2 <= length vars)%nat -> tables n (map rows2d vars) -> tables n [rows2d cond] -> (1 <= k < n)%nat ->
    (forall x, In x vars -> separated n k [rows2d x]) -> separated n k [rows2d cond] ->
    exists h m c, tsallis_entropy E (ex_args k 1 b) (FArr cond) = Ok h /\
      tends_at_one (fun q => tsallis_entropy E (ex_args k q b) (FArr cond)) (U * h) /\
      fam_mi Tsallis E (ex_args k 1 b) 0 (Some 0%Z) false vars = Ok m /\
      tends_at_one (fun q => fam_mi Tsallis E (ex_args k q b) 0 (Some 0%Z) false vars) (U * m) /\
      fam_cmi Tsallis E (ex_args k 1 b) 0 (Some 0%Z) false vars cond = Ok c /\
      tends_at_one (fun q => fam_cmi Tsallis E (ex_args k q b) 0 (Some 0%Z) false vars cond) (U * c).
  Proof.
    intros n vars cond k Hv T Tz Hk Hx Hz. destruct (Forall_inv Tz) as (dz & Tc).
    destruct (entropy_limit Tsallis n dz cond k Tc Hk Hz) as (h & H1 & H2).
    destruct (mi_limit Tsallis n vars k Hv T Hk Hx) as (m & M1 & M2).
    destruct (cmi_limit Tsallis n vars cond k Hv T Tz Hk Hz) as (c & C1 & C2).
    exists h, m, c. cbn [per_unit fam_entropy] in *. auto 10.
  Qed.
  (** so with any other base and a non-zero result at order 1 a Tsallis entropy jumps at order 1 *)
  Theorem C113_tsallis_base_refuted : forall n d a k v, table n d (rows2d a) -> (1 <= k < n)%nat -> separated n k [rows2d a] ->
    U <> 1 -> tsallis_entropy E (ex_args k 1 b) (FArr a) = Ok v -> v <> 0 ->
    ~ continuous_at_one (fun q => tsallis_entropy E (ex_args k q b) (FArr a)).
  Proof.
    intros n d a k v T Hk Hs HU Hv Nz (w & W1 & W2). destruct (entropy_limit Tsallis n d a k T Hk Hs) as (w' & W1' & W3).
    cbn [fam_entropy per_unit] in W1', W3. rewrite Hv in W1, W1'. injection W1 as <-. injection W1' as <-.
    assert (P : 0 < Rabs (U * v - v) / 2).
    { assert (X : U * v - v <> 0) by (replace (U * v - v) with ((U - 1) * v) by ring; apply Rmult_integral_contrapositive_currified; lra).
      pose proof (Rabs_pos_lt _ X). lra. }
    destruct (W2 _ P) as (d1 & D1 & X1). destruct (W3 _ P) as (d2 & D2 & X2).
    pose proof (Rmin_pos d1 d2 D1 D2) as Pm. pose proof (Rmin_l d1 d2). pose proof (Rmin_r d1 d2).
    set (q := 1 + Rmin d1 d2 / 2). assert (Q : Rabs (q - 1) = Rmin d1 d2 / 2) by (unfold q; rewrite Rabs_pos_eq; lra).
    destruct (X1 q ltac:(rewrite Q; split; lra)) as (y & Y1 & Y2). destruct (X2 q ltac:(rewrite Q; split; lra)) as (z & Z1 & Z2).
    rewrite Y1 in Z1. injection Z1 as <-. pose proof (Rabs_triang (U * v - y) (y - v)) as Tr.
    replace (U * v - y + (y - v)) with (U * v - v) in Tr by ring. rewrite (Rabs_minus_sym (U * v) y) in Tr. lra.
  Qed.

  (** ** transfer entropy *)
  Lemma continuous_ext r r' : (forall q, 0 < q -> r q = r' q) -> continuous_at_one r' -> continuous_at_one r.
  Proof.
    intros X (v & A & B). exists v. split; [rewrite X by lra; exact A|]. intros eps He. destruct (B eps He) as (d & D & Y).
    exists (Rmin d 1). split; [apply Rmin_pos; lra|]. intros q (Q1 & Q2). pose proof (Rmin_l d 1). pose proof (Rmin_r d 1).
    rewrite X; [apply Y; split; lra|]. assert (Q3 : Rabs (q - 1) < 1) by lra. apply Rabs_def2 in Q3. lra.
  Qed.
  Theorem C113_te : forall f n ds dd source dest l k c s rnd kn, f = Renyi \/ b = BE ->
    table n ds (rows2d source) -> table n dd (rows2d dest) ->
    (1 <= l)%nat -> (1 <= k)%nat -> (1 <= s)%nat ->
    let d := (Nat.max k l * s)%nat in
    let m' := nrows n d s in
    let ts := base_times n d s in
    (d < n)%nat -> (1 <= kn < m')%nat -> rnd_ok rnd m' ->
    separated m' kn [past_pts (rows2d dest) s k ts] ->
    continuous_at_one (fun q => fam_te f E (ex_args kn q b) 0 source dest (te_kw l k c s) rnd).
  Proof.
    intros f n ds dd source dest l k c s rnd kn Hf Ts Td Hl Hk Hs d m' ts Hd Hkn Hr Sz.
    assert (HT : forall t, In t ts -> (d <= t < n)%nat).
    { intros t Ht. unfold ts in Ht. rewrite base_times_In in Ht by exact Hs. tauto. }
    assert (LT : length ts = m') by apply base_times_length.
    set (X := rnd_rows rnd (past_pts (rows2d source) s l ts)). set (Z := past_pts (rows2d dest) s k ts) in *. set (Y := present_pts (rows2d dest) ts).
    assert (TX : table m' (l * ds) X).
    { apply rnd_table; [exact Hr|]. rewrite <- LT. apply (past_table n); auto. intros t Ht. specialize (HT t Ht). unfold d in *. nia. }
    assert (TZ : table m' (k * dd) Z).
    { rewrite <- LT. apply (past_table n); auto. intros t Ht. specialize (HT t Ht). unfold d in *. nia. }
    assert (TY : table m' dd Y).
    { rewrite <- LT. apply (present_table n); auto. intros t Ht. specialize (HT t Ht). lia. }
    apply (continuous_ext _ (fun q => fam_cmi f E (ex_args kn q b) 0 (Some 0%Z) false [F2 X; F2 Y] (F2 Z))).
    - intros q Hq. apply (C81_te_is_conditional_mi E b V f n ds dd); assumption.
    - apply (C113_cmi f m'); try assumption; [cbn; lia| |].
      + cbn [map rows2d]. unfold tables. apply Forall_cons; [eexists; exact TX|]. apply Forall_cons; [eexists; exact TY|apply Forall_nil].
      + cbn [rows2d]. apply Forall_cons; [eexists; exact TZ|apply Forall_nil].
  Qed.
  Theorem C113_cte : forall f n ds dd dc source dest cond l k c s kn, f = Renyi \/ b = BE ->
    table n ds (rows2d source) -> table n dd (rows2d dest) -> table n dc (rows2d cond) ->
    (1 <= l)%nat -> (1 <= k)%nat -> (1 <= c)%nat -> (1 <= s)%nat ->
    let d := (Nat.max (Nat.max k l) c * s)%nat in
    let m' := nrows n d s in
    let ts := base_times n d s in
    (d < n)%nat -> (1 <= kn < m')%nat ->
    separated m' kn [joined m' [past_pts (rows2d dest) s k ts; past_pts (rows2d cond) s c ts]] ->
    continuous_at_one (fun q => fam_cte f E (ex_args kn q b) 0 source dest cond (te_kw l k c s)).
  Proof.
    intros f n ds dd dc source dest cond l k c s kn Hf Ts Td Tc Hl Hk Hc Hs d m' ts Hd Hkn Sz.
    assert (HT : forall t, In t ts -> (d <= t < n)%nat).
    { intros t Ht. unfold ts in Ht. rewrite base_times_In in Ht by exact Hs. tauto. }
    assert (LT : length ts = m') by apply base_times_length.
    set (X := past_pts (rows2d source) s l ts). set (Z := past_pts (rows2d dest) s k ts) in *. set (C := past_pts (rows2d cond) s c ts) in *.
    set (Y := present_pts (rows2d dest) ts).
    assert (TX : table m' (l * ds) X).
    { rewrite <- LT. apply (past_table n); auto. intros t Ht. specialize (HT t Ht). unfold d in *. nia. }
    assert (TZ : table m' (k * dd) Z).
    { rewrite <- LT. apply (past_table n); auto. intros t Ht. specialize (HT t Ht). unfold d in *. nia. }
    assert (TC : table m' (c * dc) C).
    { rewrite <- LT. apply (past_table n); auto. intros t Ht. specialize (HT t Ht). unfold d in *. nia. }
    assert (TY : table m' dd Y).
    { rewrite <- LT. apply (present_table n); auto. intros t Ht. specialize (HT t Ht). lia. }
    apply (continuous_ext _ (fun q => fam_cmi f E (ex_args kn q b) 0 (Some 0%Z) false [F2 X; F2 Y] (F2 (joined m' [Z; C])))).
    - intros q Hq. apply (C81_cte_is_conditional_mi E b V f n ds dd dc); assumption.
    - apply (C113_cmi f m'); try assumption; [cbn; lia| |].
      + cbn [map rows2d]. unfold tables. apply Forall_cons; [eexists; exact TX|]. apply Forall_cons; [eexists; exact TY|apply Forall_nil].
      + cbn [rows2d]. apply Forall_cons; [|apply Forall_nil]. eexists. apply (joined_table m' [k * dd; c * dc]%nat [Z; C]).
        repeat (apply Forall2_cons; [assumption|]). apply Forall2_nil.
  Qed.

  (** ** coinciding samples: the Renyi entropy of three values, two of them equal, diverges as the order tends to 1 *)
  Theorem C113_coinciding_refuted :
    (exists v, renyi_entropy E (ex_args 1 1 b) (FArr (F1 [0; 0; 1])) = Ok v) /\
    forall M, exists del, 0 < del /\ forall q, 0 < Rabs (q - 1) < del ->
      exists w, renyi_entropy E (ex_args 1 q b) (FArr (F1 [0; 0; 1])) = Ok w /\ M < Rabs w.
  Proof.
    split; [destruct (C79_scaling_refuted E b V HG) as (v & X & _); exists v; exact X|].
    assert (T : table 3 1 (rows2d (F1 [0; 0; 1]))) by (cbn; repeat constructor).
    assert (N2 : norm_ok (Some 2)) by (cbn; lra). pose proof (c75_radii (Some 2) N2 1 ltac:(lra)) as He.
    assert (G1 : G 1 = 1) by apply HG.
    assert (X : forall q, 0 < q < 2 -> q <> 1 -> renyi_entropy E (ex_args 1 q b) (FArr (F1 [0; 0; 1]))
                = Ok ((- ln (G (1 + (1 - q))) + (1 - q) * ln 4 - ln 3) / (1 - q) / U)).
    { intros q Hq Hq1. pose proof (G_pos G HG (1 + 1 - q) ltac:(lra)) as PG.
      unfold renyi_entropy, expfam. rewrite (rows1 3 1 _ T). cbn [bind]. rewrite e_check_ok by (try lia; lra). cbn [bind fst snd].
      rewrite (components_ok G 3 [1%nat] [rows2d (F1 [0; 0; 1])] 1 _ HG (tabs1 _ _ _ T) ltac:(lia) He). cbn [bind]. rewrite finite_ok. cbn [bind ex_args e_base].
      rewrite td1, ball1. unfold renyi_of. destruct (Req_EM_T q 1); [contradiction|]. unfold exp_iq.
      change (IZR (Z.of_nat 1)) with 1. destruct (Req_EM_T q (1 + 1)); [lra|]. rewrite G1.
      rewrite np_div_ok by lra. cbn [bind]. assert (PR : 0 < 1 / G (1 + 1 - q)) by (apply Rdiv_lt_0_compat; lra).
      rewrite np_pow_pos by exact PR. cbn [bind seq map Nat.eqb Nat.sub pow filter].
      assert (PC : 0 < Rpower (1 / G (1 + 1 - q)) (1 / (1 - q))) by apply exp_pos.
      replace (INR 2) with 2 by (cbn; ring). rewrite Rmult_1_r.
      rewrite np_pow_pos by (repeat apply Rmult_lt_0_compat; try exact PC; lra). cbn [bind].
      destruct (Rlt_dec 0 0); [lra|]. destruct (Rlt_dec 0 1); [|lra]. cbn [mapM]. rewrite np_pow_pos by lra. cbn [bind length].
      rewrite np_div_ok by (cbn; lra). cbn [bind].
      replace (2 * Rpower (1 / G (1 + 1 - q)) (1 / (1 - q)) * 2) with (Rpower (1 / G (1 + 1 - q)) (1 / (1 - q)) * 4) by ring.
      rewrite Rpower_mult_distr' by (try exact PC; lra).
      rewrite Rpower_mult. replace (1 / (1 - q) * (1 - q)) with 1 by (field; lra). rewrite Rpower_1 by exact PR.
      set (iq := 1 / G (1 + 1 - q) * Rpower 4 (1 - q) * sumR [Rpower (1 * 1) (1 - q)] / INR 3).
      assert (IE : iq = exp (- ln (G (1 + (1 - q))) + (1 - q) * ln 4 - ln 3)).
      { unfold iq, sumR. cbn [sumf]. rewrite Rmult_1_r. unfold Rpower at 2. rewrite ln_1, Rmult_0_r, exp_0, Rplus_0_r, Rmult_1_r.
        replace (1 + (1 - q)) with (1 + 1 - q) by ring. replace (- ln (G (1 + 1 - q)) + (1 - q) * ln 4 - ln 3) with (- ln (G (1 + 1 - q)) + (1 - q) * ln 4 + - ln 3) by ring.
        rewrite !exp_plus, !exp_Ropp, !exp_ln by (try exact PG; lra).
        replace (INR 3) with 3 by (cbn; ring). unfold Rpower. field. lra. }
      assert (IP : 0 < iq) by (rewrite IE; apply exp_pos).
      destruct (Req_EM_T iq 0); [lra|]. rewrite log_base_ok by assumption. cbn [bind]. rewrite np_div_ok by lra. f_equal.
      rewrite IE, ln_exp. field. pose proof (unit_ne b V). split; lra. }
    intros M. pose proof (unit_ne b V) as UN. pose proof (Rabs_pos_lt _ UN) as PU.
    destruct (lnG_deriv G HG HC 1 ltac:(lia) 1 ltac:(lra)) as (d1 & D1).
    set (K := Rabs (psi 1) + 1 + ln 4). assert (L3 : 0 < ln 3) by (rewrite <- ln_1; apply ln_increasing; lra).
    assert (L4 : 0 < ln 4) by (rewrite <- ln_1; apply ln_increasing; lra).
    assert (PK : 0 < K) by (unfold K; pose proof (Rabs_pos (psi 1)); lra).
    assert (PM : 0 < Rabs M * Rabs U + 1 + K) by (pose proof (Rabs_pos M); nra).
    exists (Rmin (Rmin d1 1) (ln 3 / (Rabs M * Rabs U + 1 + K))).
    split; [repeat apply Rmin_pos; [apply cond_pos|lra|apply Rdiv_lt_0_compat; assumption]|].
    intros q (Q1 & Q2). pose proof (Rmin_l (Rmin d1 1) (ln 3 / (Rabs M * Rabs U + 1 + K))) as R1.
    pose proof (Rmin_r (Rmin d1 1) (ln 3 / (Rabs M * Rabs U + 1 + K))) as R2.
    pose proof (Rmin_l d1 1) as R3. pose proof (Rmin_r d1 1) as R4.
    assert (N1 : q <> 1) by (intros ->; replace (1 - 1) with 0 in Q1 by ring; rewrite Rabs_R0 in Q1; lra).
    assert (Q3 : Rabs (q - 1) < 1) by lra. apply Rabs_def2 in Q3.
    eexists. split; [apply X; [lra|exact N1]|].
    set (t := 1 - q) in *. assert (Nt : t <> 0) by (unfold t; lra). assert (Et : Rabs (q - 1) = Rabs t) by (unfold t; apply Rabs_minus_sym).
    rewrite Et in *. pose proof (D1 t Nt ltac:(lra)) as D. rewrite Rplus_0_l, Rplus_0_r in D. change (INR 1) with 1 in D. rewrite G1, ln_1, Rminus_0_r in D.
    (* ln G(1+t) is small *)
    assert (A : Rabs (ln (G (1 + t)) / t) <= Rabs (psi 1) + 1).
    { pose proof (Rabs_triang (ln (G (1 + t)) / t - psi 1) (psi 1)) as Tr. replace (ln (G (1 + t)) / t - psi 1 + psi 1) with (ln (G (1 + t)) / t) in Tr by ring. lra. }
    replace ((- ln (G (1 + t)) + t * ln 4 - ln 3) / t) with (- (ln 3 / t - (ln 4 - ln (G (1 + t)) / t))) by (field; exact Nt).
    unfold Rdiv at 1. rewrite Rabs_mult, Rabs_Ropp, Rabs_inv by exact UN.
    apply Rle_lt_trans with (Rabs M); [apply Rle_abs|]. apply Rmult_lt_reg_r with (Rabs U); [exact PU|].
    rewrite Rmult_assoc, Rinv_l, Rmult_1_r by lra.
    assert (B : ln 3 / Rabs t > Rabs M * Rabs U + 1 + K).
    { apply Rmult_gt_reg_l with (Rabs t); [lra|]. replace (Rabs t * (ln 3 / Rabs t)) with (ln 3) by (field; lra).
      assert (Z : Rabs t < ln 3 / (Rabs M * Rabs U + 1 + K)) by lra.
      apply (Rmult_lt_compat_r (Rabs M * Rabs U + 1 + K)) in Z; [|exact PM].
      replace (ln 3 / (Rabs M * Rabs U + 1 + K) * (Rabs M * Rabs U + 1 + K)) with (ln 3) in Z by (field; lra). lra. }
    pose proof (Rabs_triang_inv (ln 3 / t) (ln 4 - ln (G (1 + t)) / t)) as Tr.
    assert (E3 : Rabs (ln 3 / t) = ln 3 / Rabs t) by (unfold Rdiv; rewrite Rabs_mult, Rabs_inv, (Rabs_pos_eq (ln 3)) by (try exact Nt; lra); reflexivity).
    rewrite E3 in Tr. pose proof (Rabs_triang (ln 4) (- (ln (G (1 + t)) / t))) as T4. rewrite Rabs_Ropp, (Rabs_pos_eq (ln 4)) in T4 by lra.
    unfold Rminus at 1 in Tr. fold (ln 4 - ln (G (1 + t)) / t) in T4. unfold K in B. lra.
  Qed.
End C113.

(** the hypotheses are met: no two samples coincide *)
Lemma distinct_separated n k v : all_distinct n v -> separated n k [v].
Proof.
  intros D t e Ht ((u & Hu & Nu & ->) & _). rewrite jdist_1. apply D; auto.
Qed.
Lemma distinct_1d (l : list R) : NoDup l -> all_distinct (length l) (rows2d (F1 l)).
Proof.
  intros N t u Ht Hu Htu. cbn [rows2d].
  assert (Y : forall t, (t < length l)%nat -> nth t (map (fun x => [x]) l) [] = [nth t l 0]).
  { intros z Hz. rewrite (nth_indep _ [] ((fun x => [x]) 0)) by (rewrite map_length; exact Hz). rewrite (map_nth (fun x => [x])). reflexivity. }
  rewrite !Y by assumption. rewrite dst1 by (cbn; lra).
  apply Rabs_pos_lt. intros Z. apply Htu. apply (proj1 (NoDup_nth l 0) N); try assumption. lra.
Qed.
Example C113_example :
  let xs := [0; 1; 3; 7] in let zs := [5; 2; 9; 1] in
  tables 4 (map rows2d [F1 xs; F1 zs]) /\ (1 <= 2 < 4)%nat /\
  (forall x, In x [F1 xs; F1 zs] -> separated 4 2 [rows2d x]) /\
  (forall x e, In x (rows2d (F1 xs)) -> kth_point (Some 2) (rows2d (F1 zs)) 3 x e -> 0 < e).
Proof.
  cbn zeta. split; [repeat constructor; exists 1%nat; cbn; repeat constructor|]. split; [lia|].
  assert (N1 : NoDup [0; 1; 3; 7]) by (repeat constructor; cbn; intuition lra).
  assert (N2 : NoDup [5; 2; 9; 1]) by (repeat constructor; cbn; intuition lra).
  split.
  - intros x [<-|[<-|[]]]; apply distinct_separated; [apply (distinct_1d _ N1)|apply (distinct_1d _ N2)].
  - intros x e Hx ((y & Hy & ->) & _ & W). cbn in Hx.
    destruct (Rlt_or_le 0 (dst (Some 2) x y)) as [|L]; [assumption|exfalso].
    assert (Z : forall z, In z (rows2d (F1 [5; 2; 9; 1])) -> z <> [1] -> (if Rle_dec (dst (Some 2) x z) (dst (Some 2) x y) then true else false) = true -> False).
    { intros z Hz Nz Q. destruct (Rle_dec (dst (Some 2) x z) (dst (Some 2) x y)) as [Q'|]; [|discriminate]. cbn in Hz.
      assert (B : 0 < dst (Some 2) x z); [|lra].
      destruct Hx as [<-|[<-|[<-|[<-|[]]]]]; destruct Hz as [<-|[<-|[<-|[<-|[]]]]]; rewrite dst1 by (cbn; lra); try (apply Rabs_pos_lt; lra); congruence. }
    cbn [rows2d map filter] in W.
    assert (D : forall c d : R, c <> d -> [c] <> [d]) by (intros c d N Q; injection Q; exact N).
    destruct (if Rle_dec (dst (Some 2) x [5]) _ then true else false) eqn:E5; [apply (Z [5]); [cbn; auto|apply D; lra|exact E5]|].
    destruct (if Rle_dec (dst (Some 2) x [2]) _ then true else false) eqn:E2; [apply (Z [2]); [cbn; auto|apply D; lra|exact E2]|].
    destruct (if Rle_dec (dst (Some 2) x [9]) _ then true else false) eqn:E9; [apply (Z [9]); [cbn; auto|apply D; lra|exact E9]|].
    destruct (if Rle_dec (dst (Some 2) x [1]) _ then true else false); cbn in W; lia.
Qed.

(** the gamma function assumed of the environment exists, and these assumptions leave no choice on the positive reals *)
From Verif Require Import PGamma2.
Example C113_gamma_exists : exists G, is_gamma G /\ log_convex G /\ (forall x, -1 < x < 0 -> G (x + 1) = x * G x) /\
  forall G', is_gamma G' -> log_convex G' -> forall x, 0 < x -> G' x = G x.
Proof.
  exists gamma. split; [exact gamma_is_gamma|]. split; [exact gamma_log_convex|]. split; [exact gamma_negative|]. exact gamma_unique.
Qed.
(** a Tsallis entropy in bits that jumps *)
Example C113_tsallis_jump : exists E b n a k v, valid_base b /\ is_gamma (gam E) /\ log_convex (gam E) /\ unit_of b <> 1 /\
  table n 1 (rows2d a) /\ (1 <= k < n)%nat /\ separated n k [rows2d a] /\
  tsallis_entropy E (ex_args k 1 b) (FArr a) = Ok v /\ v <> 0.
Proof.
  exists (mkNenv gamma (fun _ => 0)), (BNum 2), 2%nat, (F1 [0; 1]), 1%nat.
  assert (T : table 2 1 (rows2d (F1 [0; 1]))) by (cbn; repeat constructor).
  assert (N1 : NoDup [0; 1]) by (repeat constructor; cbn; intuition lra).
  pose proof (distinct_1d _ N1) as D. cbn [length] in D. pose proof (distinct_separated 2 1 _ D) as Hs.
  assert (VB : valid_base (BNum 2)) by (cbn; lra).
  assert (L2 : 0 < ln 2) by (rewrite <- ln_1; apply ln_increasing; lra).
  destruct (radii_exist (Some 2) 2 [rows2d (F1 [0; 1])] 1 ltac:(lia)) as (es & He).
  assert (X : forall t, (t < 2)%nat -> es t = 1).
  { intros t Ht. destruct (He t Ht) as ((u & Hu & Nu & ->) & _). rewrite jdist_1. cbn [rows2d map].
    destruct t as [|[|t]]; destruct u as [|[|u]]; try lia; cbn [nth]; rewrite dst1 by (cbn; lra); [rewrite Rabs_left|rewrite Rabs_right]; lra. }
  destruct (C78_order_one (mkNenv gamma (fun _ => 0)) (BNum 2) VB gamma_is_gamma 2 1 (F1 [0; 1]) 1 es) as (H & _ & R1 & _ & R2); auto; [intros t Ht; rewrite X by exact Ht; lra|].
  eexists. split; [exact VB|]. split; [exact gamma_is_gamma|]. split; [exact gamma_log_convex|].
  split; [cbn; pose proof (ln_lt_sub1 2); cbn in *; lra|]. split; [exact T|]. split; [lia|]. split; [exact Hs|]. split; [rewrite R2; exact R1|].
  unfold lps_shannon. cbn [seq map]. rewrite !X by lia. unfold mean, sumR. cbn [map sumf length Nat.sub]. rewrite ball1. change (INR 1) with 1.
  rewrite psi_1. pose proof (gamma_ge 0) as G0. cbn in G0. rewrite ln_1 in G0. unfold harm in G0. cbn in G0.
  replace (1 * (2 * 1)) with 2 by ring. intros Z. cbn [unit_of] in Z. replace (INR 2) with 2 in Z by (cbn; ring).
  assert (Q : (ln 2 - - euler_gamma + (ln 2 - - euler_gamma + 0)) / 2 / ln 2 * (2 * ln 2) = 2 * ln 2 + 2 * euler_gamma) by (field; lra).
  rewrite Z in Q. lra.
Qed.
Example C113_te_example :
  let dest := rows2d (F1 [0; 1; 3; 7]) in let d := (Nat.max 1 1 * 1)%nat in let m' := nrows 4 d 1 in let ts := base_times 4 d 1 in
  table 4 1 dest /\ (d < 4)%nat /\ (1 <= 2 < m')%nat /\ separated m' 2 [past_pts dest 1 1 ts] /\
  separated m' 2 [joined m' [past_pts dest 1 1 ts; past_pts dest 1 1 ts]].
Proof.
  cbn zeta. split; [cbn; repeat constructor|]. split; [cbn; lia|]. split; [cbn; lia|].
  assert (N1 : NoDup [0; 1; 3]) by (repeat constructor; cbn; intuition lra).
  pose proof (distinct_1d _ N1) as D. cbn [length] in D.
  assert (Hs : separated 3 2 [past_pts (rows2d (F1 [0; 1; 3; 7])) 1 1 (base_times 4 1 1)]) by (apply distinct_separated; exact D).
  split; [exact Hs|]. apply distinct_separated. change (nrows 4 (Nat.max 1 1 * 1) 1) with 3%nat.
  intros t u Ht Hu Htu. unfold joined. rewrite !nth_seq_map by assumption.
  apply (joint_distinct 3 [past_pts (rows2d (F1 [0; 1; 3; 7])) 1 1 (base_times 4 1 1); past_pts (rows2d (F1 [0; 1; 3; 7])) 1 1 (base_times 4 1 1)] (rows2d (F1 [0; 1; 3]))); auto.
  - repeat constructor; exists 1%nat; cbn; repeat constructor.
  - left. reflexivity.
Qed.
