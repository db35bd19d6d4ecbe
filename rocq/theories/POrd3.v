(** Ordinal entropy. *)
From Coq Require Import Reals Lra Lia List ZArith Arith Bool Permutation Sorted.
From Verif Require Import Res RSum Spec SpecBase Info Info2 Ord MBase MData MEntropy MOrd SpecOrd PBase PEntropy PEst POrd POrd2.
Import ListNotations.
Local Open Scope R_scope.

Lemma EntVec_map {A} `{EqDec A} (xs : list A) : EntVec (map (fun v => INR (count xs v) / INR (length xs)) (distinct xs)) = Ent xs.
Proof. unfold EntVec, Ent. rewrite sumf_map. reflexivity. Qed.
Lemma plogp_dist {A} `{EqDec A} b (xs : list A) : valid_base b ->
  plogp b (map (fun v => INR (count xs v) / INR (length xs)) (distinct xs)) = Ok (Ent xs / unit_of b).
Proof.
  intros V. rewrite plogp_ok; [rewrite EntVec_map; reflexivity|exact V|].
  apply Forall_forall. intros p Hp. apply in_map_iff in Hp. destruct Hp as (v & <- & Hv).
  apply (proj1 (distinct_In xs v)) in Hv. exact (prob_pos xs v Hv).
Qed.

(** entropy as a sum over any list of values that contains the sample's *)
Lemma Ent_support {A} `{EqDec A} (xs U : list A) : NoDup U -> incl xs U ->
  Ent xs = - sumf (fun v => prob xs v * ln (prob xs v)) U.
Proof.
  intros ND I. unfold Ent. f_equal.
  rewrite (sumf_ext _ (fun v => (if in_dec eq_dec v xs then prob xs v * ln (prob xs v) else 0)) U).
  2:{ intros v _. destruct (in_dec eq_dec v xs) as [|N]; [reflexivity|]. unfold prob, count.
      rewrite (proj1 (count_occ_not_In eq_dec xs v) N). simpl. unfold Rdiv. ring. }
  rewrite (sumf_ext _ (fun v => ind (if in_dec eq_dec v xs then true else false) * (prob xs v * ln (prob xs v))) U)
    by (intros v _; destruct (in_dec eq_dec v xs); unfold ind; ring).
  rewrite <- sumf_filter. apply sumf_perm. apply NoDup_Permutation; [apply NoDup_nodup|apply NoDup_filter, ND|].
  intros v. rewrite (distinct_In xs v), filter_In. destruct (in_dec eq_dec v xs) as [Hv|Hv]; [|split; [contradiction|intros [_ Q]; discriminate]].
  split; [intros _; split; [apply I, Hv|reflexivity]|intros _; exact Hv].
Qed.

Section OE.
Context {T : Type} `{Cmp T}.
Local Notation ltb := (@ltb T _).

(** sorting with later positions first among equal values *)
Definition argsort_rev (w : list T) : list nat :=
  map (fun i => (length w - 1 - i)%nat) (argsort_stable (rev w)).

Lemma argsort_rev_sorts w : sorts w (argsort_rev w).
Proof.
  destruct (argsort_stable_ok (rev w)) as [[P S] _]. rewrite rev_length in *. unfold argsort_rev. split.
  - eapply Permutation_trans; [apply Permutation_map, P|]. apply NoDup_Permutation.
    + apply (NoDup_nth _ 0%nat). rewrite map_length, seq_length. intros i j Hi Hj E.
      rewrite (nth_indep _ 0%nat (length w - 1 - 0)%nat) in E by (rewrite map_length, seq_length; exact Hi).
      rewrite (nth_indep _ 0%nat (length w - 1 - 0)%nat) in E by (rewrite map_length, seq_length; exact Hj).
      rewrite !(map_nth (fun i => (length w - 1 - i)%nat)), !seq_nth in E by assumption. lia.
    + apply seq_NoDup.
    + intros i. rewrite in_map_iff, in_seq. split.
      * intros (j & <- & Hj). apply in_seq in Hj. lia.
      * intros L. exists (length w - 1 - i)%nat. split; [lia|]. apply in_seq. lia.
  - intros x0 i j L. pose proof (S x0 i j L) as Q.
    assert (G : forall m, (m < length w)%nat -> nth (nth m (map (fun i => (length w - 1 - i)%nat) (argsort_stable (rev w))) 0%nat) w x0 = nth (nth m (argsort_stable (rev w)) 0%nat) (rev w) x0).
    { intros m Hm. assert (LA : length (argsort_stable (rev w)) = length w) by (rewrite (Permutation_length P), seq_length; reflexivity).
      rewrite (nth_indep _ 0%nat (length w - 1 - 0)%nat) by (rewrite map_length, LA; exact Hm).
      rewrite (map_nth (fun i => (length w - 1 - i)%nat)). pose proof (is_perm_nth _ _ m P Hm) as B.
      rewrite rev_nth by exact B. f_equal. lia. }
    rewrite !G by lia. exact Q.
Qed.

Lemma argsort_rev_2 x y : argsort_rev [x; y] = if ltb x y then [0; 1]%nat else [1; 0]%nat.
Proof. unfold argsort_rev, argsort_stable. simpl. destruct (ltb x y); reflexivity. Qed.

Definition key3 (x y z : T) : bool * bool * bool := (ltb x y, ltb y z, ltb x z).
Definition pat3 (k : bool * bool * bool) : list nat :=
  match k with
  | (true, true, true) => [0; 1; 2] | (true, false, true) => [0; 2; 1] | (false, true, true) => [1; 0; 2]
  | (true, false, false) => [2; 0; 1] | (false, true, false) => [1; 2; 0] | _ => [2; 1; 0]
  end%nat.
Lemma key3_valid x y z : key3 x y z <> (true, true, false) /\ key3 x y z <> (false, false, true).
Proof.
  unfold key3. destruct (ltb_spec x y) as [A|A], (ltb_spec y z) as [B|B], (ltb_spec x z) as [C|C]; split; try discriminate; exfalso.
  - apply C. eapply lt_trans; eassumption.
  - destruct (not_lt_cases _ _ A) as [->|A']; [exact (B C)|]. destruct (not_lt_cases _ _ B) as [->|B']; [exact (A C)|].
    apply (lt_asym _ _ C). eapply lt_trans; eassumption.
Qed.
Lemma argsort_rev_3 x y z : argsort_rev [x; y; z] = pat3 (key3 x y z).
Proof.
  destruct (key3_valid x y z) as [V1 V2]. unfold key3 in *. unfold argsort_rev, argsort_stable. simpl.
  destruct (ltb x y) eqn:A; simpl; destruct (ltb x z) eqn:C; simpl; destruct (ltb y z) eqn:B; simpl;
    rewrite ?A, ?B, ?C; simpl; try reflexivity; try (exfalso; apply V1; reflexivity); try (exfalso; apply V2; reflexivity).
Qed.

(** neighbouring pairs and triples are the windows of dimension 2 and 3 *)
Lemma windows_2 x0 (xs : list T) : windows x0 xs 2 1 = map (fun p => [fst p; snd p]) (pairs2 xs).
Proof.
  unfold windows, nwindows. induction xs as [|x xs IH]; [reflexivity|]. destruct xs as [|y r]; [reflexivity|].
  replace (length (x :: y :: r) - (2 - 1) * 1)%nat with (S (length (y :: r) - (2 - 1) * 1))%nat by (simpl; lia).
  change (pairs2 (x :: y :: r)) with ((x, y) :: pairs2 (y :: r)).
  cbn [seq map]. rewrite <- seq_shift, map_map. f_equal. exact IH.
Qed.
Lemma windows_3 x0 (xs : list T) : windows x0 xs 3 1 = map (fun p => let '(x, y, z) := p in [x; y; z]) (triples3 xs).
Proof.
  unfold windows, nwindows. induction xs as [|x xs IH]; [reflexivity|]. destruct xs as [|y [|z r]]; [reflexivity|reflexivity|].
  replace (length (x :: y :: z :: r) - (3 - 1) * 1)%nat with (S (length (y :: z :: r) - (3 - 1) * 1))%nat by (simpl; lia).
  change (triples3 (x :: y :: z :: r)) with ((x, y, z) :: triples3 (y :: z :: r)).
  cbn [seq map]. rewrite <- seq_shift, map_map. f_equal. exact IH.
Qed.
Lemma pairs2_length (xs : list T) : length (pairs2 xs) = (length xs - 1)%nat.
Proof.
  destruct xs as [|x0 r] eqn:E; [reflexivity|]. rewrite <- E. rewrite <- (map_length (fun p => [fst p; snd p]) (pairs2 xs)), <- (windows_2 x0), windows_length. lia.
Qed.
Lemma triples3_length (xs : list T) : length (triples3 xs) = (length xs - 2)%nat.
Proof.
  destruct xs as [|x0 r] eqn:E; [reflexivity|]. rewrite <- E.
  rewrite <- (map_length (fun p => let '(x, y, z) := p in [x; y; z]) (triples3 xs)), <- (windows_3 x0), windows_length. lia.
Qed.

(** ** Dimension 2 *)
Lemma count_filter_true (gs : list bool) : count (map (fun g : bool => if g then [0; 1]%nat else [1; 0]%nat) gs) [0; 1]%nat = length (filter (fun g => g) gs).
Proof.
  unfold count. induction gs as [|g gs IH]; [reflexivity|]. cbn [map filter]. destruct g.
  - rewrite count_occ_cons_eq by reflexivity. rewrite IH. reflexivity.
  - rewrite count_occ_cons_neq by discriminate. exact IH.
Qed.
Lemma count_filter_false (gs : list bool) : (count (map (fun g : bool => if g then [0; 1]%nat else [1; 0]%nat) gs) [1; 0]%nat + length (filter (fun g => g) gs) = length gs)%nat.
Proof.
  unfold count. induction gs as [|g gs IH]; [reflexivity|]. cbn [map filter]. destruct g.
  - rewrite count_occ_cons_neq by discriminate. cbn [length]. lia.
  - rewrite count_occ_cons_eq by reflexivity. cbn [length]. lia.
Qed.

Lemma est_dim2_pats x0 (xs : list T) : snd (est_dim2 xs) = map argsort_rev (windows x0 xs 2 1).
Proof.
  transitivity (map (fun g : bool => if g then [0; 1]%nat else [1; 0]%nat) (map (fun p => ltb (fst p) (snd p)) (pairs2 xs))).
  - unfold est_dim2. destruct (Req_EM_T _ 0); [reflexivity|]. destruct (Req_EM_T _ 1); reflexivity.
  - rewrite windows_2, !map_map. apply map_ext. intros [x y]. simpl. rewrite argsort_rev_2. reflexivity.
Qed.

Lemma est_dim2_dict (xs : list T) : (2 <= length xs)%nat ->
  let ps := snd (est_dim2 xs) in
  NoDup (map fst (fst (est_dim2 xs))) /\ (forall p v, In (p, v) (fst (est_dim2 xs)) <-> In p ps /\ v = prob ps p).
Proof.
  intros L ps.
  set (gs := map (fun p => ltb (fst p) (snd p)) (pairs2 xs)).
  set (pats := map (fun g : bool => if g then [0; 1]%nat else [1; 0]%nat) gs).
  assert (EP : ps = pats) by (unfold ps, est_dim2; fold gs; fold pats; destruct (Req_EM_T _ 0); [reflexivity|]; destruct (Req_EM_T _ 1); reflexivity).
  assert (LG : length gs = (length xs - 1)%nat) by (unfold gs; rewrite map_length; apply pairs2_length).
  assert (LP : length pats = (length xs - 1)%nat) by (unfold pats; rewrite map_length; exact LG).
  assert (NP : 0 < INR (length pats)) by (apply INR_pos; rewrite LP; lia).
  assert (EN : INR (length xs) - 1 = INR (length pats)) by (rewrite LP, minus_INR by lia; reflexivity).
  pose proof (count_filter_true gs) as C1. pose proof (count_filter_false gs) as C0. fold pats in C0, C1. rewrite LG, <- LP in C0.
  assert (P1 : prob pats [0; 1]%nat = INR (length (filter (fun g => g) gs)) / (INR (length xs) - 1)) by (unfold prob; rewrite C1, EN; reflexivity).
  assert (P0 : prob pats [1; 0]%nat = 1 - INR (length (filter (fun g => g) gs)) / (INR (length xs) - 1)).
  { unfold prob. rewrite EN. apply (f_equal INR) in C0. rewrite plus_INR in C0.
    replace (INR (count pats [1; 0]%nat)) with (INR (length pats) - INR (length (filter (fun g => g) gs))) by lra. field. lra. }
  assert (INp : forall p, In p pats -> p = [0; 1]%nat \/ p = [1; 0]%nat).
  { intros p Hp. unfold pats in Hp. apply in_map_iff in Hp. destruct Hp as ([] & <- & _); auto. }
  assert (pos_in : forall p, In p pats <-> prob pats p <> 0).
  { intros p. split; [intros Hp; pose proof (prob_pos pats p Hp); lra|]. intros Q. destruct (in_dec eq_dec p pats) as [|N]; [assumption|].
    exfalso. apply Q. unfold prob, count. rewrite (proj1 (count_occ_not_In eq_dec pats p) N). simpl. unfold Rdiv. ring. }
  rewrite EP. clear EP ps. unfold est_dim2. fold gs. fold pats. rewrite <- P1 in *.
  destruct (Req_EM_T (prob pats [0; 1]%nat) 0) as [E|E]; [|destruct (Req_EM_T (prob pats [0; 1]%nat) 1) as [E'|E']]; cbn [fst map].
  - split; [repeat constructor; simpl; tauto|]. intros p v. split.
    + intros [Q|[]]. injection Q as <- <-. split; [apply pos_in; lra|lra].
    + intros [Hp ->]. destruct (INp p Hp) as [->| ->]; [apply pos_in in Hp; lra|]. left. f_equal. lra.
  - split; [repeat constructor; simpl; tauto|]. intros p v. split.
    + intros [Q|[]]. injection Q as <- <-. split; [apply pos_in; lra|lra].
    + intros [Hp ->]. destruct (INp p Hp) as [->| ->]; [|apply pos_in in Hp; lra]. left. f_equal. lra.
  - split; [repeat constructor; simpl; intuition discriminate|]. intros p v. split.
    + intros [Q|[Q|[]]]; injection Q as <- <-; (split; [apply pos_in; lra|lra]).
    + intros [Hp ->]. destruct (INp p Hp) as [->| ->]; [left; reflexivity|right; left; f_equal; lra].
Qed.

(** a dictionary of the empirical distribution of [ps] *)
Definition is_dist (dict : list (list nat * R)) (ps : list (list nat)) : Prop :=
  NoDup (map fst dict) /\ forall p v, In (p, v) dict <-> In p ps /\ v = prob ps p.

Lemma is_dist_perm dict ps : is_dist dict ps -> Permutation dict (map (fun p => (p, prob ps p)) (distinct ps)).
Proof.
  intros [ND Q]. apply NoDup_Permutation.
  - eapply NoDup_map_inv, ND.
  - apply (NoDup_map_inv fst). rewrite map_map. simpl. rewrite map_id. apply NoDup_nodup.
  - intros [p v]. rewrite Q, in_map_iff. split.
    + intros [Hp ->]. exists p. split; [reflexivity|]. apply (distinct_In ps p), Hp.
    + intros (p' & E & Hp). injection E as <- <-. split; [apply (distinct_In ps p'), Hp|reflexivity].
Qed.
Lemma is_dist_plogp b dict ps : valid_base b -> is_dist dict ps -> plogp b (map snd dict) = Ok (Ent ps / unit_of b).
Proof.
  intros V D. pose proof (is_dist_perm dict ps D) as P.
  rewrite plogp_ok; [|exact V|].
  - do 2 f_equal. unfold EntVec, Ent. f_equal. rewrite sumf_map.
    rewrite (sumf_perm _ _ _ P), sumf_map. reflexivity.
  - apply Forall_forall. intros v Hv. apply in_map_iff in Hv. destruct Hv as ([p v'] & <- & Hv). apply D in Hv. destruct Hv as [Hp ->]. apply prob_pos, Hp.
Qed.
Lemma pget_spec dict ps p : is_dist dict ps -> In p ps -> pget dict p = Ok (prob ps p).
Proof.
  intros [ND Q] Hp. assert (I : In (p, prob ps p) dict) by (apply Q; split; [exact Hp|reflexivity]). clear Q Hp.
  set (v0 := prob ps p) in *. clearbody v0.
  induction dict as [|[q v] r IH]; [destruct I|]. cbn [pget]. inversion ND as [|? ? N ND']; subst. destruct I as [E|I].
  - injection E as -> ->.
    assert (NG : forall w, pget r p <> Ok w).
    { clear -N. intros w E. apply N. clear N. revert w E. induction r as [|[q v] r IH]; [discriminate|]. cbn [pget map fst]. intros w.
      destruct (pget r p) as [u| |] eqn:G; [intros _; right; eapply IH; reflexivity| |];
        destruct (list_eq_dec Nat.eq_dec q p) as [->|]; (intros; try discriminate); left; reflexivity. }
    destruct (pget r p) as [u| |] eqn:G; [destruct (NG u eq_refl)| |]; (destruct (list_eq_dec Nat.eq_dec p p); [reflexivity|congruence]).
  - rewrite (IH ND' I). reflexivity.
Qed.

(** ** Dimension 3 *)
Definition num3 (k : bool * bool * bool) : list nat :=
  match k with
  | (true, true, true) => [0; 1; 2] | (true, false, true) => [0; 2; 1] | (false, true, true) => [1; 0; 2]
  | (true, false, false) => [1; 2; 0] | (false, true, false) => [2; 0; 1] | _ => [2; 1; 0]
  end%nat.
Definition valid3 (k : bool * bool * bool) : Prop := k <> (true, true, false) /\ k <> (false, false, true).
Lemma bool_to_num_ok k : valid3 k -> bool_to_num k = Ok (num3 k).
Proof. intros [V1 V2]. destruct k as [[[] []] []]; try reflexivity; congruence. Qed.
Lemma num3_inj k l : valid3 k -> valid3 l -> num3 k = num3 l -> k = l.
Proof. intros [V1 V2] [W1 W2]. destruct k as [[[] []] []], l as [[[] []] []]; simpl; congruence. Qed.
Lemma pat3_inj k l : valid3 k -> valid3 l -> pat3 k = pat3 l -> k = l.
Proof. intros [V1 V2] [W1 W2]. destruct k as [[[] []] []], l as [[[] []] []]; simpl; congruence. Qed.

Definition keys3 (xs : list T) := map (fun t : T * T * T => let '(x, y, z) := t in key3 x y z) (triples3 xs).
Lemma keys3_valid xs k : In k (keys3 xs) -> valid3 k.
Proof. unfold keys3. intros Hk. apply in_map_iff in Hk. destruct Hk as ([[x y] z] & <- & _). apply key3_valid. Qed.

Lemma count_map_inj {A B} `{EqDec A} `{EqDec B} (f : A -> B) (xs : list A) v :
  (forall x y, In x xs -> In y xs -> f x = f y -> x = y) -> In v xs -> count (map f xs) (f v) = count xs v.
Proof.
  intros I Hv. unfold count.
  assert (G : forall l, incl l xs -> count_occ eq_dec (map f l) (f v) = count_occ eq_dec l v).
  { induction l as [|x l IH]; intros J; [reflexivity|]. cbn [map].
    assert (IHl : count_occ eq_dec (map f l) (f v) = count_occ eq_dec l v) by (apply IH; intros y Hy; apply J; right; exact Hy).
    destruct (eq_dec x v) as [->|N].
    - rewrite !count_occ_cons_eq by reflexivity. rewrite IHl. reflexivity.
    - rewrite !count_occ_cons_neq; [exact IHl|exact N|]. intros E. apply N, I; [apply J; left; reflexivity|exact Hv|exact E]. }
  apply G. intros x Hx. exact Hx.
Qed.

Lemma est_dim3_ok (xs : list T) : (3 <= length xs)%nat -> exists dict, est_dim3 xs = Ok (dict, map num3 (keys3 xs)) /\ is_dist dict (map num3 (keys3 xs)).
Proof.
  intros L. unfold est_dim3. fold (keys3 xs).
  assert (LK : length (keys3 xs) = (length xs - 2)%nat) by (unfold keys3; rewrite map_length; apply triples3_length).
  exists (map (fun k => (num3 k, INR (count (keys3 xs) k) / (INR (length xs) - 2))) (distinct (keys3 xs))).
  change (map (fun t : T * T * T => let '(x, y, z) := t in (ltb x y, ltb y z, ltb x z)) (triples3 xs)) with (keys3 xs).
  rewrite (mapM_ok _ (fun k => (num3 k, INR (count (keys3 xs) k) / (INR (length xs) - 2)))).
  2:{ intros k Hk. apply (proj1 (distinct_In (keys3 xs) k)) in Hk. rewrite bool_to_num_ok by (eapply keys3_valid, Hk). reflexivity. }
  cbn [bind]. rewrite (mapM_ok _ num3) by (intros k Hk; apply bool_to_num_ok; eapply keys3_valid, Hk). cbn [bind].
  split; [reflexivity|].
  assert (INJ : forall x y, In x (keys3 xs) -> In y (keys3 xs) -> num3 x = num3 y -> x = y) by (intros x y Hx Hy; apply num3_inj; eapply keys3_valid; eassumption).
  assert (EN : INR (length xs) - 2 = INR (length (map num3 (keys3 xs)))) by (rewrite map_length, LK, minus_INR by lia; reflexivity).
  split.
  - rewrite map_map. cbn [fst]. assert (G : forall l, incl l (keys3 xs) -> NoDup l -> NoDup (map num3 l)).
    { induction l as [|k l IH]; intros J ND; [constructor|]. inversion ND; subst. cbn [map]. constructor.
      - intros Hk. apply in_map_iff in Hk. destruct Hk as (k' & E & Hk'). apply INJ in E; [subst; contradiction|apply J; right; exact Hk'|apply J; left; reflexivity].
      - apply IH; [intros y Hy; apply J; right; exact Hy|assumption]. }
    apply G; [intros k Hk; apply (distinct_In (keys3 xs) k), Hk|apply NoDup_nodup].
  - intros p v. rewrite in_map_iff. split.
    + intros (k & E & Hk). apply (proj1 (distinct_In (keys3 xs) k)) in Hk. injection E as <- <-. split; [apply in_map, Hk|].
      unfold prob. rewrite (count_map_inj num3) by assumption. rewrite EN. reflexivity.
    + intros [Hp ->]. apply in_map_iff in Hp. destruct Hp as (k & <- & Hk). exists k. split; [|apply (distinct_In (keys3 xs) k), Hk].
      unfold prob. rewrite (count_map_inj num3) by assumption. rewrite EN. reflexivity.
Qed.

Lemma Ent_keys3 x0 (xs : list T) : Ent (map num3 (keys3 xs)) = Ent (map argsort_rev (windows x0 xs 3 1)).
Proof.
  assert (E : map argsort_rev (windows x0 xs 3 1) = map pat3 (keys3 xs)).
  { rewrite windows_3. unfold keys3. rewrite !map_map. apply map_ext. intros [[x y] z]. apply argsort_rev_3. }
  rewrite E, !Ent_map_inj; [reflexivity| |]; intros k l Hk Hl; [apply pat3_inj|apply num3_inj]; eapply keys3_valid; eassumption.
Qed.

(** ** General dimension *)
Lemma is_dist_counter (ps : list (list nat)) : is_dist (map (fun p => (p, INR (count ps p) / INR (length ps))) (distinct ps)) ps.
Proof.
  split.
  - rewrite map_map. cbn [fst]. rewrite map_id. apply NoDup_nodup.
  - intros p v. rewrite in_map_iff. split.
    + intros (q & E & Hq). injection E as <- <-. split; [apply (distinct_In ps q), Hq|reflexivity].
    + intros [Hp ->]. exists p. split; [reflexivity|apply (distinct_In ps p), Hp].
Qed.

(** which sort the code's pattern counting amounts to *)
Definition eff_sort (k : kind T) (d s : nat) : list T -> list nat :=
  if (s =? 1)%nat && ((d =? 2)%nat || (d =? 3)%nat) then argsort_rev else argsort k.

Lemma est_probs_ok k x0 (xs : list T) d s : (2 <= d)%nat -> (1 <= s)%nat -> ((d - 1) * s < length xs)%nat ->
  exists dict ps, est_probs k xs (Z.of_nat d) (Z.of_nat s) = Ok (dict, ps) /\ is_dist dict ps /\
    length ps = (length xs - (d - 1) * s)%nat /\ Ent ps = Ent (map (eff_sort k d s) (windows x0 xs d s)).
Proof.
  intros Hd Hs L. unfold est_probs, eff_sort.
  destruct (Nat.eqb_spec s 1) as [->|Ns].
  - destruct (Nat.eqb_spec d 2) as [->|N2]; [|destruct (Nat.eqb_spec d 3) as [->|N3]].
    + cbn [orb andb Z.of_nat]. change ((2 =? 2)%Z && (1 =? 1)%Z)%bool with true. cbv iota.
      exists (fst (est_dim2 xs)), (snd (est_dim2 xs)). split; [destruct (est_dim2 xs); reflexivity|].
      split; [apply est_dim2_dict; simpl in L; lia|]. rewrite (est_dim2_pats x0). split; [rewrite map_length; apply windows_length|reflexivity].
    + change (Z.of_nat 3) with 3%Z. change (Z.of_nat 1) with 1%Z. cbn [Z.eqb Pos.eqb andb orb]. cbv iota.
      destruct (est_dim3_ok xs) as (dict & E & D); [simpl in L; lia|]. exists dict, (map num3 (keys3 xs)). split; [exact E|]. split; [exact D|].
      split; [unfold keys3; rewrite !map_length, triples3_length; lia|apply Ent_keys3].
    + destruct (Z.eqb_spec (Z.of_nat d) 2); [lia|]. destruct (Z.eqb_spec (Z.of_nat d) 3); [lia|]. cbn [andb orb].
      rewrite (symbolize_ok k x0) by lia. cbn [bind]. do 2 eexists. split; [reflexivity|].
      split; [|split; [rewrite map_length; apply windows_length|reflexivity]].
      replace (IZR (Z.of_nat (length xs) - (Z.of_nat d - 1) * Z.of_nat 1)) with (INR (length (map (argsort k) (windows x0 xs d 1)))); [apply is_dist_counter|].
      rewrite map_length, windows_length, INR_IZR_INZ. f_equal. lia.
  - destruct (Z.eqb_spec (Z.of_nat s) 1); [lia|]. rewrite !andb_false_r. cbn [andb].
    rewrite (symbolize_ok k x0) by lia. cbn [bind]. do 2 eexists. split; [reflexivity|].
    split; [|split; [rewrite map_length; apply windows_length|reflexivity]].
    replace (IZR (Z.of_nat (length xs) - (Z.of_nat d - 1) * Z.of_nat s)) with (INR (length (map (argsort k) (windows x0 xs d s)))); [apply is_dist_counter|].
    rewrite map_length, windows_length, INR_IZR_INZ. f_equal. nia.
Qed.

Lemma Ent_const {A} `{EqDec A} (xs : list A) c : (forall x, In x xs -> x = c) -> Ent xs = 0.
Proof.
  intros C. destruct xs as [|x r] eqn:E; [apply Ent_nil|]. rewrite <- E in *. apply Ent_zero_iff; [rewrite E; discriminate|].
  intros y z Hy Hz. rewrite (C y Hy), (C z Hz). reflexivity.
Qed.

Lemma ord_init_ok (xs : list T) d s : (1 <= d)%nat -> (1 <= s)%nat -> ((d - 1) * s < length xs)%nat -> ord_init xs (Z.of_nat d) (Z.of_nat s) = Ok tt.
Proof.
  intros Hd Hs L. unfold ord_init. destruct (Z.ltb_spec (Z.of_nat d) 0); [lia|]. destruct (Z.ltb_spec (Z.of_nat s) 1); [lia|].
  destruct (Z.ltb_spec (Z.of_nat (length xs)) ((Z.of_nat d - 1) * Z.of_nat s + 1)); [nia|reflexivity].
Qed.

Lemma perm_1 k (w : list T) : legal_kind k -> length w = 1%nat -> argsort k w = [0]%nat.
Proof.
  intros LK L. pose proof (argsort_perm k w LK) as P. rewrite L in P. simpl in P. apply Permutation_sym, Permutation_length_1_inv in P. exact P.
Qed.

Lemma eff_sort_1 k s (w : list T) : legal_kind k -> length w = 1%nat -> eff_sort k 1 s w = [0]%nat.
Proof. intros LK L. unfold eff_sort. simpl. rewrite andb_false_r. apply perm_1; assumption. Qed.

Lemma entropy_ordinal_ok k b x0 (xs : list T) d s : legal_kind k -> valid_base b -> (1 <= d)%nat -> (1 <= s)%nat -> ((d - 1) * s < length xs)%nat ->
  entropy_ordinal k b xs (Z.of_nat d) (Z.of_nat s) = Ok (Ent (map (eff_sort k d s) (windows x0 xs d s)) / unit_of b).
Proof.
  intros LK V Hd Hs L. unfold entropy_ordinal. rewrite ord_init_ok by assumption. cbn [bind]. unfold ord_simple.
  pose proof (unit_neq0 b V) as U.
  destruct (Z.eqb_spec (Z.of_nat d) 1) as [E1|N1].
  - assert (d = 1%nat) by lia. subst d. unfold rmap. cbn [bind fst]. f_equal.
    rewrite (Ent_const _ [0]%nat); [field; exact U|]. intros p Hp. apply in_map_iff in Hp. destruct Hp as (w & <- & Hw).
    apply eff_sort_1; [exact LK|eapply windows_In_length, Hw].
  - destruct (Z.eqb_spec ((Z.of_nat d - 1) * Z.of_nat s + 1) (Z.of_nat (length xs))) as [E2|N2].
    + unfold rmap. cbn [bind fst]. f_equal.
      assert (LW : length (windows x0 xs d s) = 1%nat) by (rewrite windows_length; nia).
      destruct (windows x0 xs d s) as [|w [|]]; try discriminate. cbn [map]. rewrite (Ent_const _ (eff_sort k d s w)); [field; exact U|].
      intros p [<-|[]]. reflexivity.
    + destruct (est_probs_ok k x0 xs d s) as (dict & ps & E & D & _ & EE); [lia|exact Hs|exact L|]. rewrite E. cbn [bind fst].
      rewrite (is_dist_plogp b dict ps V D). unfold rmap. cbn [bind fst]. rewrite EE. reflexivity.
Qed.

Lemma local_ordinal_ok k b (xs : list T) d s : legal_kind k -> valid_base b -> (2 <= d)%nat -> (1 <= s)%nat -> ((d - 1) * s < length xs)%nat ->
  exists ls, local_ordinal k b xs (Z.of_nat d) (Z.of_nat s) = Ok ls /\ length ls = (length xs - (d - 1) * s)%nat /\
    entropy_ordinal k b xs (Z.of_nat d) (Z.of_nat s) = Ok (mean ls).
Proof.
  intros LK V Hd Hs L. unfold local_ordinal, entropy_ordinal. rewrite ord_init_ok by (try lia; exact L). cbn [bind]. unfold ord_simple.
  destruct (Z.eqb_spec (Z.of_nat d) 1) as [E1|N1]; [lia|].
  destruct (Z.eqb_spec ((Z.of_nat d - 1) * Z.of_nat s + 1) (Z.of_nat (length xs))) as [E2|N2].
  - cbn [bind snd]. set (p := k_df k xs). assert (EQ : pget [(p, 1)] p = Ok 1) by (cbn [pget]; destruct (list_eq_dec Nat.eq_dec p p); [reflexivity|congruence]).
    cbn [mapM]. rewrite EQ. cbn [bind mapM]. rewrite log_base_ok by (try exact V; lra). cbn [bind map].
    eexists. split; [reflexivity|]. split; [simpl; nia|]. unfold rmap. cbn [bind fst]. f_equal. unfold mean, sumR. simpl. rewrite ln_1.
    pose proof (unit_neq0 b V). field. assumption.
  - destruct xs as [|x0 r] eqn:Ex; [simpl in L; lia|]. rewrite <- Ex in *.
    destruct (est_probs_ok k x0 xs d s) as (dict & ps & E & D & LP & _); [lia|exact Hs|exact L|]. rewrite E. cbn [bind fst].
    rewrite (is_dist_plogp b dict ps V D). cbn [bind snd].
    rewrite (mapM_ok _ (prob ps)) by (intros p Hp; apply pget_spec; assumption). cbn [bind].
    rewrite (mapM_ok _ (fun p => ln p / unit_of b)).
    2:{ intros p Hp. apply in_map_iff in Hp. destruct Hp as (q & <- & Hq). apply log_base_ok; [exact V|apply prob_pos, Hq]. }
    cbn [bind]. eexists. split; [reflexivity|]. rewrite !map_map. split; [rewrite map_length; exact LP|].
    unfold rmap. cbn [bind fst]. f_equal. unfold mean. rewrite map_length. unfold sumR. rewrite sumf_map, sumf_opp, sumf_div.
    rewrite Ent_sample by (intros Q; rewrite Q in LP; simpl in LP; nia). unfold Rdiv. ring.
Qed.

(** at most d! different patterns *)
Lemma perms_bound d (ps : list (list nat)) : (forall p, In p ps -> is_perm d p) -> (Z.of_nat (length (distinct ps)) <= zfact d)%Z.
Proof.
  intros P. pose proof (zfact_pos d) as FP.
  assert (ND : NoDup (map lehmer (distinct ps))).
  { assert (G : forall l, incl l (distinct ps) -> NoDup l -> NoDup (map lehmer l)).
    { induction l as [|p l IH]; intros J ND; [constructor|]. inversion ND; subst. cbn [map]. constructor.
      - intros Hp. apply in_map_iff in Hp. destruct Hp as (q & E & Hq). apply lehmer_inj in E; [subst; contradiction|].
        eapply Permutation_trans; [apply P, (distinct_In ps q), J; right; exact Hq|]. apply Permutation_sym, P, (distinct_In ps p), J. left. reflexivity.
      - apply IH; [intros y Hy; apply J; right; exact Hy|assumption]. }
    apply G; [intros p Hp; exact Hp|apply NoDup_nodup]. }
  assert (IC : incl (map lehmer (distinct ps)) (map Z.of_nat (seq 0 (Z.to_nat (zfact d))))).
  { intros c Hc. apply in_map_iff in Hc. destruct Hc as (p & <- & Hp). apply (proj1 (distinct_In ps p)) in Hp. pose proof (lehmer_bounds p) as B.
    rewrite (Permutation_length (P p Hp)), seq_length in B. apply in_map_iff. exists (Z.to_nat (lehmer p)). split; [lia|]. apply in_seq. lia. }
  pose proof (NoDup_incl_length ND IC) as Q. rewrite !map_length, seq_length in Q. lia.
Qed.
Lemma eff_sort_sorts k d s (w : list T) : legal_kind k -> sorts w (eff_sort k d s w).
Proof. intros LK. unfold eff_sort. destruct (_ && _)%bool; [apply argsort_rev_sorts|apply argsort_sorts, LK]. Qed.

Lemma Ent_perms_bound d (ps : list (list nat)) : ps <> [] -> (forall p, In p ps -> is_perm d p) -> Ent ps <= ln (IZR (zfact d)).
Proof.
  intros NE P. eapply Rle_trans; [apply Ent_le_lnK; exact NE|]. apply ln_monotone.
  - apply INR_pos, distinct_length_pos, NE.
  - rewrite INR_IZR_INZ. apply IZR_le, perms_bound, P.
Qed.
End OE.
