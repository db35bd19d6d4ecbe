(** Textbook facts about the specification, on plain lists. *)
From Coq Require Import Reals Lra Lia List Permutation Arith Bool.
From Verif Require Import RSum Spec Info.
Import ListNotations.
Local Open Scope R_scope.

(** ** More facts on random variables *)
Section RV2.
Context {S : Type} (l : list S).
Notation n := (INR (length l)).

Lemma sum_inv_cnt {A} `{EqDec A} (X : S -> A) :
  sumf (fun s => / cnt l X (X s)) l = INR (length (distinct (map X l))).
Proof.
  rewrite <- (group l X (distinct (map X l)) (fun v => / cnt l X v)).
  - rewrite (sumf_ext _ (fun _ => 1)); [rewrite sumf_const; lra|].
    intros v Hv. apply Rinv_r. unfold distinct in Hv. apply nodup_In in Hv.
    intros E. exact (cnt_zero_notin l X v E Hv).
  - apply NoDup_nodup.
  - intros s Hs. apply nodup_In. apply in_map. exact Hs.
Qed.

Lemma hs_le_lnK {A} `{EqDec A} (X : S -> A) :
  l <> [] -> hs l X <= ln (INR (length (distinct (map X l)))).
Proof.
  intros NE.
  assert (Hn : 0 < n) by (apply INR_pos; destruct l; simpl; [congruence|lia]).
  set (K := INR (length (distinct (map X l)))).
  assert (HK : 0 < K).
  { unfold K. rewrite <- sum_inv_cnt. apply sumf_pos; [exact NE|].
    intros s Hs. apply Rinv_0_lt_compat. apply cnt_self_pos. exact Hs. }
  assert (E : hs l X - ln K = sumf (fun s => ln (n / (cnt l X (X s) * K))) l / n).
  { unfold hs. rewrite (sumf_ext (fun s => ln (n / (cnt l X (X s) * K)))
      (fun s => - ln (cnt l X (X s) / n) - ln K)).
    - rewrite sumf_minus, sumf_opp, sumf_const. field. lra.
    - intros s Hs. pose proof (cnt_self_pos l X s Hs).
      rewrite !ln_div by (try apply Rmult_lt_0_compat; assumption).
      rewrite ln_mult by assumption. lra. }
  assert (sumf (fun s => ln (n / (cnt l X (X s) * K))) l <= 0).
  { apply Rle_trans with (sumf (fun s => n / K * / cnt l X (X s) - 1) l).
    - apply sumf_le. intros s Hs. pose proof (cnt_self_pos l X s Hs).
      assert (0 < n / (cnt l X (X s) * K)).
      { apply Rdiv_lt_0_compat; [exact Hn|apply Rmult_lt_0_compat; assumption]. }
      pose proof (ln_le_sub1 _ H1).
      replace (n / K * / cnt l X (X s)) with (n / (cnt l X (X s) * K)) by (field; lra). exact H2.
    - rewrite sumf_minus, sumf_scal, sum_inv_cnt, sumf_const. fold K.
      replace (n / K * K) with n by (field; lra). lra. }
  assert (sumf (fun s => ln (n / (cnt l X (X s) * K))) l / n <= 0).
  { apply Rmult_le_reg_r with n; [exact Hn|]. unfold Rdiv.
    rewrite Rmult_assoc, Rinv_l by lra. lra. }
  lra.
Qed.

Lemma hs_zero_const {A} `{EqDec A} (X : S -> A) :
  hs l X = 0 -> forall s t, In s l -> In t l -> X s = X t.
Proof.
  intros E s t Hs Ht.
  assert (Hn : 0 < n) by (apply (n_pos l s); exact Hs).
  assert (E0 : sumf (fun s => - ln (cnt l X (X s) / n)) l = 0).
  { rewrite sumf_opp. unfold hs in E.
    assert (sumf (fun s => ln (cnt l X (X s) / n)) l / n = 0) by lra.
    apply Rmult_integral in H0. destruct H0 as [->|C]; [lra|].
    apply Rinv_neq_0_compat in C; [contradiction|lra]. }
  assert (Hpt : - ln (cnt l X (X t) / n) = 0).
  { apply (sumf_zero_all (fun s => - ln (cnt l X (X s) / n)) l); auto.
    intros u Hu. pose proof (cnt_self_pos l X u Hu). pose proof (cnt_le_n l X (X u)).
    assert (cnt l X (X u) / n <= 1).
    { apply Rmult_le_reg_r with n; [exact Hn|]. unfold Rdiv. rewrite Rmult_assoc, Rinv_l; lra. }
    assert (0 < cnt l X (X u) / n) by (apply Rdiv_lt_0_compat; assumption).
    pose proof (ln_nonpos (cnt l X (X u) / n) (conj H3 H2)). lra. }
  assert (cnt l X (X t) = n).
  { pose proof (cnt_self_pos l X t Ht).
    assert (0 < cnt l X (X t) / n) by (apply Rdiv_lt_0_compat; assumption).
    assert (cnt l X (X t) / n = 1).
    { destruct (Req_dec (cnt l X (X t) / n) 1); [assumption|].
      exfalso. apply (ln_neq0 _ H1 H2). lra. }
    apply (Rmult_eq_reg_r (/ n)); [|apply Rinv_neq_0_compat; lra].
    unfold Rdiv in H2. rewrite H2. symmetry. apply Rinv_r. lra. }
  assert (Hall : sumf (fun u => 1 - ind (eqb (X u) (X t))) l = 0).
  { rewrite sumf_minus, sumf_const. fold (cnt l X (X t)). lra. }
  assert (1 - ind (eqb (X s) (X t)) = 0).
  { apply (sumf_zero_all (fun u => 1 - ind (eqb (X u) (X t))) l); auto.
    intros u _. pose proof (ind_bounds (eqb (X u) (X t))). lra. }
  destruct (eqb (X s) (X t)) eqn:Eb; [apply eqb_eq; exact Eb|]. unfold ind in H1. lra.
Qed.

Lemma hs_zero_iff {A} `{EqDec A} (X : S -> A) : l <> [] ->
  (hs l X = 0 <-> forall s t, In s l -> In t l -> X s = X t).
Proof.
  intros NE. split; [apply hs_zero_const|].
  intros Hc. destruct l as [|s0 l'] eqn:El; [congruence|]. rewrite <- El in *.
  apply (hs_const l X (X s0)); [exact NE|]. intros s Hs. apply Hc; [exact Hs|].
  rewrite El. left. reflexivity.
Qed.

Lemma hs_pair_const {A B} `{EqDec A} `{EqDec B} (X : S -> A) (Y : S -> B) :
  (forall s t, In s l -> In t l -> Y s = Y t) -> hs l (pair X Y) = hs l X.
Proof.
  intros Hc. apply hs_partition. intros s t Hs Ht. unfold pair. rewrite pair_equal_spec.
  split; [tauto|]. intros E. split; [exact E|]. apply Hc; assumption.
Qed.

End RV2.

(** ** Lists as random variables on indices *)
Lemma list_as_map {A} (d : A) (xs : list A) (n : nat) :
  length xs = n -> xs = map (fun i => nth i xs d) (seq 0 n).
Proof.
  intros <-. induction xs as [|x xs' IH]; [reflexivity|].
  cbn [length seq map nth]. f_equal. rewrite <- seq_shift, map_map. exact IH.
Qed.

Lemma combine_map {A B S} (f : S -> A) (g : S -> B) (l : list S) :
  combine (map f l) (map g l) = map (fun s => (f s, g s)) l.
Proof. induction l as [|s ls IH]; simpl; [reflexivity|rewrite IH; reflexivity]. Qed.

(** entropy of a list in sample form *)
Lemma Ent_sample {A} `{EqDec A} (xs : list A) : xs <> [] ->
  Ent xs = - (sumf (fun x => ln (prob xs x)) xs / INR (length xs)).
Proof.
  intros NE. transitivity (Ent (map (fun x => x) xs)); [rewrite map_id; reflexivity|].
  rewrite hs_eq_Ent by exact NE.
  unfold hs. do 2 f_equal. apply sumf_ext. intros x _.
  rewrite cnt_count, map_id. reflexivity.
Qed.

Lemma Ent_map {A S} `{EqDec A} (l : list S) (X : S -> A) : l <> [] -> Ent (map X l) = hs l X.
Proof. apply hs_eq_Ent. Qed.

Lemma Ent_nil {A} `{EqDec A} : Ent (@nil A) = 0.
Proof. unfold Ent. simpl. lra. Qed.

(** "same partition" on lists *)
Definition same_partition {A B} (xs : list A) (ys : list B) : Prop :=
  length xs = length ys /\
  forall i j dx dy, (i < length xs)%nat -> (j < length xs)%nat ->
    (nth i xs dx = nth j xs dx <-> nth i ys dy = nth j ys dy).

Lemma Ent_partition {A B} `{EqDec A} `{EqDec B} (xs : list A) (ys : list B) :
  same_partition xs ys -> Ent xs = Ent ys.
Proof.
  intros [Hl Hp]. destruct xs as [|x xs'] eqn:Ex.
  { destruct ys; [|discriminate]. rewrite !Ent_nil. reflexivity. }
  rewrite <- Ex in *. destruct ys as [|y ys'] eqn:Ey; [subst xs; discriminate|]. rewrite <- Ey in *.
  rewrite (list_as_map x xs (length xs) eq_refl) at 1.
  rewrite (list_as_map y ys (length xs)) by auto.
  assert (NE : seq 0 (length xs) <> []).
  { rewrite Ex. discriminate. }
  rewrite !Ent_map by exact NE. apply hs_partition.
  intros s t Hs Ht. apply in_seq in Hs. apply in_seq in Ht. apply Hp; lia.
Qed.

Lemma Ent_map_inj {A B} `{EqDec A} `{EqDec B} (f : A -> B) (xs : list A) :
  (forall x y, In x xs -> In y xs -> f x = f y -> x = y) -> Ent (map f xs) = Ent xs.
Proof.
  intros Hinj. destruct xs as [|x0 xs'] eqn:Ex; [rewrite !Ent_nil; reflexivity|]. rewrite <- Ex in *.
  assert (NE : xs <> []) by (rewrite Ex; discriminate).
  rewrite Ent_map by exact NE.
  rewrite <- (map_id xs) at 2. rewrite Ent_map by exact NE.
  apply hs_partition. intros s t Hs Ht. split; [intros E; apply Hinj; auto|intros ->; reflexivity].
Qed.

Lemma count_perm {A} `{EqDec A} (xs ys : list A) v : Permutation xs ys -> count xs v = count ys v.
Proof. intros P. unfold count. apply Permutation_count_occ. exact P. Qed.

Lemma prob_perm {A} `{EqDec A} (xs ys : list A) v : Permutation xs ys -> prob xs v = prob ys v.
Proof. intros P. unfold prob. rewrite (count_perm xs ys) by exact P. rewrite (Permutation_length P). reflexivity. Qed.

Lemma Ent_perm {A} `{EqDec A} (xs ys : list A) : Permutation xs ys -> Ent xs = Ent ys.
Proof.
  intros P. destruct xs as [|x xs'] eqn:Ex.
  { apply Permutation_nil in P. subst. reflexivity. }
  rewrite <- Ex in *.
  rewrite !Ent_sample; [|intros E; subst; apply Permutation_sym, Permutation_nil in P; discriminate|rewrite Ex; discriminate].
  rewrite (Permutation_length P). do 2 f_equal.
  rewrite (sumf_perm _ _ _ P). apply sumf_ext. intros v _. rewrite (prob_perm _ _ _ P). reflexivity.
Qed.

Lemma Ent_nonneg {A} `{EqDec A} (xs : list A) : 0 <= Ent xs.
Proof.
  destruct xs as [|x xs'] eqn:Ex; [rewrite Ent_nil; lra|].
  rewrite <- (map_id (x :: xs')). rewrite Ent_map by discriminate. apply hs_nonneg.
Qed.

Lemma Ent_le_lnK {A} `{EqDec A} (xs : list A) :
  xs <> [] -> Ent xs <= ln (INR (length (distinct xs))).
Proof.
  intros NE. rewrite <- (map_id xs) at 1. rewrite Ent_map by exact NE.
  rewrite <- (map_id xs) at 2. apply (hs_le_lnK xs (fun x => x)). exact NE.
Qed.

Lemma Ent_zero_iff {A} `{EqDec A} (xs : list A) : xs <> [] ->
  (Ent xs = 0 <-> forall x y, In x xs -> In y xs -> x = y).
Proof.
  intros NE. rewrite <- (map_id xs) at 1. rewrite Ent_map by exact NE.
  apply (hs_zero_iff xs (fun x => x)). exact NE.
Qed.

Lemma distinct_length_le {A} `{EqDec A} (xs : list A) : (length (distinct xs) <= length xs)%nat.
Proof.
  apply NoDup_incl_length; [apply NoDup_nodup|]. intros x Hx. apply nodup_In in Hx. exact Hx.
Qed.

Lemma distinct_length_pos {A} `{EqDec A} (xs : list A) : xs <> [] -> (0 < length (distinct xs))%nat.
Proof.
  intros NE. destruct xs as [|x xs']; [congruence|].
  assert (In x (distinct (x :: xs'))) by (apply nodup_In; left; reflexivity).
  destruct (distinct (x :: xs')); [destruct H0|simpl; lia].
Qed.

(** ** MI and CMI on lists *)
Section Pairs.
Context {A B C : Type} `{EqDec A} `{EqDec B} `{EqDec C}.
Variables (xs : list A) (ys : list B) (zs : list C) (n : nat).
Hypothesis Hn : (0 < n)%nat.
Hypothesis Hx : length xs = n.
Hypothesis Hy : length ys = n.
Hypothesis Hz : length zs = n.
Variables (dx : A) (dy : B) (dz : C).

Local Definition ix := seq 0 n.
Local Definition Xf (i : nat) := nth i xs dx.
Local Definition Yf (i : nat) := nth i ys dy.
Local Definition Zf (i : nat) := nth i zs dz.

Lemma ix_ne : ix <> [].
Proof using Hn. clear -Hn. unfold ix. destruct n; [lia|discriminate]. Qed.

Lemma MI_as_cmi : MI xs ys = cmi ix Xf Yf (fun _ => tt).
Proof.
  rewrite cmi_entropies.
  rewrite (hs_const ix (fun _ : nat => tt) tt ix_ne) by reflexivity.
  rewrite !(hs_pair_const ix) by reflexivity.
  rewrite <- !(Ent_map ix) by apply ix_ne.
  unfold pair. rewrite <- combine_map. unfold ix, Xf, Yf.
  rewrite <- (list_as_map dx xs n Hx), <- (list_as_map dy ys n Hy). unfold MI. ring.
Qed.

Lemma CMI_as_cmi : CMI xs ys zs = cmi ix Xf Yf Zf.
Proof.
  rewrite cmi_entropies. rewrite <- !(Ent_map ix) by apply ix_ne.
  unfold pair. rewrite <- !combine_map. unfold ix, Xf, Yf, Zf.
  rewrite <- (list_as_map dx xs n Hx), <- (list_as_map dy ys n Hy), <- (list_as_map dz zs n Hz).
  reflexivity.
Qed.
End Pairs.

Section PairFacts.
Context {A B C : Type} `{EqDec A} `{EqDec B} `{EqDec C}.

Lemma MI_nonneg (xs : list A) (ys : list B) : length xs = length ys -> 0 <= MI xs ys.
Proof.
  intros E. destruct xs as [|x xs'] eqn:Ex.
  { destruct ys; [|discriminate]. unfold MI. cbn [combine]. rewrite !Ent_nil. lra. }
  destruct ys as [|y ys'] eqn:Ey; [discriminate|]. rewrite <- Ex, <- Ey in *.
  rewrite (MI_as_cmi xs ys (length xs)) with (dx := x) (dy := y); auto; [apply cmi_nonneg|].
  rewrite Ex. simpl. lia.
Qed.

Lemma MI_sym (xs : list A) (ys : list B) : length xs = length ys -> MI xs ys = MI ys xs.
Proof.
  intros E. destruct xs as [|x xs'] eqn:Ex.
  { destruct ys; [|discriminate]. unfold MI. cbn [combine]. rewrite !Ent_nil. lra. }
  destruct ys as [|y ys'] eqn:Ey; [discriminate|]. rewrite <- Ex, <- Ey in *.
  assert (0 < length xs)%nat by (rewrite Ex; simpl; lia).
  rewrite (MI_as_cmi xs ys (length xs)) with (dx := x) (dy := y); auto.
  rewrite (MI_as_cmi ys xs (length xs)) with (dx := y) (dy := x); auto.
  apply cmi_sym.
Qed.

Lemma MI_le_l (xs : list A) (ys : list B) : length xs = length ys -> MI xs ys <= Ent xs.
Proof.
  intros E. destruct xs as [|x xs'] eqn:Ex.
  { destruct ys; [|discriminate]. unfold MI. cbn [combine]. rewrite !Ent_nil. lra. }
  destruct ys as [|y ys'] eqn:Ey; [discriminate|]. rewrite <- Ex, <- Ey in *.
  unfold MI. enough (Ent ys <= Ent (combine xs ys)) by lra.
  assert (NE : seq 0 (length xs) <> []) by (rewrite Ex; discriminate).
  rewrite (list_as_map x xs (length xs) eq_refl), (list_as_map y ys (length xs)) by auto.
  rewrite combine_map, !Ent_map by exact NE.
  apply hs_refine. intros s t _ _ Ep. injection Ep. auto.
Qed.

Lemma CMI_nonneg (xs : list A) (ys : list B) (zs : list C) :
  length xs = length ys -> length xs = length zs -> 0 <= CMI xs ys zs.
Proof.
  intros E1 E2. destruct xs as [|x xs'] eqn:Ex.
  { destruct ys; [|discriminate]. destruct zs; [|discriminate].
    unfold CMI. cbn [combine]. rewrite !Ent_nil. lra. }
  destruct ys as [|y ys'] eqn:Ey; [discriminate|].
  destruct zs as [|z zs'] eqn:Ez; [discriminate|]. rewrite <- Ex, <- Ey, <- Ez in *.
  rewrite (CMI_as_cmi xs ys zs (length xs)) with (dx := x) (dy := y) (dz := z); auto; [apply cmi_nonneg|].
  rewrite Ex. simpl. lia.
Qed.

Lemma CMI_sym (xs : list A) (ys : list B) (zs : list C) :
  length xs = length ys -> length xs = length zs -> CMI xs ys zs = CMI ys xs zs.
Proof.
  intros E1 E2. destruct xs as [|x xs'] eqn:Ex.
  { destruct ys; [|discriminate]. destruct zs; [|discriminate].
    unfold CMI. cbn [combine]. rewrite !Ent_nil. lra. }
  destruct ys as [|y ys'] eqn:Ey; [discriminate|].
  destruct zs as [|z zs'] eqn:Ez; [discriminate|]. rewrite <- Ex, <- Ey, <- Ez in *.
  assert (0 < length xs)%nat by (rewrite Ex; simpl; lia).
  rewrite (CMI_as_cmi xs ys zs (length xs)) with (dx := x) (dy := y) (dz := z); auto.
  rewrite (CMI_as_cmi ys xs zs (length xs)) with (dx := y) (dy := x) (dz := z); auto.
  apply cmi_sym.
Qed.
End PairFacts.

Lemma MI_self {A} `{EqDec A} (xs : list A) : MI xs xs = Ent xs.
Proof.
  unfold MI. enough (Ent (combine xs xs) = Ent xs) by lra.
  assert (E : combine xs xs = map (fun x => (x, x)) xs).
  { induction xs as [|x xs' IH]; simpl; [reflexivity|rewrite IH; reflexivity]. }
  rewrite E. apply Ent_map_inj. intros x y _ _ Ep. injection Ep. auto.
Qed.

(** ** Any number of columns *)
Section Cols.
Context {A : Type} `{EqDec A}.
Variables (d : A) (n : nat).
Hypothesis Hn : (0 < n)%nat.

Definition colf (c : list A) (t : nat) : A := nth t c d.
Definition rowf (cols : list (list A)) (t : nat) : list A := map (fun c => nth t c d) cols.

Lemma rows_of_eq cols : rows_of d n cols = map (rowf cols) (seq 0 n).
Proof. reflexivity. Qed.

Lemma seqn_ne : seq 0 n <> [].
Proof. destruct n; [lia|discriminate]. Qed.

Lemma Ent_rows cols : Ent (rows_of d n cols) = hs (seq 0 n) (rowf cols).
Proof. rewrite rows_of_eq. apply Ent_map. apply seqn_ne. Qed.

Lemma Ent_col c : length c = n -> Ent c = hs (seq 0 n) (colf c).
Proof. intros Hc. rewrite (list_as_map d c n Hc) at 1. apply Ent_map. apply seqn_ne. Qed.

Lemma rowf_cons_partition c cols s t :
  rowf (c :: cols) t = rowf (c :: cols) s <->
  pair (colf c) (rowf cols) t = pair (colf c) (rowf cols) s.
Proof.
  unfold rowf, pair, colf. simpl. split; intros E; injection E; intros; congruence.
Qed.

Lemma TotalCorr_nonneg cols :
  Forall (fun c => length c = n) cols -> 0 <= TotalCorr d n cols.
Proof.
  intros HF. unfold TotalCorr. rewrite Ent_rows.
  induction HF as [|c cols Hc HF IH]; cbn [sumf].
  - rewrite (hs_const (seq 0 n) (rowf []) [] seqn_ne) by reflexivity. lra.
  - rewrite (Ent_col c Hc).
    pose proof (cmi_nonneg (seq 0 n) (colf c) (rowf cols) (fun _ => tt)) as Hnn.
    rewrite cmi_entropies in Hnn.
    rewrite (hs_const (seq 0 n) (fun _ : nat => tt) tt seqn_ne) in Hnn by reflexivity.
    rewrite !(hs_pair_const (seq 0 n)) in Hnn by reflexivity.
    rewrite (hs_partition (seq 0 n) (rowf (c :: cols)) (pair (colf c) (rowf cols)))
      by (intros; apply rowf_cons_partition). lra.
Qed.

(** joint entropy dominates each marginal *)
Lemma Ent_rows_ge_col cols c :
  In c cols -> length c = n -> Ent c <= Ent (rows_of d n cols).
Proof.
  intros Hin Hc. rewrite Ent_rows, (Ent_col c Hc). apply hs_refine.
  intros s t _ _ E. unfold rowf in E. unfold colf.
  apply (f_equal (fun r => r)) in E.
  assert (G : forall cs, In c cs -> map (fun c => nth t c d) cs = map (fun c => nth s c d) cs ->
     nth t c d = nth s c d).
  { induction cs as [|c0 cs IH]; intros Hi Em; [destruct Hi|].
    simpl in Em. injection Em as E0 E1. destruct Hi as [->|Hi]; auto. }
  exact (G cols Hin E).
Qed.

End Cols.
