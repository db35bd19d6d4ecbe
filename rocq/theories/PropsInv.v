(** Property theorems: MI, CMI, TE and CTE ignore symbol names and (MI, CMI) the order of the samples (C84). *)
From Coq Require Import Reals Lra Lia List ZArith Arith Bool Permutation Sorted.
From Verif Require Import Res RSum Spec SpecTE SpecGamma SpecEst SpecInput SpecInv Info Info2 Ord MBase MData MEntropy MMI MTE MGeneric MEst SpecBase PBase PEntropy PCoo PMI PMI2 PMI3 PCMI PMI4 PCMI2 PMI5 PMI6 PropsMI PTE PTE2 PropsTE PGeneric PGeneric2 PropsGeneric PLog PEst PEst2 PEst3 PEst4 PEst5 PEst6 PropsEst PropsOrd.
Import ListNotations.
Local Open Scope R_scope.

(** ** tables side by side *)
Lemma concat_inj_len {A} (us vs : list (list A)) : Forall2 (fun u v => length u = length v) us vs ->
  concat us = concat vs -> us = vs.
Proof.
  induction 1 as [|u v us vs L F IH]; [reflexivity|]. simpl. intros E.
  assert (E1 : u = v).
  { apply (f_equal (firstn (length u))) in E. rewrite L in E at 2.
    rewrite !firstn_app, !Nat.sub_diag, !firstn_O, !app_nil_r, !firstn_all in E. exact E. }
  subst v. apply app_inv_head in E. rewrite (IH E). reflexivity.
Qed.

Definition width (w : nat) (t : list (list Z)) : Prop := forall r, In r t -> length r = w.

Lemma hcat_eq t ts : hcat (t :: ts) = map (fun i => concat (map (fun c => nth i c []) (t :: ts))) (seq 0 (length t)).
Proof. unfold hcat, rows_of. rewrite map_map. reflexivity. Qed.

Lemma Forall2_map_same {A B C} (P : B -> C -> Prop) (f : A -> B) (g : A -> C) l :
  (forall x, In x l -> P (f x) (g x)) -> Forall2 P (map f l) (map g l).
Proof. induction l as [|x l IH]; simpl; constructor; auto. Qed.

Lemma map_same_inv {A B} (f g : A -> B) l : map f l = map g l -> forall x, In x l -> f x = g x.
Proof. induction l as [|y l IH]; simpl; [tauto|]. intros E x [<-|Hx]; injection E; auto. Qed.

(** rows of tables put side by side coincide exactly when all their parts do *)
Lemma hcat_row_eq n ts i j : Forall (fun t => length t = n /\ exists w, width w t) ts -> (i < n)%nat -> (j < n)%nat ->
  (concat (map (fun c => nth i c []) ts) = concat (map (fun c : list (list Z) => nth j c []) ts) <->
   Forall (fun c => nth i c [] = nth j c []) ts).
Proof.
  intros F Hi Hj. rewrite Forall_forall in F. split.
  - intros E. apply concat_inj_len in E.
    + rewrite Forall_forall. apply map_same_inv. exact E.
    + apply Forall2_map_same. intros t Ht. destruct (F t Ht) as (L & w & W).
      rewrite !W; [reflexivity| |]; apply nth_In; lia.
  - intros G. f_equal. apply map_ext_in. rewrite Forall_forall in G. exact G.
Qed.

Lemma hcat_same_partition n ts ts' : (0 < n)%nat -> ts <> [] ->
  Forall (fun t => length t = n /\ exists w, width w t) ts -> Forall (fun t => length t = n /\ exists w, width w t) ts' ->
  Forall2 (fun t t' => same_partition t t') ts ts' -> same_partition (hcat ts) (hcat ts').
Proof.
  intros Hn NE F F' P. destruct ts as [|t ts]; [congruence|]. destruct ts' as [|t' ts']; [inversion P|].
  pose proof (proj1 (Forall_inv F)) as L. pose proof (proj1 (Forall_inv F')) as L'.
  rewrite !hcat_eq, L, L'. split; [rewrite !map_length; reflexivity|]. rewrite map_length, seq_length.
  intros i j dx dy Hi Hj.
  rewrite !(nth_seq_map (fun i => concat (map (fun c => nth i c []) (t :: ts)))) by assumption.
  rewrite !(nth_seq_map (fun i => concat (map (fun c => nth i c []) (t' :: ts')))) by assumption.
  rewrite (hcat_row_eq n (t :: ts) i j F Hi Hj), (hcat_row_eq n (t' :: ts') i j F' Hi Hj).
  clear L L' NE. revert F F' P. generalize (t :: ts) as us. generalize (t' :: ts') as us'. intros us' us F F' P.
  induction P as [|u u' us us' P1 P IH]; [split; constructor|].
  inversion F as [|? ? [L _] F1]; subst. inversion F' as [|? ? [L' _] F1']; subst.
  specialize (IH F1 F1').
  destruct P1 as [_ P1]. specialize (P1 i j [] [] Hi Hj).
  rewrite !Forall_cons_iff. tauto.
Qed.

Lemma sample_hcat cols : cols <> [] -> sample (ETuple cols) = hcat (map arr_rows cols).
Proof.
  intros NE. destruct cols as [|c cols]; [congruence|]. cbn [map]. rewrite hcat_eq.
  cbn [sample input_size]. rewrite arr_rows_length. apply map_ext_in. intros t _.
  cbn [map concat]. f_equal. f_equal. rewrite map_map. reflexivity.
Qed.

Lemma relabelled_partition a a' : relabelled a a' -> same_partition (arr_rows a) (arr_rows a').
Proof. intros (f & Hf & ->). apply map_inj_partition. exact Hf. Qed.
Lemma relabelled_len a a' : relabelled a a' -> arr_len a' = arr_len a.
Proof. intros (f & _ & E). rewrite <- !arr_rows_length, E. apply map_length. Qed.

(** 1-D series: renaming by a function that is injective on the occurring values *)
Lemma relabelled_1d f xs : inj_on f xs -> relabelled (A1 xs) (A1 (map f xs)).
Proof.
  intros Hf. exists (fun r => [f (hd 0%Z r)]). split.
  - intros x y Hx Hy E. simpl in Hx, Hy. apply in_map_iff in Hx, Hy.
    destruct Hx as (u & <- & Hu), Hy as (v & <- & Hv). simpl in E. f_equal. apply Hf; congruence.
  - simpl. rewrite !map_map. reflexivity.
Qed.
Lemma table_1d xs : table (A1 xs).
Proof. exists 1%nat. apply rect_1d. Qed.

Lemma tables_wf n vars : Forall (fun a => arr_len a = n) vars -> Forall table vars ->
  Forall (fun t => length t = n /\ exists w, width w t) (map arr_rows vars).
Proof.
  intros L T. rewrite Forall_forall in *. intros t Ht. apply in_map_iff in Ht. destruct Ht as (a & <- & Ha).
  rewrite arr_rows_length. split; [auto|]. apply T, Ha.
Qed.
Lemma relabel_all vars vars' : Forall2 relabelled vars vars' ->
  Forall2 (fun t t' => same_partition t t') (map arr_rows vars) (map arr_rows vars').
Proof. induction 1; simpl; constructor; auto using relabelled_partition. Qed.
Lemma relabel_len n vars vars' : Forall2 relabelled vars vars' -> Forall (fun a => arr_len a = n) vars -> Forall (fun a => arr_len a = n) vars'.
Proof.
  induction 1 as [|a a' l l' R F IH]; intros G; constructor; inversion G; subst; auto. apply relabelled_len, R.
Qed.

Lemma joint_partition n vars vars' : (0 < n)%nat -> vars <> [] -> Forall (fun a => arr_len a = n) vars -> Forall table vars -> Forall table vars' ->
  Forall2 relabelled vars vars' -> same_partition (sample (ETuple vars)) (sample (ETuple vars')).
Proof.
  intros Hn NE L T T' R. assert (NE' : vars' <> []) by (intros ->; inversion R; congruence).
  rewrite !sample_hcat by assumption. apply (hcat_same_partition n).
  - exact Hn.
  - destruct vars; [congruence|discriminate].
  - apply tables_wf; assumption.
  - apply tables_wf; [eapply relabel_len; eassumption|assumption].
  - apply relabel_all, R.
Qed.

Lemma usable_arr a : (0 < arr_len a)%nat -> SpecInput.usable (EArr a).
Proof. intros H. split; [exact H|exact Logic.I]. Qed.
Lemma usable_tup n vars : (0 < n)%nat -> vars <> [] -> Forall (fun a => arr_len a = n) vars -> SpecInput.usable (ETuple vars).
Proof.
  intros Hn NE L. destruct vars as [|v vs]; [congruence|]. pose proof (Forall_inv L) as L0.
  unfold SpecInput.usable. cbn [input_size]. rewrite L0. split; [exact Hn|exact L].
Qed.

(** ** the approaches whose entropies depend on counts only and whose local values average to the global one *)
Definition approaches (a : R) : list est :=
  [est_discrete; est_mm; est_zhang; est_chao_shen; est_cwj; est_bonachela; est_grassberger; est_bayes (AlphaNum a) None].

Definition good (e : est) (b : base) : Prop := lawful e b /\
  forall i j, SpecInput.usable i -> SpecInput.usable j -> equi (sample i) (sample j) -> entropy_of e b i = entropy_of e b j.

Lemma approaches_good b a : valid_base b -> 0 < a -> Forall (fun e => good e b) (approaches a).
Proof.
  intros V Ha. pose proof (C25_estimators_lawful b a V Ha) as L. destruct (C25_discrete_lawful b V) as [L1 L2].
  assert (C : forall e, In e [est_discrete; est_mm; est_shrink; est_zhang; est_chao_shen; est_cwj; est_bonachela; est_grassberger;
     est_ansb None; est_bayes (AlphaNum a) None] ->
    forall i j, SpecInput.usable i -> SpecInput.usable j -> equi (sample i) (sample j) -> entropy_of e b i = entropy_of e b j).
  { intros e He i j U W Q. pose proof (counts_only_equi b i j a V U W Q Ha) as F. rewrite Forall_forall in F. apply F, He. }
  rewrite Forall_forall in L. unfold approaches. rewrite Forall_forall. intros e He. split.
  - destruct He as [<-|[<-|He]]; [exact L1|exact L2|]. apply L. exact He.
  - apply C. simpl in *. tauto.
Qed.

Lemma Ok_eq {A} (x y : A) : Ok x = Ok y -> x = y. Proof. congruence. Qed.

(** ** the combination measures of any good approach *)
Lemma gen_mi_same e b n vars vars' : good e b -> (2 <= length vars)%nat -> (0 < n)%nat ->
  Forall (fun a => arr_len a = n) vars -> Forall (fun a => arr_len a = n) vars' ->
  Forall2 (fun a a' => equi (arr_rows a) (arr_rows a')) vars vars' -> equi (sample (ETuple vars)) (sample (ETuple vars')) ->
  exists v v', gen_mi e b (Some 0%Z) vars = Ok v /\ gen_mi e b (Some 0%Z) vars' = Ok v' /\ value_global v = value_global v'.
Proof.
  intros [HL HC] H2 Hn L L' R Q.
  assert (E2 : length vars = length vars') by (clear -R; induction R; simpl; congruence).
  destruct (C25_mi_from_entropies e b vars n HL H2 L Hn) as (H & v & A1 & A2 & A3 & A4 & _).
  destruct (C25_mi_from_entropies e b vars' n HL ltac:(lia) L' Hn) as (H' & v' & B1 & B2 & B3 & B4 & _).
  exists v, v'. split; [exact A3|]. split; [exact B3|]. rewrite A4, B4.
  assert (NE : vars <> []) by (intros ->; simpl in H2; lia). assert (NE' : vars' <> []) by (intros ->; simpl in E2; lia).
  f_equal.
  - clear A2 A3 A4 B2 B3 B4 Q NE NE' E2 H2. revert A1 B1 L L'. induction R as [|a a' l l' R0 R IH]; [reflexivity|].
    intros A1 B1 L L'. cbn [sumf]. inversion L as [|? ? L0 Lr]; subst. inversion L' as [|? ? L0' Lr']; subst. f_equal.
    + apply Ok_eq. rewrite <- (A1 a (or_introl eq_refl)), <- (B1 a' (or_introl eq_refl)).
      apply HC; [apply usable_arr; lia|apply usable_arr; lia|exact R0].
    + apply IH; try assumption; intros x Hx; [apply A1|apply B1]; right; exact Hx.
  - apply Ok_eq. rewrite <- A2, <- B2. apply HC; [apply (usable_tup n)|apply (usable_tup n)|]; assumption.
Qed.

Theorem C84_mi_relabel b a n vars vars' : valid_base b -> 0 < a -> (2 <= length vars)%nat -> (0 < n)%nat ->
  Forall (fun x => arr_len x = n) vars -> Forall table vars -> Forall table vars' -> Forall2 relabelled vars vars' ->
  Forall (fun e => exists v v', gen_mi e b (Some 0%Z) vars = Ok v /\ gen_mi e b (Some 0%Z) vars' = Ok v' /\
                                value_global v = value_global v') (approaches a).
Proof.
  intros V Ha H2 Hn L T T' R. eapply Forall_impl; [|apply approaches_good; eassumption]. intros e G.
  apply (gen_mi_same e b n); try assumption.
  - eapply relabel_len; eassumption.
  - clear -R. induction R; constructor; auto. apply equi_partition, relabelled_partition. assumption.
  - apply equi_partition, (joint_partition n); try assumption. intros ->. simpl in H2. lia.
Qed.

(** reordering *)
Lemma pick_rows sg a : Forall (fun j => (j < arr_len a)%nat) sg -> arr_rows (pick sg a) = map (fun j => nth j (arr_rows a) []) sg.
Proof.
  intros F. destruct a as [xs|rs]; [|reflexivity]. simpl in *. rewrite map_map. apply map_ext_in. intros j Hj.
  rewrite Forall_forall in F. specialize (F j Hj).
  rewrite (nth_indep _ [] [0%Z]) by (rewrite map_length; exact F).
  rewrite (map_nth (fun x => [x])). reflexivity.
Qed.
Lemma perm_bound n sg : Permutation sg (seq 0 n) -> Forall (fun j => (j < n)%nat) sg.
Proof. intros P. rewrite Forall_forall. intros j Hj. apply (Permutation_in _ P) in Hj. apply in_seq in Hj. lia. Qed.
Lemma pick_len sg a : arr_len (pick sg a) = length sg.
Proof. destruct a; simpl; apply map_length. Qed.
Lemma pick_perm sg (a : arr) n : arr_len a = n -> Permutation sg (seq 0 n) -> Permutation (arr_rows (pick sg a)) (arr_rows a).
Proof.
  intros L P. rewrite pick_rows by (rewrite L; apply perm_bound, P).
  transitivity (map (fun j => nth j (arr_rows a) []) (seq 0 n)); [apply Permutation_map, P|].
  rewrite <- (list_as_map [] (arr_rows a) n); [reflexivity|rewrite arr_rows_length; exact L].
Qed.
Lemma pick_joint n sg vars : vars <> [] -> Forall (fun x => arr_len x = n) vars -> Permutation sg (seq 0 n) ->
  Permutation (sample (ETuple (map (pick sg) vars))) (sample (ETuple vars)).
Proof.
  intros NE L P. rewrite !sample_hcat by (destruct vars; [congruence|discriminate]).
  destruct vars as [|v vs]; [congruence|]. cbn [map]. rewrite !hcat_eq.
  rewrite !arr_rows_length, pick_len. rewrite (Permutation_length P), seq_length. rewrite (Forall_inv L).
  set (R := fun i => concat (map (fun c => nth i c []) (arr_rows v :: map arr_rows vs))).
  transitivity (map R (map (fun i => nth i sg 0%nat) (seq 0 n))).
  - rewrite (map_map (fun i => nth i sg 0%nat) R). match goal with |- Permutation ?a ?b => replace a with b; [reflexivity|] end.
    apply map_ext_in. intros i Hi. apply in_seq in Hi. unfold R. f_equal.
    change (arr_rows (pick sg v) :: map arr_rows (map (pick sg) vs)) with (map arr_rows (map (pick sg) (v :: vs))).
    change (arr_rows v :: map arr_rows vs) with (map arr_rows (v :: vs)).
    rewrite !map_map. apply map_ext_in. intros x Hx. rewrite Forall_forall in L.
    rewrite pick_rows by (rewrite (L x Hx); apply perm_bound, P).
    symmetry. rewrite (nth_indep _ [] (nth 0 (arr_rows x) [])) by (rewrite map_length, (Permutation_length P), seq_length; lia).
    apply (map_nth (fun j => nth j (arr_rows x) [])).
  - apply Permutation_map. rewrite <- (list_as_map 0%nat sg n); [exact P|]. rewrite (Permutation_length P). apply seq_length.
Qed.

Theorem C84_mi_reorder b a n vars sg : valid_base b -> 0 < a -> (2 <= length vars)%nat -> (0 < n)%nat ->
  Forall (fun x => arr_len x = n) vars -> Permutation sg (seq 0 n) ->
  Forall (fun e => exists v v', gen_mi e b (Some 0%Z) vars = Ok v /\ gen_mi e b (Some 0%Z) (map (pick sg) vars) = Ok v' /\
                                value_global v = value_global v') (approaches a).
Proof.
  intros V Ha H2 Hn L P. eapply Forall_impl; [|apply approaches_good; eassumption]. intros e G.
  apply (gen_mi_same e b n); try assumption.
  - rewrite Forall_forall. intros x Hx. apply in_map_iff in Hx. destruct Hx as (y & <- & _).
    rewrite pick_len, (Permutation_length P). apply seq_length.
  - clear -L P. induction L; constructor; auto. apply equi_sym, equi_perm, (pick_perm sg x n); assumption.
  - apply equi_sym, equi_perm, (pick_joint n); try assumption. intros ->. simpl in H2. lia.
Qed.

(** conditional mutual information *)
Lemma gen_cmi_same e b n x y vars c x' y' vars' c' : good e b -> (0 < n)%nat ->
  let all := x :: y :: vars in let all' := x' :: y' :: vars' in
  Forall (fun a => arr_len a = n) (c :: all) -> Forall (fun a => arr_len a = n) (c' :: all') ->
  equi (arr_rows c) (arr_rows c') ->
  Forall2 (fun a a' => equi (sample (ETuple [a; c])) (sample (ETuple [a'; c']))) all all' ->
  equi (sample (ETuple (all ++ [c]))) (sample (ETuple (all' ++ [c']))) ->
  exists v v', gen_cmi e b all c = Ok v /\ gen_cmi e b all' c' = Ok v' /\ value_global v = value_global v'.
Proof.
  intros [HL HC] Hn all all' L L' Qc R Q. inversion L as [|? ? Lc La]; subst. inversion L' as [|? ? Lc' La']; subst.
  set (n := arr_len c) in *.
  destruct (C25_cmi_from_entropies e b x y vars c n HL La eq_refl Hn) as (H & v & A1 & A3 & A4 & _). fold all in A1, A3, A4.
  destruct (C25_cmi_from_entropies e b x' y' vars' c' n HL La' Lc' Hn) as (H' & v' & B1 & B3 & B4 & _). fold all' in B1, B3, B4.
  exists v, v'. split; [exact A3|]. split; [exact B3|]. rewrite A4, B4.
  assert (U2 : forall a, arr_len a = n -> SpecInput.usable (ETuple [a; c])).
  { intros a Ea. apply (usable_tup n); [exact Hn|discriminate|repeat constructor; auto]. }
  assert (U2' : forall a, arr_len a = n -> SpecInput.usable (ETuple [a; c'])).
  { intros a Ea. apply (usable_tup n); [exact Hn|discriminate|repeat constructor; auto]. }
  f_equal; [f_equal|].
  - assert (S1 : forall a, In a all -> entropy_of e b (ETuple [a; c]) = Ok (H (ETuple [a; c]))).
    { intros a Ha. apply A1. apply in_or_app. left. apply (in_map (fun a => ETuple [a; c])), Ha. }
    assert (S1' : forall a, In a all' -> entropy_of e b (ETuple [a; c']) = Ok (H' (ETuple [a; c']))).
    { intros a Ha. apply B1. apply in_or_app. left. apply (in_map (fun a => ETuple [a; c'])), Ha. }
    clear A1 A3 A4 B1 B3 B4 Q L L'. clearbody all all' n.
    revert S1 S1' La La'. induction R as [|a a' l l' R0 R IH]; [reflexivity|]. intros S1 S1' La La'. cbn [sumf].
    inversion La as [|? ? L0 Lr]; subst. inversion La' as [|? ? L0' Lr']; subst. f_equal.
    + apply Ok_eq. rewrite <- (S1 a (or_introl eq_refl)), <- (S1' a' (or_introl eq_refl)). apply HC; auto.
    + apply IH; try assumption; try (intros q Hq; apply S1 || apply S1'; right; exact Hq).
  - apply Ok_eq. rewrite <- A1 by (apply in_or_app; right; simpl; tauto). rewrite <- B1 by (apply in_or_app; right; simpl; tauto).
    apply HC; [| |exact Q]; (apply (usable_tup n); [exact Hn|discriminate|]); apply Forall_app; split; auto.
  - apply Ok_eq. rewrite <- A1 by (apply in_or_app; right; simpl; tauto). rewrite <- B1 by (apply in_or_app; right; simpl; tauto).
    apply HC; [apply usable_arr; fold n; lia|apply usable_arr; lia|exact Qc].
Qed.

Theorem C84_cmi_relabel b a n x y vars c x' y' vars' c' : valid_base b -> 0 < a -> (0 < n)%nat ->
  let all := x :: y :: vars in let all' := x' :: y' :: vars' in
  Forall (fun a => arr_len a = n) (c :: all) -> Forall table (c :: all) -> Forall table (c' :: all') ->
  Forall2 relabelled (c :: all) (c' :: all') ->
  Forall (fun e => exists v v', gen_cmi e b all c = Ok v /\ gen_cmi e b all' c' = Ok v' /\ value_global v = value_global v') (approaches a).
Proof.
  intros V Ha Hn all all' L T T' R. eapply Forall_impl; [|apply approaches_good; eassumption]. intros e G.
  inversion R as [|? ? ? ? Rc Ra]; subst. inversion L as [|? ? Lc La]; subst. set (n := arr_len c) in *.
  inversion T as [|? ? Tc Ta]; subst. inversion T' as [|? ? Tc' Ta']; subst. assert (Lc : arr_len c = n) by reflexivity.
  apply (gen_cmi_same e b n); try assumption.
  - eapply relabel_len; eassumption.
  - apply equi_partition, relabelled_partition, Rc.
  - fold all all'. clearbody all all' n. clear R L T T'. revert La Ta Ta'. induction Ra as [|p p' l l' R0 R IH]; intros La Ta Ta'; constructor.
    + apply Forall_inv in La, Ta, Ta'. apply equi_partition, (joint_partition n); [exact Hn|discriminate| | | |];
        (constructor; [|constructor; [|constructor]]); assumption.
    + apply IH; eapply Forall_inv_tail; eassumption.
  - apply equi_partition, (joint_partition n); [exact Hn|discriminate| | | |].
    + apply Forall_app. split; auto.
    + apply Forall_app. split; auto.
    + apply Forall_app. split; auto.
    + apply Forall2_app; auto.
Qed.

Theorem C84_cmi_reorder b a n x y vars c sg : valid_base b -> 0 < a -> (0 < n)%nat ->
  let all := x :: y :: vars in Forall (fun a => arr_len a = n) (c :: all) -> Permutation sg (seq 0 n) ->
  Forall (fun e => exists v v', gen_cmi e b all c = Ok v /\ gen_cmi e b (map (pick sg) all) (pick sg c) = Ok v' /\
                                value_global v = value_global v') (approaches a).
Proof.
  intros V Ha Hn all L P. eapply Forall_impl; [|apply approaches_good; eassumption]. intros e G.
  inversion L as [|? ? Lc La]; subst. set (n := arr_len c) in *.
  apply (gen_cmi_same e b n); try assumption.
  - change (pick sg x :: pick sg y :: map (pick sg) vars) with (map (pick sg) all).
    change (Forall (fun a => arr_len a = n) (map (pick sg) (c :: all))). rewrite Forall_forall. intros q Hq.
    apply in_map_iff in Hq. destruct Hq as (z & <- & _). rewrite pick_len, (Permutation_length P). apply seq_length.
  - apply equi_sym, equi_perm, (pick_perm sg c n); auto.
  - assert (X : forall l, Forall (fun a => arr_len a = n) l ->
      Forall2 (fun a a' => equi (sample (ETuple [a; c])) (sample (ETuple [a'; pick sg c]))) l (map (pick sg) l)).
    { induction 1 as [|q l Lq Ll IH]; constructor; [|exact IH].
      apply equi_sym, equi_perm. apply (pick_joint n sg [q; c]); [discriminate|repeat constructor; auto|exact P]. }
    exact (X all La).
  - pose proof (pick_joint n sg (all ++ [c]) ltac:(discriminate) ltac:(apply Forall_app; split; auto) P) as X.
    rewrite map_app in X. apply equi_sym, equi_perm. exact X.
Qed.

(** ** transfer entropy *)
Lemma flat_pasts_partition a a' s len ts n w w' : arr_len a = n -> arr_len a' = n -> rect w a -> rect w' a' ->
  same_partition (arr_rows a) (arr_rows a') -> (forall b, In b ts -> (b < n)%nat) -> (1 <= s)%nat ->
  same_partition (flat_pasts a s len ts) (flat_pasts a' s len ts).
Proof.
  intros L L' W W' P HT Hs.
  assert (Q : forall x v, arr_len x = n -> rect v x -> same_partition (flat_pasts x s len ts) (pasts [] (arr_rows x) s len ts)).
  { intros x v Lx Wx. apply same_partition_sym. apply map_inj_partition. intros p q Hp Hq E.
    apply in_map_iff in Hp, Hq. destruct Hp as (i & <- & Hi), Hq as (j & <- & Hj).
    apply concat_inj_len in E; [exact E|]. unfold past. apply Forall2_map_same. intros k _.
    rewrite !Wx; [reflexivity| |]; apply nth_In; rewrite arr_rows_length, Lx; [specialize (HT j Hj)|specialize (HT i Hi)]; lia. }
  eapply same_partition_trans; [eapply Q; eassumption|].
  eapply same_partition_trans; [|apply same_partition_sym; eapply Q; eassumption].
  apply pasts_partition; [exact P| |exact Hs]. intros b Hb. rewrite arr_rows_length, L. auto.
Qed.

Lemma flat_presents_partition a a' ts n : arr_len a = n -> arr_len a' = n ->
  same_partition (arr_rows a) (arr_rows a') -> (forall b, In b ts -> (b < n)%nat) ->
  same_partition (flat_presents a ts) (flat_presents a' ts).
Proof.
  intros L L' P HT. apply presents_partition; [exact P|]. intros b Hb. rewrite arr_rows_length, L. auto.
Qed.

Lemma entropy_rows_same e b rows rows' H H' : good e b -> (0 < length rows)%nat -> same_partition rows rows' ->
  entropy_of e b (EArr (A2 rows)) = Ok H -> entropy_of e b (EArr (A2 rows')) = Ok H' -> H = H'.
Proof.
  intros [_ HC] Hn P E E'. apply Ok_eq. rewrite <- E, <- E'.
  apply HC; [apply usable_arr; exact Hn|apply usable_arr; simpl; rewrite <- (proj1 P); exact Hn|]. apply equi_partition. exact P.
Qed.

Lemma te_rows_wf a w s len ts n : arr_len a = n -> rect w a -> (forall b, In b ts -> (b < n)%nat) ->
  length (flat_pasts a s len ts) = length ts /\ exists v, width v (flat_pasts a s len ts).
Proof.
  intros L W HT. split; [apply flat_pasts_length|]. exists (len * w)%nat. intros r Hr.
  eapply flat_pasts_width; [exact W| |exact Hr]. rewrite L. exact HT.
Qed.
Lemma te_pres_wf a w ts n : arr_len a = n -> rect w a -> (forall b, In b ts -> (b < n)%nat) ->
  length (flat_presents a ts) = length ts /\ exists v, width v (flat_presents a ts).
Proof.
  intros L W HT. split; [unfold flat_presents; apply presents_length|]. exists w. intros r Hr.
  eapply flat_presents_width; [exact W| |exact Hr]. rewrite L. exact HT.
Qed.

Theorem C84_te_relabel b a source dest source' dest' l k s n : valid_base b -> 0 < a ->
  arr_len source = n -> arr_len dest = n -> table source -> table dest -> table source' -> table dest' ->
  relabelled source source' -> relabelled dest dest' ->
  (1 <= l)%nat -> (1 <= k)%nat -> (1 <= s)%nat -> (Nat.max k l * s < n)%nat ->
  Forall (fun e => exists v v', gen_te e b source dest (te_kw l k s) RNone = Ok v /\ gen_te e b source' dest' (te_kw l k s) RNone = Ok v' /\
                                value_global v = value_global v') (approaches a).
Proof.
  intros V Ha Ls Ld (ws & Ws) (wd & Wd) (ws' & Ws') (wd' & Wd') Rs Rd Hl Hk Hs Hd.
  eapply Forall_impl; [|apply approaches_good; eassumption]. intros e G.
  pose proof (relabelled_len _ _ Rs) as Ls'. pose proof (relabelled_len _ _ Rd) as Ld'. rewrite Ls in Ls'. rewrite Ld in Ld'.
  destruct (C25_te_from_entropies e b source dest l k s n (proj1 G) Ls Ld Hl Hk Hs Hd) as (sh & dh & df & H & v & E0 & HH & E & Vv & _).
  destruct (C25_te_from_entropies e b source' dest' l k s n (proj1 G) Ls' Ld' Hl Hk Hs Hd) as (sh' & dh' & df' & H' & v' & E0' & HH' & E' & Vv' & _).
  exists v, v'. split; [exact E|]. split; [exact E'|]. rewrite Vv, Vv'.
  rewrite (te_obs_ok source dest l k s n Hl Hk Hs Ls Ld RNone ltac:(discriminate) Hd Logic.I) in E0.
  rewrite (te_obs_ok source' dest' l k s n Hl Hk Hs Ls' Ld' RNone ltac:(discriminate) Hd Logic.I) in E0'.
  set (ts := base_times n (Nat.max k l * s) s) in *. injection E0 as <- <- <-. injection E0' as <- <- <-.
  assert (HT : forall b', In b' ts -> (b' < n)%nat) by (intros b' Hb'; unfold ts in Hb'; rewrite base_times_In in Hb' by exact Hs; lia).
  assert (NT : (0 < length ts)%nat) by (unfold ts; rewrite base_times_length; apply nrows_pos; assumption).
  pose proof (relabelled_partition _ _ Rs) as Ps. pose proof (relabelled_partition _ _ Rd) as Pd.
  pose proof (flat_pasts_partition source source' s l ts n ws ws' Ls Ls' Ws Ws' Ps HT Hs) as Q1.
  pose proof (flat_pasts_partition dest dest' s k ts n wd wd' Ld Ld' Wd Wd' Pd HT Hs) as Q2.
  pose proof (flat_presents_partition dest dest' ts n Ld Ld' Pd HT) as Q3.
  pose proof (te_rows_wf source ws s l ts n Ls Ws HT) as F1. pose proof (te_rows_wf source' ws' s l ts n Ls' Ws' HT) as F1'.
  pose proof (te_rows_wf dest wd s k ts n Ld Wd HT) as F2. pose proof (te_rows_wf dest' wd' s k ts n Ld' Wd' HT) as F2'.
  pose proof (te_pres_wf dest wd ts n Ld Wd HT) as F3. pose proof (te_pres_wf dest' wd' ts n Ld' Wd' HT) as F3'.
  set (sh := flat_pasts source s l ts) in *. set (dh := flat_pasts dest s k ts) in *. set (df := flat_presents dest ts) in *.
  set (sh' := flat_pasts source' s l ts) in *. set (dh' := flat_pasts dest' s k ts) in *. set (df' := flat_presents dest' ts) in *.
  assert (HC : forall us us', In (hcat us) [hcat [dh; df]; hcat [sh; dh]; hcat [sh; dh; df]; dh] ->
      In (hcat us') [hcat [dh'; df']; hcat [sh'; dh']; hcat [sh'; dh'; df']; dh'] -> us <> [] ->
      Forall (fun t => length t = length ts /\ exists w, width w t) us -> Forall (fun t => length t = length ts /\ exists w, width w t) us' ->
      Forall2 (fun t t' => same_partition t t') us us' -> H (hcat us) = H' (hcat us')).
  { intros us us' I1 I2 NE U U' P. eapply (entropy_rows_same e b (hcat us) (hcat us')); [exact G| | |apply HH, I1|apply HH', I2].
    - destruct us as [|u us]; [congruence|]. rewrite hcat_length. rewrite (proj1 (Forall_inv U)). exact NT.
    - apply (hcat_same_partition (length ts)); assumption. }
  rewrite (HC [dh; df] [dh'; df']); [|simpl; tauto|simpl; tauto|discriminate|auto|auto|auto].
  rewrite (HC [sh; dh] [sh'; dh']); [|simpl; tauto|simpl; tauto|discriminate|auto|auto|auto].
  rewrite (HC [sh; dh; df] [sh'; dh'; df']); [|simpl; tauto|simpl; tauto|discriminate|auto|auto|auto].
  f_equal. eapply (entropy_rows_same e b dh dh'); [exact G|rewrite (proj1 F2); exact NT|exact Q2|apply HH|apply HH']; simpl; tauto.
Qed.

Theorem C84_cte_relabel b a source dest cond source' dest' cond' l k m s n : valid_base b -> 0 < a ->
  arr_len source = n -> arr_len dest = n -> arr_len cond = n ->
  table source -> table dest -> table cond -> table source' -> table dest' -> table cond' ->
  relabelled source source' -> relabelled dest dest' -> relabelled cond cond' ->
  (1 <= l)%nat -> (1 <= k)%nat -> (1 <= m)%nat -> (1 <= s)%nat -> (Nat.max (Nat.max k l) m * s < n)%nat ->
  Forall (fun e => exists v v', gen_cte e b source dest cond (cte_kw l k m s) = Ok v /\ gen_cte e b source' dest' cond' (cte_kw l k m s) = Ok v' /\
                                value_global v = value_global v') (approaches a).
Proof.
  intros V Ha Ls Ld Lc (ws & Ws) (wd & Wd) (wc & Wc) (ws' & Ws') (wd' & Wd') (wc' & Wc') Rs Rd Rc Hl Hk Hm Hs Hd.
  eapply Forall_impl; [|apply approaches_good; eassumption]. intros e G.
  pose proof (relabelled_len _ _ Rs) as Ls'. pose proof (relabelled_len _ _ Rd) as Ld'. pose proof (relabelled_len _ _ Rc) as Lc'.
  rewrite Ls in Ls'. rewrite Ld in Ld'. rewrite Lc in Lc'.
  destruct (C25_cte_from_entropies e b source dest cond l k m s n (proj1 G) Ls Ld Lc Hl Hk Hm Hs Hd) as (sh & dh & df & ch & H & v & E0 & HH & E & Vv).
  destruct (C25_cte_from_entropies e b source' dest' cond' l k m s n (proj1 G) Ls' Ld' Lc' Hl Hk Hm Hs Hd) as (sh' & dh' & df' & ch' & H' & v' & E0' & HH' & E' & Vv').
  exists v, v'. split; [exact E|]. split; [exact E'|]. rewrite Vv, Vv'.
  rewrite (cte_obs_ok source dest l k s n Hl Hk Hs Ls Ld cond m RNone Hm Lc ltac:(discriminate) Hd Logic.I) in E0.
  rewrite (cte_obs_ok source' dest' l k s n Hl Hk Hs Ls' Ld' cond' m RNone Hm Lc' ltac:(discriminate) Hd Logic.I) in E0'.
  set (ts := base_times n (Nat.max (Nat.max k l) m * s) s) in *. injection E0 as <- <- <- <-. injection E0' as <- <- <- <-.
  assert (HT : forall b', In b' ts -> (b' < n)%nat) by (intros b' Hb'; unfold ts in Hb'; rewrite base_times_In in Hb' by exact Hs; lia).
  assert (NT : (0 < length ts)%nat) by (unfold ts; rewrite base_times_length; apply nrows_pos; assumption).
  pose proof (relabelled_partition _ _ Rs) as Ps. pose proof (relabelled_partition _ _ Rd) as Pd. pose proof (relabelled_partition _ _ Rc) as Pc.
  pose proof (flat_pasts_partition source source' s l ts n ws ws' Ls Ls' Ws Ws' Ps HT Hs) as Q1.
  pose proof (flat_pasts_partition dest dest' s k ts n wd wd' Ld Ld' Wd Wd' Pd HT Hs) as Q2.
  pose proof (flat_presents_partition dest dest' ts n Ld Ld' Pd HT) as Q3.
  pose proof (flat_pasts_partition cond cond' s m ts n wc wc' Lc Lc' Wc Wc' Pc HT Hs) as Q4.
  pose proof (te_rows_wf source ws s l ts n Ls Ws HT) as F1. pose proof (te_rows_wf source' ws' s l ts n Ls' Ws' HT) as F1'.
  pose proof (te_rows_wf dest wd s k ts n Ld Wd HT) as F2. pose proof (te_rows_wf dest' wd' s k ts n Ld' Wd' HT) as F2'.
  pose proof (te_pres_wf dest wd ts n Ld Wd HT) as F3. pose proof (te_pres_wf dest' wd' ts n Ld' Wd' HT) as F3'.
  pose proof (te_rows_wf cond wc s m ts n Lc Wc HT) as F4. pose proof (te_rows_wf cond' wc' s m ts n Lc' Wc' HT) as F4'.
  set (sh := flat_pasts source s l ts) in *. set (dh := flat_pasts dest s k ts) in *. set (df := flat_presents dest ts) in *. set (ch := flat_pasts cond s m ts) in *.
  set (sh' := flat_pasts source' s l ts) in *. set (dh' := flat_pasts dest' s k ts) in *. set (df' := flat_presents dest' ts) in *. set (ch' := flat_pasts cond' s m ts) in *.
  assert (HC : forall us us', In (hcat us) [hcat [dh; df; ch]; hcat [sh; dh; ch]; hcat [sh; dh; df; ch]; hcat [dh; ch]] ->
      In (hcat us') [hcat [dh'; df'; ch']; hcat [sh'; dh'; ch']; hcat [sh'; dh'; df'; ch']; hcat [dh'; ch']] -> us <> [] ->
      Forall (fun t => length t = length ts /\ exists w, width w t) us -> Forall (fun t => length t = length ts /\ exists w, width w t) us' ->
      Forall2 (fun t t' => same_partition t t') us us' -> H (hcat us) = H' (hcat us')).
  { intros us us' I1 I2 NE U U' P. eapply (entropy_rows_same e b (hcat us) (hcat us')); [exact G| | |apply HH, I1|apply HH', I2].
    - destruct us as [|u us]; [congruence|]. rewrite hcat_length. rewrite (proj1 (Forall_inv U)). exact NT.
    - apply (hcat_same_partition (length ts)); assumption. }
  rewrite (HC [dh; df; ch] [dh'; df'; ch']); [|simpl; tauto|simpl; tauto|discriminate|auto|auto|auto].
  rewrite (HC [sh; dh; ch] [sh'; dh'; ch']); [|simpl; tauto|simpl; tauto|discriminate|auto|auto|auto].
  rewrite (HC [sh; dh; df; ch] [sh'; dh'; df'; ch']); [|simpl; tauto|simpl; tauto|discriminate|auto 6|auto 6|auto 6].
  rewrite (HC [dh; ch] [dh'; ch']); [|simpl; tauto|simpl; tauto|discriminate|auto|auto|auto].
  reflexivity.
Qed.

(** ** the dedicated discrete estimators *)
Lemma inj_on_cond (f : Z -> Z) (xs : list Z) : inj_on f xs -> same_partition xs (map f xs).
Proof. apply map_inj_partition. Qed.

Theorem C84_discrete_relabel b (f g h : Z -> Z) xs ys zs : big_base b -> length xs = length ys -> length xs = length zs -> xs <> [] -> small2 (length xs) ->
  inj_on f xs -> inj_on g ys -> inj_on h zs ->
  mi_discrete b (Some 0%Z) [A1 (map f xs); A1 (map g ys)] = mi_discrete b (Some 0%Z) [A1 xs; A1 ys] /\
  cmi_discrete b [A1 (map f xs); A1 (map g ys)] (RArr (A1 (map h zs))) = cmi_discrete b [A1 xs; A1 ys] (RArr (A1 zs)).
Proof.
  intros B L1 L2 NE HS If Ig Ih. pose proof (big_valid b B) as V.
  assert (NE' : map f xs <> []) by (destruct xs; [congruence|discriminate]).
  assert (HS' : small2 (length (map f xs))) by (rewrite map_length; exact HS).
  split.
  - rewrite !mi2_api by (rewrite ?map_length; assumption). do 2 f_equal. symmetry.
    apply MI_partition; auto using inj_on_cond.
  - rewrite (proj1 (cmi2_api b xs ys zs V L1 L2 NE HS)).
    rewrite (proj1 (cmi2_api b (map f xs) (map g ys) (map h zs) V ltac:(rewrite !map_length; exact L1) ltac:(rewrite !map_length; exact L2) NE' HS')).
    do 2 f_equal. symmetry. apply CMI_partition; auto using inj_on_cond.
Qed.

Theorem C84_discrete_te_relabel b (f g h : Z -> Z) xs ys zs l k m s n : valid_base b -> length xs = n -> length ys = n -> length zs = n ->
  (1 <= l)%nat -> (1 <= k)%nat -> (1 <= m)%nat -> (1 <= s)%nat -> (Nat.max (Nat.max k l) m * s < n)%nat -> small2 n ->
  inj_on f xs -> inj_on g ys -> inj_on h zs ->
  te_discrete b (A1 (map f xs)) (A1 (map g ys)) (te_kw l k s) = te_discrete b (A1 xs) (A1 ys) (te_kw l k s) /\
  cte_discrete b (A1 (map f xs)) (A1 (map g ys)) (RArr (A1 (map h zs))) (cte_kw l k m s) =
  cte_discrete b (A1 xs) (A1 ys) (RArr (A1 zs)) (cte_kw l k m s).
Proof.
  intros V Lx Ly Lz Hl Hk Hm Hs Hd Hn If Ig Ih.
  assert (BT : forall d b', In b' (base_times n d s) -> (b' < n)%nat).
  { intros d b' Hb'. rewrite base_times_In in Hb' by exact Hs. lia. }
  split.
  - rewrite !(C19_te_is_conditional_mi b _ _ l k s n) by (rewrite ?map_length; try assumption; nia).
    do 2 f_equal. symmetry. apply CMI_partition; rewrite ?presents_length, ?pasts_length; try reflexivity;
      [apply presents_partition|apply pasts_partition|apply pasts_partition]; auto using inj_on_cond;
      intros b' Hb'; apply BT in Hb'; congruence.
  - rewrite !(C24_cte_is_conditional_mi b _ _ _ l k m s n) by (rewrite ?map_length; try assumption; nia).
    do 2 f_equal. symmetry. apply CMI_partition; rewrite ?combine_length, ?presents_length, ?pasts_length; try reflexivity; try lia;
      [apply presents_partition|apply pasts_partition|apply same_partition_combine; [rewrite !pasts_length; reflexivity|apply pasts_partition|apply pasts_partition]];
      auto using inj_on_cond; intros b' Hb'; apply BT in Hb'; congruence.
Qed.

(** reordering the samples jointly: equal multisets of pairs / triples *)
Lemma combine_perm_fst {A B} (xs xs' : list A) (ys ys' : list B) : length xs = length ys -> length xs' = length ys' ->
  Permutation (combine xs ys) (combine xs' ys') -> Permutation xs xs' /\ Permutation ys ys'.
Proof.
  intros L L' P.
  assert (F : forall (us : list A) (vs : list B), length us = length vs -> map fst (combine us vs) = us /\ map snd (combine us vs) = vs).
  { clear. induction us as [|u us IH]; intros [|v vs] L; try discriminate; [auto|]. simpl in *. injection L as L. destruct (IH vs L) as [-> ->]. auto. }
  destruct (F xs ys L) as [F1 F2]. destruct (F xs' ys' L') as [F3 F4].
  rewrite <- F1, <- F3. rewrite <- F2 at 2. rewrite <- F4 at 2. split; apply Permutation_map; exact P.
Qed.

Theorem C84_discrete_reorder b xs ys zs xs' ys' zs' : big_base b -> length xs = length ys -> length xs = length zs ->
  length xs' = length ys' -> length xs' = length zs' -> xs <> [] -> small2 (length xs) ->
  Permutation (combine (combine xs ys) zs) (combine (combine xs' ys') zs') ->
  mi_discrete b (Some 0%Z) [A1 xs'; A1 ys'] = mi_discrete b (Some 0%Z) [A1 xs; A1 ys] /\
  cmi_discrete b [A1 xs'; A1 ys'] (RArr (A1 zs')) = cmi_discrete b [A1 xs; A1 ys] (RArr (A1 zs)).
Proof.
  intros B L1 L2 L1' L2' NE HS P. pose proof (big_valid b B) as V.
  assert (C1 : length (combine xs ys) = length zs) by (rewrite combine_length; lia).
  assert (C1' : length (combine xs' ys') = length zs') by (rewrite combine_length; lia).
  destruct (combine_perm_fst _ _ _ _ C1 C1' P) as [Pxy Pz]. destruct (combine_perm_fst _ _ _ _ L1 L1' Pxy) as [Px Py].
  assert (NE' : xs' <> []) by (intros ->; apply Permutation_sym, Permutation_nil in Px; congruence).
  assert (HS' : small2 (length xs')) by (rewrite <- (Permutation_length Px); exact HS).
  assert (Q : forall (us : list Z) (vs ws : list Z), length us = length vs -> length us = length ws ->
    combine us ws = map (fun t => (fst (fst t), snd t)) (combine (combine us vs) ws) /\
    combine vs ws = map (fun t => (snd (fst t), snd t)) (combine (combine us vs) ws)).
  { clear. induction us as [|u us IH]; intros [|v vs] [|w ws] L L'; try discriminate; [auto|]. simpl in *.
    destruct (IH vs ws ltac:(lia) ltac:(lia)) as [E1 E2]. rewrite <- E1, <- E2. auto. }
  split.
  - rewrite !mi2_api by assumption. unfold MI. rewrite (Ent_perm _ _ Px), (Ent_perm _ _ Py), (Ent_perm _ _ Pxy). reflexivity.
  - rewrite (proj1 (cmi2_api b xs ys zs V L1 L2 NE HS)), (proj1 (cmi2_api b xs' ys' zs' V L1' L2' NE' HS')).
    unfold CMI. destruct (Q xs ys zs L1 L2) as [-> ->]. destruct (Q xs' ys' zs' L1' L2') as [-> ->].
    rewrite (Ent_perm _ _ P), (Ent_perm _ _ Pz).
    rewrite (Ent_perm _ _ (Permutation_map (fun t => (fst (fst t), snd t)) P)).
    rewrite (Ent_perm _ _ (Permutation_map (fun t => (snd (fst t), snd t)) P)). reflexivity.
Qed.
(** any number of variables (at least three): renaming each variable, reordering all of them together *)
Lemma rows_row_eq (n : nat) (cols : list (list Z)) i j :
  (map (fun c => nth i c 0%Z) cols = map (fun c => nth j c 0%Z) cols <-> Forall (fun c => nth i c 0%Z = nth j c 0%Z) cols).
Proof.
  rewrite Forall_forall. split; [apply map_same_inv|]. intros G. apply map_ext_in. exact G.
Qed.

Lemma rows_of_partition n (cols cols' : list (list Z)) : all_len n cols -> Forall2 (fun c c' => same_partition c c') cols cols' ->
  same_partition (rows_of 0%Z n cols) (rows_of 0%Z n cols').
Proof.
  intros L P. unfold rows_of. split; [rewrite !map_length; reflexivity|]. rewrite map_length, seq_length. intros i j dx dy Hi Hj.
  rewrite !(nth_seq_map (fun t => map (fun c => nth t c 0%Z) cols)), !(nth_seq_map (fun t => map (fun c => nth t c 0%Z) cols')) by assumption.
  rewrite !(rows_row_eq n). unfold all_len in L. induction P as [|c c' l l' P0 P IH]; [split; constructor|].
  inversion L as [|? ? L0 Lr]; subst. rewrite !Forall_cons_iff.
  destruct P0 as [_ P0]. specialize (P0 i j 0%Z 0%Z Hi Hj). specialize (IH Lr). tauto.
Qed.

Definition const_col (c : list Z) : Prop := forall x y, In x c -> In y c -> x = y.

Lemma const_or_not cols : no_constant cols \/ exists c, In c cols /\ const_col c.
Proof.
  induction cols as [|c cs IH]; [left; intros c []|].
  assert (D : const_col c \/ exists x y, In x c /\ In y c /\ x <> y).
  { clear IH. destruct c as [|z c]; [left; intros x y []|].
    destruct (Exists_dec (fun y => y <> z) c (fun y => match Z.eq_dec y z with left e => right (fun n => n e) | right n => left n end)) as [X|X].
    - right. apply Exists_exists in X. destruct X as (y & Hy & N). exists z, y. simpl. intuition.
    - left. assert (A : forall x, In x (z :: c) -> x = z).
      { intros x [<-|Hx]; [reflexivity|]. destruct (Z.eq_dec x z) as [E|N]; [exact E|]. destruct X. apply Exists_exists. eauto. }
      intros x y Hx Hy. rewrite (A x Hx), (A y Hy). reflexivity. }
  destruct D as [D|D]; [right; exists c; simpl; auto|].
  destruct IH as [IH|(d & Hd & Cd)]; [left|right; exists d; simpl; auto].
  intros d [<-|Hd]; auto.
Qed.

Lemma const_rel_F2 (Q : list Z -> list Z -> Prop) cols cols' : Forall2 Q cols cols' ->
  (forall c, In c cols -> exists c', In c' cols' /\ Q c c') /\ (forall c', In c' cols' -> exists c, In c cols /\ Q c c').
Proof.
  induction 1 as [|c c' l l' H F [IH1 IH2]]; [split; intros c []|]. split.
  - intros x [<-|Hx]; [exists c'; simpl; auto|]. destruct (IH1 x Hx) as (y & Hy & E). exists y. simpl. auto.
  - intros x [<-|Hx]; [exists c; simpl; auto|]. destruct (IH2 x Hx) as (y & Hy & E). exists y. simpl. auto.
Qed.

Lemma mi_many_same b n cols cols' : valid_base b -> (3 <= length cols)%nat -> all_len n cols -> all_len n cols' -> (0 < n)%nat ->
  (Z.of_nat n ^ Z.of_nat (length cols) < 2 ^ 64)%Z ->
  Forall2 (fun c c' => Ent c = Ent c' /\ (const_col c <-> const_col c')) cols cols' ->
  Ent (rows_of 0%Z n cols) = Ent (rows_of 0%Z n cols') ->
  mi_discrete b (Some 0%Z) (map A1 cols') = mi_discrete b (Some 0%Z) (map A1 cols).
Proof.
  intros V Hk HL HL' Hn SM F EJ.
  assert (Ek : length cols = length cols') by (clear -F; induction F; simpl; congruence).
  destruct (const_rel_F2 _ _ _ F) as [G1 G2].
  destruct (const_or_not cols) as [NC|(c & Hc & Cc)].
  - assert (NC' : no_constant cols').
    { intros c' Hc'. destruct (const_or_not [c']) as [N|(d & [<-|[]] & Cd)]; [apply N; left; reflexivity|].
      exfalso. destruct (G2 c' Hc') as (c & Hc & _ & X). destruct (NC c Hc) as (x & y & Hx & Hy & N). apply N. apply (proj2 X Cd); assumption. }
    rewrite (proj1 (C13_mi_is_total_correlation_partial b n cols V Hk HL Hn NC SM)).
    rewrite (proj1 (C13_mi_is_total_correlation_partial b n cols' V ltac:(lia) HL' Hn NC' ltac:(rewrite <- Ek; exact SM))).
    do 2 f_equal. unfold TotalCorr. rewrite EJ. f_equal. clear -F. induction F as [|c c' l l' [E _] F IH]; simpl; congruence.
  - destruct (G1 c Hc) as (c' & Hc' & _ & X).
    rewrite (C13_constant_variable_gives_zero b n cols c Hk HL Hn Hc Cc).
    apply (C13_constant_variable_gives_zero b n cols' c'); auto; [lia|]. apply (proj1 X Cc).
Qed.

Theorem C84_discrete_many_relabel b n cols cols' : valid_base b -> (3 <= length cols)%nat -> all_len n cols -> (0 < n)%nat ->
  (Z.of_nat n ^ Z.of_nat (length cols) < 2 ^ 64)%Z ->
  Forall2 (fun c c' => exists f : Z -> Z, inj_on f c /\ c' = map f c) cols cols' ->
  mi_discrete b (Some 0%Z) (map A1 cols') = mi_discrete b (Some 0%Z) (map A1 cols).
Proof.
  intros V Hk HL Hn SM F.
  assert (HL' : all_len n cols').
  { unfold all_len in *. clear -F HL. induction F as [|c c' l l' (f & _ & ->) F IH]; constructor; inversion HL; subst; auto. apply map_length. }
  apply (mi_many_same b n); try assumption.
  - clear -F. induction F as [|c c' l l' (f & If & ->) F IH]; constructor; auto. split.
    + symmetry. apply Ent_map_inj. exact If.
    + split.
      * intros C x y Hx Hy. apply in_map_iff in Hx, Hy. destruct Hx as (u & <- & Hu), Hy as (v & <- & Hv). f_equal. auto.
      * intros C x y Hx Hy. apply If; auto. apply C; apply in_map; assumption.
  - apply Ent_partition, rows_of_partition; [exact HL|]. clear -F. induction F as [|c c' l l' (f & If & ->) F IH]; constructor; auto using inj_on_cond.
Qed.

Theorem C84_discrete_many_reorder b n cols sg : valid_base b -> (3 <= length cols)%nat -> all_len n cols -> (0 < n)%nat ->
  (Z.of_nat n ^ Z.of_nat (length cols) < 2 ^ 64)%Z -> Permutation sg (seq 0 n) ->
  mi_discrete b (Some 0%Z) (map (fun c => pick sg (A1 c)) cols) = mi_discrete b (Some 0%Z) (map A1 cols).
Proof.
  intros V Hk HL Hn SM P. set (g := fun c : list Z => map (fun j => nth j c 0%Z) sg).
  assert (LS : length sg = n) by (rewrite (Permutation_length P); apply seq_length).
  assert (PP : forall c, length c = n -> Permutation (g c) c).
  { intros c L. unfold g. transitivity (map (fun j => nth j c 0%Z) (seq 0 n)); [apply Permutation_map, P|].
    rewrite <- (list_as_map 0%Z c n L). reflexivity. }
  replace (map (fun c => pick sg (A1 c)) cols) with (map A1 (map g cols)) by (rewrite map_map; reflexivity).
  apply (mi_many_same b n); try assumption.
  - unfold all_len in *. rewrite Forall_forall in *. intros c Hc. apply in_map_iff in Hc. destruct Hc as (d & <- & _). unfold g. rewrite map_length. exact LS.
  - unfold all_len in HL. clear -HL PP. induction HL as [|c l L F IH]; constructor; auto. pose proof (PP c L) as Q. split.
    + symmetry. apply Ent_perm, Q.
    + unfold const_col. split; intros C x y Hx Hy; apply C; (eapply Permutation_in; [|eassumption]); [exact Q|exact Q|apply Permutation_sym, Q|apply Permutation_sym, Q].
  - apply Ent_perm, Permutation_sym. unfold rows_of.
    transitivity (map (fun t => map (fun c => nth t c 0%Z) cols) (map (fun i => nth i sg 0%nat) (seq 0 n))).
    + rewrite (map_map (fun i => nth i sg 0%nat)).
      match goal with |- Permutation ?a ?b => replace a with b; [reflexivity|] end.
      apply map_ext_in. intros i Hi. apply in_seq in Hi. rewrite map_map. apply map_ext_in. intros c _. unfold g.
      symmetry. rewrite (nth_indep _ 0%Z (nth 0 c 0%Z)) by (rewrite map_length; lia). apply (map_nth (fun j => nth j c 0%Z)).
    + apply Permutation_map. rewrite <- (list_as_map 0%nat sg n LS). exact P.
Qed.
Print Assumptions C84_discrete_many_reorder.
Print Assumptions C84_cte_relabel.
Print Assumptions C84_discrete_reorder.

(** the hypotheses on concrete data: the 2-D variable of rows (0,0),(0,1),(0,0) is relabelled by codes 5,-1,5 *)
Example C84_example : relabelled (A2 [[0; 0]; [0; 1]; [0; 0]]%Z) (A1 [5; -1; 5]%Z) /\ table (A2 [[0; 0]; [0; 1]; [0; 0]]%Z) /\
  Permutation [2; 0; 1]%nat (seq 0 3) /\ pick [2; 0; 1]%nat (A1 [7; 8; 9]%Z) = A1 [9; 7; 8]%Z.
Proof.
  split; [|split; [|split]].
  - exists (fun r => if list_eq_dec Z.eq_dec r [0; 0]%Z then [5]%Z else [-1]%Z). split; [|reflexivity].
    intros x y [<-|[<-|[<-|[]]]] [<-|[<-|[<-|[]]]]; simpl; intros Q; try reflexivity; discriminate Q.
  - exists 2%nat. intros r [<-|[<-|[<-|[]]]]; reflexivity.
  - apply Permutation_sym, (Permutation_cons_append [0; 1]%nat 2%nat) || (simpl; apply (Permutation_cons_append [0; 1]%nat 2%nat)).
  - reflexivity.
Qed.
