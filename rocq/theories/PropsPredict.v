(** Property theorems C106: entropy, MI and TE as best logarithmic losses; determination; Fano's inequality. *)
From Coq Require Import Reals Lra Lia List ZArith Arith Bool Permutation.
From Verif Require Import Res RSum Spec SpecBase SpecTE SpecDiv SpecEst SpecPool SpecPinsker SpecPredict Info Info2 Gibbs Ord MBase MData MEntropy MMI MTE PBase PEntropy PMI2 PMI4 PMI5 PCMI2 PTE2 PEst4 PDiv PDiv2 PStab PropsDiv PropsMI PropsTE PPool PropsPool PCoarse PropsCoarse PPinsker PPredict.
Import ListNotations.
Local Open Scope R_scope.

(** the context that tells nothing *)
Definition nothing {A} (xs : list A) : list Z := map (fun _ => 0%Z) xs.

Lemma Ent_nothing {A} (xs : list A) : Ent (nothing xs) = 0.
Proof.
  assert (E : nothing xs = repeat 0%Z (length xs)) by (unfold nothing; induction xs; [reflexivity|cbn [map length repeat]; congruence]).
  rewrite E. apply Ent_repeat.
Qed.
Lemma Ent_with_nothing {A} `{EqDec A} (xs : list A) : Ent (combine (nothing xs) xs) = Ent xs.
Proof.
  replace (combine (nothing xs) xs) with (map (fun x => (0%Z, x)) xs) by (unfold nothing; induction xs; [reflexivity|cbn [map combine]; congruence]).
  apply Ent_map_inj. intros x y _ _ E. congruence.
Qed.
Lemma best_nothing {A} `{EqDec A} (xs : list A) : xs <> [] -> best_loss (nothing xs) xs (Ent xs).
Proof.
  intros NE. pose proof (best_is_entropy (nothing xs) xs (map_length _ _) NE) as B. rewrite Ent_with_nothing, Ent_nothing, Rminus_0_r in B. exact B.
Qed.

Theorem C106_entropy_is_best_loss : forall b xs, valid_base b -> xs <> [] ->
  exists h, entropy_discrete b (EArr (A1 xs)) = Ok h /\ best_loss (nothing xs) xs (h * unit_of b).
Proof.
  intros b xs V NE. exists (Ent xs / unit_of b). split; [apply entropy_1d; assumption|].
  replace (Ent xs / unit_of b * unit_of b) with (Ent xs) by (field; apply unit_neq0; exact V). apply best_nothing. exact NE.
Qed.
Print Assumptions C106_entropy_is_best_loss.

(** how much better the first variable can be predicted when the second is known *)
Theorem C106_mi_is_loss_reduction : forall b xs ys, big_base b -> length xs = length ys -> xs <> [] -> small2 (length xs) ->
  exists m l0 l1, mi_discrete b (Some 0%Z) [A1 xs; A1 ys] = Ok m /\
    best_loss (nothing xs) xs l0 /\ best_loss ys xs l1 /\ m * unit_of b = l0 - l1.
Proof.
  intros b xs ys B L NE SM. exists (MI xs ys / unit_of b), (Ent xs), (Ent (combine ys xs) - Ent ys).
  split; [apply mi2_api; assumption|]. split; [apply best_nothing; exact NE|]. split; [apply best_is_entropy; [symmetry; exact L|exact NE]|].
  rewrite (swap_Ent ys xs). unfold MI. field. apply unit_neq0, big_valid, B.
Qed.
Print Assumptions C106_mi_is_loss_reduction.

Lemma rotate_Ent {A B C} `{EqDec A} `{EqDec B} `{EqDec C} (f : list A) (sh : list B) (dh : list C) :
  Ent (combine (combine sh dh) f) = Ent (combine (combine f sh) dh).
Proof.
  replace (combine (combine sh dh) f) with (map (fun p : A * B * C => (snd (fst p), snd p, fst (fst p))) (combine (combine f sh) dh)).
  - apply Ent_map_inj. intros [[x y] z] [[x' y'] z'] _ _. cbn. congruence.
  - revert sh dh. induction f as [|x f IH]; intros [|y sh] [|z dh]; try reflexivity. cbn [combine map fst snd]. rewrite IH. reflexivity.
Qed.

Lemma drop_first {A B C} (sh : list A) (dh : list B) (f : list C) y z x : length sh = length f -> length dh = length f ->
  In (y, z, x) (combine (combine sh dh) f) -> In (z, x) (combine dh f).
Proof.
  revert dh f. induction sh as [|a sh IH]; intros [|c dh] [|x0 f] L1 L2 I1; try discriminate; try (destruct I1; fail).
  cbn [combine] in *. destruct I1 as [I1|I1]; [left; congruence|right; apply (IH dh f); [simpl in L1; lia|simpl in L2; lia|exact I1]].
Qed.

(** transfer entropy: how much better the next value of the destination can be predicted from both pasts than from its own *)
Theorem C106_te_is_loss_reduction : forall b xs ys l k s n, valid_base b ->
  length xs = n -> length ys = n -> (1 <= l)%nat -> (1 <= k)%nat -> (1 <= s)%nat -> (Nat.max k l * s < n)%nat -> small2 n ->
  let ts := base_times n (Nat.max k l * s) s in
  let next := presents 0%Z ys ts in let own := pasts 0%Z ys s k ts in let source := pasts 0%Z xs s l ts in
  exists v l0 l1, te_discrete b (A1 xs) (A1 ys) (te_kw l k s) = Ok v /\
    best_loss own next l0 /\ best_loss (combine source own) next l1 /\ v * unit_of b = l0 - l1 /\
    (v * unit_of b = l0 <-> determines (combine source own) next) /\ (determines own next -> v = 0).
Proof.
  intros b xs ys l k s n V Lx Ly Hl Hk Hs Hd Hn ts f dh sh. pose proof (unit_neq0 b V) as U0.
  assert (L1 : length sh = length f) by (unfold f, sh; rewrite presents_length, pasts_length; reflexivity).
  assert (L2 : length dh = length f) by (unfold f, dh; rewrite presents_length, pasts_length; reflexivity).
  assert (L3 : length (combine sh dh) = length f) by (rewrite combine_length; lia).
  assert (NT : f <> []).
  { assert (NB : In (Nat.max k l * s)%nat ts) by (unfold ts; rewrite base_times_In by exact Hs; repeat split; try lia; exists 0%nat; lia).
    unfold f, presents. destruct ts; [destruct NB|discriminate]. }
  assert (E : CMI f sh dh = (Ent (combine dh f) - Ent dh) - (Ent (combine (combine sh dh) f) - Ent (combine sh dh))).
  { unfold CMI. rewrite (swap_Ent dh f), (rotate_Ent f sh dh). ring. }
  exists (CMI f sh dh / unit_of b), (Ent (combine dh f) - Ent dh), (Ent (combine (combine sh dh) f) - Ent (combine sh dh)).
  split; [apply (C19_te_is_conditional_mi b xs ys l k s n); assumption|].
  split; [apply best_is_entropy; assumption|]. split; [apply best_is_entropy; assumption|].
  replace (CMI f sh dh / unit_of b * unit_of b) with (CMI f sh dh) by (field; exact U0).
  split; [exact E|]. split.
  - rewrite <- (Ent_determined (combine sh dh) f L3). lra.
  - intros D. assert (Z : CMI f sh dh = 0); [|rewrite Z; unfold Rdiv; ring].
    rewrite E. pose proof (proj2 (Ent_determined dh f L2) D) as E1. rewrite E1.
    assert (D2 : determines (combine sh dh) f).
    { intros [y z] x x' I1 I2. apply (D z x x'); apply (drop_first sh dh f y); assumption. }
    pose proof (proj2 (Ent_determined (combine sh dh) f L3) D2) as E2. rewrite E2. ring.
Qed.
Print Assumptions C106_te_is_loss_reduction.

(** mutual information reaches the entropy exactly when the other variable decides it *)
Theorem C106_mi_determined : forall b xs ys, big_base b -> length xs = length ys -> xs <> [] -> small2 (length xs) ->
  exists m hx hy, mi_discrete b (Some 0%Z) [A1 xs; A1 ys] = Ok m /\ entropy_discrete b (EArr (A1 xs)) = Ok hx /\ entropy_discrete b (EArr (A1 ys)) = Ok hy /\
    (m = hx <-> determines ys xs) /\ (m = hy <-> determines xs ys).
Proof.
  intros b xs ys B L NE SM. pose proof (big_valid b B) as V. assert (NY : ys <> []) by (intros ->; destruct xs; [congruence|discriminate]).
  exists (MI xs ys / unit_of b), (Ent xs / unit_of b), (Ent ys / unit_of b).
  split; [apply mi2_api; assumption|]. split; [apply entropy_1d; assumption|]. split; [apply entropy_1d; assumption|].
  rewrite !(big_eq b _ _ B), <- (Ent_determined ys xs (eq_sym L)), <- (Ent_determined xs ys L), (swap_Ent ys xs). unfold MI. split; split; lra.
Qed.
Print Assumptions C106_mi_determined.

(** Fano: any rule that guesses the first variable from the second errs at least so often *)
Theorem C106_fano : forall b xs ys (guess : Z -> Z), big_base b -> length xs = length ys -> xs <> [] -> small2 (length xs) ->
  (2 <= nvals xs)%nat -> (forall y, In y ys -> In (guess y) xs) ->
  exists m h, mi_discrete b (Some 0%Z) [A1 xs; A1 ys] = Ok m /\ entropy_discrete b (EArr (A1 xs)) = Ok h /\
    let e := share (fun p => negb (snd p =? guess (fst p))%Z) (combine ys xs) in
    (h - m) * unit_of b <= coin e + e * ln (INR (nvals xs) - 1).
Proof.
  intros b xs ys g B L NE SM K2 G. pose proof (big_valid b B) as V.
  exists (MI xs ys / unit_of b), (Ent xs / unit_of b). split; [apply mi2_api; assumption|]. split; [apply entropy_1d; assumption|].
  intros e. replace ((Ent xs / unit_of b - MI xs ys / unit_of b) * unit_of b) with (Ent (combine ys xs) - Ent ys).
  2:{ rewrite (swap_Ent ys xs). unfold MI. field. apply unit_neq0. exact V. }
  assert (E : e = share (fun p => negb (eqb (snd p) (g (fst p)))) (combine ys xs)).
  { unfold e, share. do 3 f_equal. apply filter_ext. intros p. f_equal. unfold eqb. destruct (eq_dec (snd p) (g (fst p))) as [Q|Q]; [apply Z.eqb_eq; exact Q|apply Z.eqb_neq; exact Q]. }
  rewrite E. apply fano; [symmetry; exact L|exact NE|exact K2|exact G].
Qed.
Print Assumptions C106_fano.

(** a guess with one error in four; a deterministic next value *)
Example C106_example :
  let xs := [0; 0; 1; 1]%Z in let ys := [5; 5; 6; 5]%Z in let g := fun y => (if y =? 5 then 0 else 1)%Z in
  (2 <= nvals xs)%nat /\ (forall y, In y ys -> In (g y) xs) /\ share (fun p => negb (snd p =? g (fst p))%Z) (combine ys xs) = 1 / 4 /\
  determines xs [7; 7; 8; 8]%Z /\ ~ determines ys xs.
Proof.
  cbv zeta. split; [vm_compute; lia|]. split; [intros y [<-|[<-|[<-|[<-|[]]]]]; simpl; auto|]. split; [unfold share; simpl; lra|]. split.
  - intros x y y' I1 I2. simpl in I1, I2. intuition congruence.
  - intros D. assert (0 = 1)%Z; [|lia]. apply (D 5%Z); simpl; auto.
Qed.
