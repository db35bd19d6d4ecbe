(** Property theorems: what the data arguments of an entropy request mean (C91). *)
From Coq Require Import Reals Lra Lia List ZArith Arith Bool.
From Verif Require Import Res RSum Spec Ord MBase MData MEntropy MGeneric MCtor PBase MDiv MArgs.
Import ListNotations.

(** the arguments asked for: one sequence, one tuple of sequences of the same length, or two sequences *)
Inductive request : list parg -> list einput -> Prop :=
| r_single a : request [PSeq a] [EArr a]
| r_joint cols : (forall c c', In c cols -> In c' cols -> arr_len c = arr_len c') -> request [PTup (map PSeq cols)] [ETuple cols]
| r_cross a b : request [PSeq a; PSeq b] [EArr a; EArr b].

Lemma seqs_map cols : seqs (map PSeq cols) = cols.
Proof. unfold seqs. induction cols as [|c cols IH]; cbn; [reflexivity|]. rewrite IH. reflexivity. Qed.
Lemma all_seq l : forallb is_seq l = true -> l = map PSeq (seqs l).
Proof. induction l as [|p l IH]; cbn; [reflexivity|]. intros H. apply andb_prop in H. destruct H as [H1 H2]. destruct p; try discriminate H1. cbn. f_equal. apply IH. exact H2. Qed.

(** exactly these are accepted, everything else is a ValueError *)
Theorem C91_accepted_arguments : forall args,
  (forall ins, h_args args = Ok ins <-> request args ins) /\ ((forall ins, ~ request args ins) -> h_args args = Raise ValueError).
Proof.
  intros args.
  assert (A : forall ins, request args ins -> h_args args = Ok ins).
  { intros ins [a|cols EQ|a b]; try reflexivity. cbn [h_args]. 
    assert (F : forallb is_seq (map PSeq cols) = true) by (apply forallb_forall; intros p Hp; apply in_map_iff in Hp; destruct Hp as (c & <- & _); reflexivity).
    rewrite F. cbn [negb]. cbn zeta. rewrite seqs_map. replace (existsb _ cols) with false; [reflexivity|]. symmetry.
    apply not_true_iff_false. intros E. apply existsb_exists in E. destruct E as (c & Hc & E). apply negb_true_iff, Nat.eqb_neq in E. apply E.
    apply EQ; [exact Hc|]. destruct cols; [contradiction|left; reflexivity]. }
  assert (B : forall ins, h_args args = Ok ins -> request args ins).
  { intros ins H. destruct args as [|p [|p2 [|p3 r]]]; [discriminate H| | |].
    - destruct p as [a| |l| |]; try discriminate H; [injection H as <-; constructor|].
      cbn [h_args] in H. destruct (forallb is_seq l) eqn:F; [|discriminate H]. cbn [negb] in H. cbn zeta in H.
      destruct (existsb _ (seqs l)) eqn:E; [discriminate H|]. injection H as <-. rewrite (all_seq l F) at 1. constructor.
      assert (EE : forall c, In c (seqs l) -> arr_len c = arr_len (hd (A1 []) (seqs l))).
      { intros c Hc. destruct (Nat.eqb_spec (arr_len c) (arr_len (hd (A1 []) (seqs l)))) as [Q|Q]; [exact Q|]. exfalso.
        apply not_true_iff_false in E. apply E. apply existsb_exists. exists c. split; [exact Hc|]. apply negb_true_iff, Nat.eqb_neq. exact Q. }
      intros c c' Hc Hc'. rewrite (EE c Hc), (EE c' Hc'). reflexivity.
    - destruct p as [a| |l| |]; try discriminate H. destruct p2 as [a2| |l| |]; try discriminate H. injection H as <-. constructor.
    - destruct p as [a| |l| |]; destruct p2 as [a2| |l2| |]; discriminate H. }
  split; [intros ins; split; [apply B|apply A]|].
  intros N. destruct (h_args args) as [ins|e|] eqn:E.
  - exfalso. exact (N ins (B ins eq_refl)).
  - destruct args as [|p [|p2 [|p3 r]]].
    + cbn in E. congruence.
    + destruct p as [a| |l| |]; cbn [h_args] in E; try congruence. destruct (negb _); [congruence|]. cbn zeta in E. destruct (existsb _ _); congruence.
    + destruct p as [a| |l| |]; cbn [h_args] in E; try congruence. destruct p2; congruence.
    + destruct p as [a| |l| |]; destruct p2; cbn [h_args] in E; congruence.
  - exfalso. destruct args as [|p [|p2 [|p3 r]]].
    + cbn in E. congruence.
    + destruct p as [a| |l| |]; cbn [h_args] in E; try congruence. destruct (negb _); [congruence|]. cbn zeta in E. destruct (existsb _ _); congruence.
    + destruct p as [a| |l| |]; cbn [h_args] in E; try congruence. destruct p2; congruence.
    + destruct p as [a| |l| |]; destruct p2; cbn [h_args] in E; congruence.
Qed.

(** an array gives the entropy, a tuple the joint entropy, two arrays the cross-entropy, a DiscreteData object the
    entropy of its counts *)
Theorem C91_meaning : forall e cross b,
  (forall a, discrete_entropy e cross b [PSeq a] = entropy_of e b (EArr a)) /\
  (forall cols, (forall c c', In c cols -> In c' cols -> arr_len c = arr_len c') ->
     discrete_entropy e cross b [PTup (map PSeq cols)] = entropy_of e b (ETuple cols)) /\
  (forall p q, discrete_entropy e cross b [PSeq p; PSeq q] = cross_of cross b p q) /\
  (forall d, discrete_entropy e cross b [PDD d] = e_global e b d).
Proof.
  intros e cross b. split; [|split; [|split]].
  - intros a. unfold discrete_entropy. cbn [h_args bind mapM]. unfold entropy_of. destruct (make_data (EArr a)); reflexivity.
  - intros cols EQ. unfold discrete_entropy. rewrite (proj2 (proj1 (C91_accepted_arguments [PTup (map PSeq cols)]) [ETuple cols]) (r_joint cols EQ)).
    cbn [bind mapM]. unfold entropy_of. destruct (make_data (ETuple cols)); reflexivity.
  - intros p q. unfold discrete_entropy. cbn [h_args bind mapM]. unfold cross_of. destruct (make_data (EArr p)); [|reflexivity|reflexivity]. cbn [bind]. destruct (make_data (EArr q)); reflexivity.
  - reflexivity.
Qed.

(** tuples, DiscreteData objects, strings and the like next to an array, and more than two arguments, are rejected *)
Theorem C91_rejected : forall e cross b a args,
  (forall p, is_seq p = false -> discrete_entropy e cross b [PSeq a; p] = Raise ValueError) /\
  (forall p, is_seq p = false -> (forall d, p <> PDD d) -> discrete_entropy e cross b (p :: PSeq a :: args) = Raise ValueError) /\
  (forall x y z, (forall d, x <> PDD d) -> discrete_entropy e cross b (x :: y :: z :: args) = Raise ValueError) /\
  discrete_entropy e cross b [PStr] = Raise ValueError /\ discrete_entropy e cross b [POther] = Raise ValueError /\
  (forall l p, In p l -> is_seq p = false -> discrete_entropy e cross b [PTup l] = Raise ValueError) /\
  (forall cols c c', In c cols -> In c' cols -> arr_len c <> arr_len c' -> discrete_entropy e cross b [PTup (map PSeq cols)] = Raise ValueError) /\
  discrete_entropy e cross b [] = Raise IndexError.
Proof.
  intros e cross b a args. repeat split.
  - intros p H. destruct p; try discriminate H; reflexivity.
  - intros p H N. destruct p as [x| |l|d|]; try discriminate H; try reflexivity. elim (N d). reflexivity.
  - intros x y z N. destruct x as [x| |l|d|]; try (elim (N d); reflexivity); destruct y; reflexivity.
  - intros l p Hp H. unfold discrete_entropy. cbn [h_args]. assert (F : forallb is_seq l = false).
    { apply not_true_iff_false. intros F. rewrite forallb_forall in F. rewrite (F p Hp) in H. discriminate. }
    rewrite F. reflexivity.
  - intros cols c c' Hc Hc' N. unfold discrete_entropy. rewrite (proj2 (C91_accepted_arguments [PTup (map PSeq cols)])); [reflexivity|].
    intros ins R. inversion R as [|cols' EQ E1 E2|]; subst.
    assert (cols' = cols). { rewrite <- (seqs_map cols'), E1, seqs_map. reflexivity. } subst. apply N. apply EQ; assumption.
Qed.

(** the same for the constructor model of C42 *)
Definition typed (i : cin) : parg :=
  match i with IArr (EArr a) => PSeq a | IArr (ETuple cols) => PTup (map PSeq cols) | IDD d => PDD d end.
Theorem C91_constructor : forall e cross b args, dh_entropy e cross b args = discrete_entropy e cross b (map typed args).
Proof.
  intros e cross b args.
  assert (T : forall cols, discrete_entropy e cross b [PTup (map PSeq cols)] = let* d := make_data (ETuple cols) in e_global e b d).
  { intros cols. unfold discrete_entropy. cbn [h_args].
    assert (F : forallb is_seq (map PSeq cols) = true) by (apply forallb_forall; intros p Hp; apply in_map_iff in Hp; destruct Hp as (c & <- & _); reflexivity).
    rewrite F. cbn [negb]. cbn zeta. rewrite seqs_map. cbn [make_data].
    replace (arr_len (hd (A1 []) cols)) with (match cols with [] => 0%nat | a :: _ => arr_len a end) by (destruct cols; reflexivity).
    destruct (existsb _ cols) eqn:X; [reflexivity|]. cbn [bind mapM make_data]. rewrite X. destruct (bind (reduce_joint_space _) _); reflexivity. }
  destruct args as [|[[a|cols]|d] [|[[a2|cols2]|d2] [|x r]]]; cbn [map typed]; try reflexivity.
  - unfold dh_entropy, discrete_entropy. cbn [dh_init convert h_args bind mapM]. cbv [is_tuple is_dd orb].
    destruct (make_data (EArr a)); [|reflexivity|reflexivity]. cbn [bind]. destruct (make_data (EArr a2)); reflexivity.
  - rewrite T. unfold dh_entropy. cbn [dh_init convert]. destruct (make_data (ETuple cols)); reflexivity.
Qed.

(** a DiscreteData object in first place: everything after it is ignored, so that a cross-entropy requested for two
    such objects is the entropy of the first *)
Theorem C91_discrete_data_cross_refuted :
  (forall e cross b d rest, discrete_entropy e cross b (PDD d :: rest) = e_global e b d) /\
  exists d d' : ddata, from_counts [0; 1]%Z [1; 1]%Z = Ok d /\ from_counts [0; 1]%Z [1; 3]%Z = Ok d' /\
    discrete_entropy est_discrete discrete_cross BE [PDD d; PDD d'] = Ok (ln 2) /\
    exists h, discrete_cross BE d d' = Ok h /\ (ln 2 < h)%R.
Proof.
  split; [reflexivity|].
  exists (mkDD [0; 1]%Z [1; 1]%Z None), (mkDD [0; 1]%Z [1; 3]%Z None). split; [reflexivity|]. split; [reflexivity|].
  assert (L : forall x, (0 < x)%R -> log_base BE x = Ok (ln x)).
  { intros x Hx. rewrite (log_base_ok BE x Logic.I Hx). f_equal. cbn. field. }
  split.
  - cbn [discrete_entropy]. unfold e_global, est_discrete. cbn [e_calc]. unfold discrete_simple, plogp, probabilities, dd_N. cbn [dd_data dd_counts sumZ fold_right map mapM Z.add Pos.add].
    replace (IZR 1 / IZR 2)%R with (/ 2)%R by (unfold Rdiv; ring).
    cbn [mapM bind]. rewrite !L by lra. cbn. f_equal. rewrite ln_Rinv by lra. lra.
  - exists (- (1 / 2 * ln (1 / 4) + 1 / 2 * ln (3 / 4)))%R. split.
    + unfold discrete_cross. change (common _ _) with [0; 1]%Z. unfold cross_sum. cbn [dd_uniq]. change (common _ _) with [0; 1]%Z.
      unfold distribution_dict, probabilities, dd_N. cbn [dd_data dd_counts dd_uniq sumZ fold_right map combine Z.add Pos.add].
      unfold dget_exn. cbn [mapM dget Z.eq_dec]. cbn. rewrite !L by lra. cbn. f_equal. ring.
    + replace (1 / 4)%R with (/ 4)%R by lra. replace (3 / 4)%R with (3 * / 4)%R by lra. rewrite ln_mult by lra. rewrite !ln_Rinv by lra.
      replace 4%R with (2 * 2)%R by lra. rewrite ln_mult by lra.
      assert (T : (ln 3 < 2 * ln 2)%R). { replace (2 * ln 2)%R with (ln 4) by (replace 4%R with (2 * 2)%R by lra; rewrite ln_mult by lra; ring). apply ln_increasing; lra. }
      lra.
Qed.

Example C91_example : request [PTup [PSeq (A1 [0; 1]%Z); PSeq (A1 [2; 2]%Z)]] [ETuple [A1 [0; 1]%Z; A1 [2; 2]%Z]].
Proof. apply (r_joint [A1 [0; 1]%Z; A1 [2; 2]%Z]). intros c c' [<-|[<-|[]]] [<-|[<-|[]]]; reflexivity. Qed.
