(** Property theorems: time-shift arguments ([prop_time], [offset]) of transfer entropy and the conditional measures (C98). *)
From Coq Require Import Reals Lra Lia List ZArith Arith Bool.
From Verif Require Import Res RSum Spec SpecBase MBase MData MMI MTE MGeneric MNsb MComb MCont MKern MKnn MFam MOrd PropsTE.
Import ListNotations.
Local Open Scope R_scope.

(** ** Specification *)
(** no shift requested: the argument is absent (None) or 0 *)
Definition no_shift (o : option num) : Prop := o = None \/ o = Some (NInt 0).
(** the shift [p] that the two arguments ask for: [prop_time], or its alias [offset], never both *)
Definition asks (prop_time offset : option num) (p : Z) : Prop :=
  (no_shift offset /\ prop_time = Some (NInt p)) \/ (no_shift prop_time /\ offset = Some (NInt p) /\ p <> 0%Z).
(** a transfer entropy constructor accepts series of [n] and [m] samples with these arguments *)
Definition te_acceptable (n m : nat) (prop_time offset : option num) (step : num) : Prop :=
  n = m /\ exists p, asks prop_time offset p /\ (p = 0%Z \/ step <> NFloat).
(** a conditional transfer entropy constructor *)
Definition cte_acceptable (n m c : nat) (prop_time offset : option num) : Prop :=
  n = m /\ n = c /\ prop_time = Some (NInt 0) /\ no_shift offset.

Definition refused {A} (r : res A) : Prop := r = Raise ValueError \/ r = Raise TypeError.

Lemma none_or_0_spec o : none_or_0 o = true <-> no_shift o.
Proof.
  unfold no_shift. destruct o as [[z|]|]; cbn; [rewrite Z.eqb_eq|..]; split; intros H; try discriminate; auto.
  - subst; auto.
  - destruct H as [H|H]; [discriminate|]. injection H as ->. reflexivity.
  - destruct H as [H|H]; discriminate.
Qed.

Lemma fte_init_spec s d p o st : (exists r, fte_init s d p o st = Ok r) <-> te_acceptable (length s) (length d) p o st.
Proof.
  unfold fte_init, te_acceptable, asks. destruct (none_or_0 o) eqn:O; cbn [negb bind].
  - apply none_or_0_spec in O. destruct (Nat.eqb_spec (length s) (length d)) as [L|L]; cbn [negb]; [|split; [intros [r H]; discriminate|intros [H _]; contradiction]].
    destruct p as [[z|]|].
    + destruct (Z.eqb_spec z 0) as [->|NZ].
      * split; [|eauto]. intros _. split; [exact L|]. exists 0%Z. split; [left; auto|auto].
      * destruct st as [sz|].
        -- split; [|intros _; destruct (0 <? z)%Z; eauto]. intros _. split; [exact L|]. exists z. split; [left; auto|right; discriminate].
        -- split; [intros [r H]; discriminate|]. intros [_ (q & [[_ E]|[[E|E] _]] & S)]; [injection E as <-|discriminate|injection E as ->; congruence].
           destruct S; congruence.
    + split; [intros [r H]; discriminate|]. intros [_ (q & [[_ E]|[[E|E] _]] & _)]; discriminate.
    + split; [intros [r H]; discriminate|]. intros [_ (q & [[_ E]|(_ & E & N)] & _)]; [discriminate|]. subst o. destruct O as [O|O]; [discriminate|]. injection O as ->. congruence.
  - assert (NO : ~ no_shift o) by (intros X; apply none_or_0_spec in X; congruence). destruct (none_or_0 p) eqn:P; cbn [bind].
    + apply none_or_0_spec in P. destruct (Nat.eqb_spec (length s) (length d)) as [L|L]; cbn [negb]; [|split; [intros [r H]; discriminate|intros [H _]; contradiction]].
      destruct o as [[z|]|]; [|split; [intros [r H]; discriminate|intros [_ (q & [[E _]|(_ & E & _)] & _)]; [contradiction|discriminate]]..].
      assert (NZ : z <> 0%Z) by (intros ->; apply NO; right; reflexivity). destruct (Z.eqb_spec z 0) as [|_]; [contradiction|].
      destruct st as [sz|].
      * split; [|intros _; destruct (0 <? z)%Z; eauto]. intros _. split; [exact L|]. exists z. split; [right; auto|right; discriminate].
      * split; [intros [r H]; discriminate|]. intros [_ (q & [[E _]|(_ & E & N)] & S)]; [contradiction|]. injection E as <-. destruct S; congruence.
    + assert (NP : ~ no_shift p) by (intros X; apply none_or_0_spec in X; congruence).
      split; [intros [r H]; discriminate|]. intros [_ (q & [[E _]|[E _]] & _)]; contradiction.
Qed.
Lemma fte_init_cases s d p o st : (exists r, fte_init s d p o st = Ok r) \/ fte_init s d p o st = Raise ValueError \/ fte_init s d p o st = Raise TypeError.
Proof.
  unfold fte_init. destruct (negb (none_or_0 o)); [destruct (none_or_0 p)|]; cbn [bind]; auto; destruct (negb _); auto.
  - destruct o as [[z|]|]; auto. destruct (z =? 0)%Z; [eauto|]. destruct st; [|auto]. destruct (0 <? z)%Z; eauto.
  - destruct p as [[z|]|]; auto. destruct (z =? 0)%Z; [eauto|]. destruct st; [|auto]. destruct (0 <? z)%Z; eauto.
Qed.
(** the discrete constructor makes the same decisions *)
Lemma te_init_cases s d p o st : (exists r, te_init s d p o st = Ok r) \/ te_init s d p o st = Raise ValueError \/ te_init s d p o st = Raise TypeError.
Proof.
  unfold te_init. destruct (negb (none_or_0 o)); [destruct (none_or_0 p)|]; cbn [bind]; auto; destruct (negb _); auto.
  - destruct o as [[z|]|]; auto. destruct (z =? 0)%Z; [eauto|]. destruct st; [|auto]. destruct (0 <? z)%Z; eauto.
  - destruct p as [[z|]|]; auto. destruct (z =? 0)%Z; [eauto|]. destruct st; [|auto]. destruct (0 <? z)%Z; eauto.
Qed.
Lemma te_init_spec s d p o st : (exists r, te_init s d p o st = Ok r) <-> te_acceptable (arr_len s) (arr_len d) p o st.
Proof.
  rewrite <- (repeat_length ([] : pt) (arr_len s)) at 1. rewrite <- (repeat_length ([] : pt) (arr_len d)) at 1. rewrite <- fte_init_spec.
  unfold te_init, fte_init. rewrite !repeat_length.
  destruct (negb (none_or_0 o)); [destruct (none_or_0 p)|]; cbn [bind]; [|split; intros [r H]; discriminate|];
    (destruct (negb _); [split; intros [r H]; discriminate|]).
  - destruct o as [[z|]|]; [|split; intros [r H]; discriminate..]. destruct (z =? 0)%Z; [split; eauto|]. destruct st; [|split; intros [r H]; discriminate]. destruct (0 <? z)%Z; split; eauto.
  - destruct p as [[z|]|]; [|split; intros [r H]; discriminate..]. destruct (z =? 0)%Z; [split; eauto|]. destruct st; [|split; intros [r H]; discriminate]. destruct (0 <? z)%Z; split; eauto.
Qed.

(** ** C98 *)
(** the numeric transfer entropies: kernel, KSG/metric, Renyi, Tsallis; [rnd]: any source randomisation *)
Definition numeric_te (E : kenv) (N : nenv) (k : kargs) (a : nargs) (e : eargs) (noise : R) (source dest : farr) (t : te_args) (rnd : rand) : list (res R) :=
  [kernel_te E k source dest t rnd; ksg_te N a source dest t rnd; fam_te Renyi N e noise source dest t rnd; fam_te Tsallis N e noise source dest t rnd].
(** the transfer entropies of symbols: discrete, Miller-Madow, and the ones that combine entropies *)
Definition symbol_te (b : base) (c : est) (E : nsb_env) (Kg : option Z) (und : R) (source dest : arr) (t : te_args) (rnd : rand) : list (res value) :=
  [rmap VNum (te_gen b None source dest t rnd); rmap VNum (te_gen b (Some b) source dest t rnd); rmap VArr (te_gen_local b None source dest t rnd);
   MGeneric.gen_te c b source dest t rnd; ansb_te und b source dest t rnd; nsb_te E Kg b source dest t rnd].

Theorem C98_te_refused_numeric : forall E N k a e noise source dest t rnd,
  ~ te_acceptable (length (rows2d source)) (length (rows2d dest)) (a_prop t) (a_offset t) (a_step t) ->
  List.Forall refused (numeric_te E N k a e noise source dest t rnd).
Proof.
  intros E N k a e noise source dest t rnd NA. rewrite <- fte_init_spec in NA.
  pose proof (fte_init_cases (rows2d source) (rows2d dest) (a_prop t) (a_offset t) (a_step t)) as C.
  destruct C as [C|C]; [contradiction|].
  unfold numeric_te, kernel_te, kernel_te_local, ksg_te, ksg_te_local, fam_te, refused.
  repeat (apply List.Forall_cons || apply List.Forall_nil); destruct C as [-> | ->]; cbn [bind]; auto.
Qed.
Theorem C98_te_refused_symbols : forall b c E Kg und source dest t rnd,
  ~ te_acceptable (arr_len source) (arr_len dest) (a_prop t) (a_offset t) (a_step t) ->
  List.Forall refused (symbol_te b c E Kg und source dest t rnd).
Proof.
  intros b c E Kg und source dest t rnd NA. rewrite <- te_init_spec in NA.
  pose proof (te_init_cases source dest (a_prop t) (a_offset t) (a_step t)) as C.
  destruct C as [C|C]; [contradiction|].
  unfold symbol_te, te_gen, te_gen_local, MGeneric.gen_te, ansb_te, nsb_te, refused.
  repeat (apply List.Forall_cons || apply List.Forall_nil); destruct C as [-> | ->]; cbn [bind rmap]; auto.
Qed.
(** what is not refused there goes on with the shift that was asked for: [offset] and [prop_time] are interchangeable *)
Theorem C98_te_alias_numeric : forall E N k a e noise source dest t rnd p x y, no_shift x -> no_shift y -> p <> 0%Z ->
  numeric_te E N k a e noise source dest (with_prop t x (Some (NInt p))) rnd =
  numeric_te E N k a e noise source dest (with_prop t (Some (NInt p)) y) rnd.
Proof.
  intros E N k a e noise source dest t rnd p x y X Y NZ.
  assert (I : forall s d st, fte_init s d x (Some (NInt p)) st = fte_init s d (Some (NInt p)) y st).
  { intros s d st. unfold fte_init. rewrite (proj2 (none_or_0_spec x) X), (proj2 (none_or_0_spec y) Y). cbn [none_or_0].
    destruct (Z.eqb_spec p 0); [contradiction|]. reflexivity. }
  unfold numeric_te, kernel_te, kernel_te_local, ksg_te, ksg_te_local, fam_te. cbn [with_prop a_prop a_offset a_step a_src a_dest a_cond]. rewrite !I. reflexivity.
Qed.
Theorem C98_te_alias_symbols : forall b c E Kg und source dest t rnd p x y, no_shift x -> no_shift y -> p <> 0%Z ->
  symbol_te b c E Kg und source dest (with_prop t x (Some (NInt p))) rnd =
  symbol_te b c E Kg und source dest (with_prop t (Some (NInt p)) y) rnd.
Proof.
  intros b c E Kg und source dest t rnd p x y X Y NZ.
  assert (I : forall s d st, te_init s d x (Some (NInt p)) st = te_init s d (Some (NInt p)) y st).
  { intros s d st. unfold te_init. rewrite (proj2 (none_or_0_spec x) X), (proj2 (none_or_0_spec y) Y). cbn [none_or_0].
    destruct (Z.eqb_spec p 0); [contradiction|]. reflexivity. }
  unfold symbol_te, te_gen, te_gen_local, ansb_te, nsb_te, MGeneric.gen_te. cbn [with_prop a_prop a_offset a_step a_src a_dest a_cond]. rewrite !I. reflexivity.
Qed.
(** shifting through the argument is shifting by hand: for [p >= 0] the source loses its last, the destination its first
    [p * step] samples *)
Theorem C98_te_shift_numeric : forall E N k a e noise X Y t rnd p s, length X = length Y -> a_step t = NInt (Z.of_nat s) -> (p * s < length X)%nat ->
  numeric_te E N k a e noise (F2 X) (F2 Y) (with_prop t (Some (NInt (Z.of_nat p))) None) rnd =
  numeric_te E N k a e noise (F2 (firstn (length X - p * s) X)) (F2 (skipn (p * s) Y)) (with_prop t (Some (NInt 0)) None) rnd.
Proof.
  intros E N k a e noise X Y t rnd p s L S B.
  assert (I : fte_init X Y (Some (NInt (Z.of_nat p))) None (NInt (Z.of_nat s)) = Ok (firstn (length X - p * s) X, skipn (p * s) Y)).
  { unfold fte_init. cbn [none_or_0 negb bind]. rewrite L, Nat.eqb_refl. cbn [negb].
    destruct (Z.eqb_spec (Z.of_nat p) 0) as [P|P].
    - assert (p = 0%nat) by lia. subst p. cbn [Nat.mul skipn]. rewrite Nat.sub_0_r, <- L, firstn_all. reflexivity.
    - destruct (Z.ltb_spec 0 (Z.of_nat p)) as [P'|]; [|lia]. rewrite <- Nat2Z.inj_mul. rewrite Z.mul_opp_l, <- Nat2Z.inj_mul.
      f_equal. f_equal.
      + unfold fupto_or, fupto. destruct (Z.eqb_spec (- Z.of_nat (p * s)) 0) as [Z0|Z0].
        * assert (Z1 : (p * s = 0)%nat) by lia. rewrite Z1, Nat.sub_0_r, <- L, firstn_all. reflexivity.
        * first [destruct (Z.ltb_spec (- Z.of_nat (p * s)) 0); [|lia]|idtac]. f_equal. lia.
      + unfold ffrom. first [destruct (Z.ltb_spec (Z.of_nat (p * s)) 0); [lia|]|idtac]. f_equal. lia. }
  assert (J : fte_init (firstn (length X - p * s) X) (skipn (p * s) Y) (Some (NInt 0)) None (NInt (Z.of_nat s)) = Ok (firstn (length X - p * s) X, skipn (p * s) Y)).
  { unfold fte_init. cbn [none_or_0 negb bind]. rewrite firstn_length, skipn_length, Nat.min_l by lia. rewrite L, Nat.eqb_refl. reflexivity. }
  unfold numeric_te, kernel_te, kernel_te_local, ksg_te, ksg_te_local, fam_te. cbn [with_prop a_prop a_offset a_step a_src a_dest a_cond rows2d]. rewrite S, !I, !J. reflexivity.
Qed.

(** ** conditional transfer entropy: no shift at all *)
Lemma fcte_init_spec s d c p o : fcte_init s d c p o = Ok tt <-> cte_acceptable (length s) (length d) (length c) p o.
Proof.
  unfold fcte_init, cte_acceptable. destruct (Nat.eqb_spec (length s) (length d)); cbn [negb orb]; [|split; [discriminate|intros [? _]; contradiction]].
  destruct (Nat.eqb_spec (length s) (length c)); cbn [negb]; [|split; [discriminate|intros (_ & ? & _); contradiction]].
  destruct p as [[z|]|]; [|split; [discriminate|intros (_ & _ & ? & _); discriminate]..].
  destruct (Z.eqb_spec z 0) as [->|NZ]; cbn [negb orb]; [|split; [discriminate|intros (_ & _ & X & _); injection X as ->; contradiction]].
  destruct (none_or_0 o) eqn:O; cbn [negb].
  - apply none_or_0_spec in O. split; auto.
  - split; [discriminate|]. intros (_ & _ & _ & X). apply none_or_0_spec in X. congruence.
Qed.
Lemma fcte_init_cases s d c p o : fcte_init s d c p o = Ok tt \/ fcte_init s d c p o = Raise ValueError.
Proof. unfold fcte_init. destruct (_ || _); auto. destruct p as [[z|]|]; auto. destruct (_ || _); auto. Qed.
Lemma cte_init_spec s d c p o : cte_init s d c p o = Ok tt <-> cte_acceptable (arr_len s) (arr_len d) (arr_len c) p o.
Proof.
  rewrite <- (repeat_length ([] : pt) (arr_len s)) at 1. rewrite <- (repeat_length ([] : pt) (arr_len d)) at 1. rewrite <- (repeat_length ([] : pt) (arr_len c)) at 1.
  rewrite <- fcte_init_spec. unfold cte_init, fcte_init. rewrite !repeat_length. reflexivity.
Qed.
Lemma cte_init_cases s d c p o : cte_init s d c p o = Ok tt \/ cte_init s d c p o = Raise ValueError.
Proof. unfold cte_init. destruct (_ || _); auto. destruct p as [[z|]|]; auto. destruct (_ || _); auto. Qed.

Definition numeric_cte (E : kenv) (N : nenv) (k : kargs) (a : nargs) (e : eargs) (noise : R) (source dest cond : farr) (t : te_args) : list (res R) :=
  [kernel_cte E k source dest cond t; ksg_cte N a source dest cond t; fam_cte Renyi N e noise source dest cond t; fam_cte Tsallis N e noise source dest cond t].
Definition symbol_cte (b : base) (c : est) (E : nsb_env) (Kg : option Z) (und : R) (source dest cond : arr) (t : te_args) : list (res value) :=
  [rmap VNum (cte_gen b None source dest cond t); rmap VNum (cte_gen b (Some b) source dest cond t); rmap VArr (cte_gen_local b None source dest cond t);
   gen_cte c b source dest cond t; ansb_cte und b source dest cond t; nsb_cte E Kg b source dest cond t].
Theorem C98_cte_refused_numeric : forall E N k a e noise source dest cond t,
  ~ cte_acceptable (length (rows2d source)) (length (rows2d dest)) (length (rows2d cond)) (a_prop t) (a_offset t) ->
  List.Forall (eq (Raise ValueError)) (numeric_cte E N k a e noise source dest cond t).
Proof.
  intros E N k a e noise source dest cond t NA. rewrite <- fcte_init_spec in NA.
  destruct (fcte_init_cases (rows2d source) (rows2d dest) (rows2d cond) (a_prop t) (a_offset t)) as [C|C]; [contradiction|].
  unfold numeric_cte, kernel_cte, kernel_cte_local, ksg_cte, ksg_cte_local, fam_cte. rewrite C. repeat constructor.
Qed.
Theorem C98_cte_refused_symbols : forall b c E Kg und source dest cond t,
  ~ cte_acceptable (arr_len source) (arr_len dest) (arr_len cond) (a_prop t) (a_offset t) ->
  List.Forall (eq (Raise ValueError)) (symbol_cte b c E Kg und source dest cond t).
Proof.
  intros b c E Kg und source dest cond t NA. rewrite <- cte_init_spec in NA.
  destruct (cte_init_cases source dest cond (a_prop t) (a_offset t)) as [C|C]; [contradiction|].
  unfold symbol_cte, cte_gen, cte_gen_local, gen_cte, ansb_cte, nsb_cte. rewrite C. repeat constructor.
Qed.

(** ** conditional mutual information: no offset at all *)
Theorem C98_cmi_offset_refused : forall E N k a f e noise o nm vars cond, o <> None -> o <> Some 0%Z ->
  kernel_cmi E k o nm vars cond = Raise ValueError /\ ksg_cmi N a o nm vars cond = Raise ValueError /\ fam_cmi f N e noise o nm vars cond = Raise ValueError.
Proof.
  intros E N k a f e noise o nm vars cond H1 H2. unfold kernel_cmi, kernel_cmi_local, ksg_cmi, ksg_cmi_local, fam_cmi.
  destruct o as [[|p|p]|]; try congruence; repeat split; reflexivity.
Qed.

Example C98_example : te_acceptable 5 5 None (Some (NInt (-2))) (NInt 1) /\ ~ te_acceptable 5 5 (Some (NInt 1)) (Some (NInt 1)) (NInt 1) /\
  cte_acceptable 5 5 5 (Some (NInt 0)) None /\ ~ cte_acceptable 5 5 5 (Some (NInt 0)) (Some (NInt 1)).
Proof.
  split; [split; [reflexivity|]; exists (-2)%Z; split; [right; split; [left; reflexivity|split; [reflexivity|discriminate]]|right; discriminate]|].
  split; [intros [_ (p & [[[H|H] _]|[[H|H] _]] & _)]; discriminate|].
  split; [repeat split; left; reflexivity|]. intros (_ & _ & _ & [H|H]); discriminate.
Qed.
Print Assumptions C98_te_shift_numeric.
