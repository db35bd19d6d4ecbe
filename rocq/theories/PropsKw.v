(** Property theorems: keyword arguments of the estimators (C97). *)
From Coq Require Import List ZArith Arith Bool String Lia.
From Verif Require Import Res MEst MDisp SpecDisp SpecKw MKw PKw.
From Verif Require PropsDisp.
Import ListNotations.
Local Open Scope string_scope. Local Open Scope list_scope.

(** the value a class in the hierarchy was given for a parameter *)
Definition got {D} (r : list (string * vkw D)) (cls p : string) : option (kval D) :=
  match find (fun nb => String.eqb (fst nb) cls) r with Some nb => vget (snd nb) p | None => None end.

(** ** comparison of the symbolic result with the specification *)
Definition fails (cs : list constr) (x : string) : bool :=
  existsb (fun c => match c with CForb l => one_of l x | CAllow l => negb (one_of l x) | _ => false end) cs.
Definition conforms (cs : list constr) (A Rq : list string) : bool :=
  forallb (fun c => match c with CFalse => false | CForb l => forallb (fun a => negb (one_of l a)) A | CAllow l => forallb (one_of l) A | CReq p => one_of Rq p end) cs
  && existsb (fun c => match c with CAllow l => forallb (fun x => one_of A x || fails cs x) l | _ => false end) cs
  && forallb (fun p => existsb (fun c => match c with CReq q => String.eqb p q | _ => false end) cs) Rq.

Lemma has_In {D} (kw : kwargs D) p : has kw p = true <-> In p (map fst kw).
Proof.
  unfold has. induction kw as [|[n v] kw IH]; cbn; [split; [discriminate|contradiction]|]. destruct (String.eqb_spec n p) as [->|N]; [tauto|].
  rewrite IH. split; [tauto|intros [Q|Q]; [contradiction|exact Q]].
Qed.

Lemma conforms_ok {D} (kw : kwargs D) cs A Rq : conforms cs A Rq = true ->
  (forallb (sat kw) cs = true <-> incl (map fst kw) A /\ incl Rq (map fst kw)).
Proof.
  unfold conforms. intros C. apply andb_prop in C. destruct C as [C C3]. apply andb_prop in C. destruct C as [C1 C2].
  rewrite forallb_forall in C1, C3. split.
  - intros S. rewrite forallb_forall in S. split.
    + intros x Hx. apply existsb_exists in C2. destruct C2 as (c & Hc & C2). destruct c as [| | |l]; try discriminate C2. rewrite forallb_forall in C2.
      pose proof (S _ Hc) as S0. cbn [sat] in S0. rewrite forallb_forall in S0. specialize (C2 x (proj1 (one_of_In _ _) (S0 x Hx))).
      apply orb_prop in C2. destruct C2 as [C2|C2]; [apply one_of_In; exact C2|]. exfalso.
      unfold fails in C2. apply existsb_exists in C2. destruct C2 as (c & Hc' & C2). specialize (S _ Hc'). destruct c as [|l'| |l']; try discriminate C2; cbn [sat] in S; rewrite forallb_forall in S; specialize (S x Hx).
      * rewrite C2 in S. discriminate S.
      * rewrite S in C2. discriminate C2.
    + intros p Hp. specialize (C3 p Hp). apply existsb_exists in C3. destruct C3 as (c & Hc & C3). destruct c as [| |q|]; try discriminate C3. apply String.eqb_eq in C3. subst q.
      apply has_In. exact (S _ Hc).
  - intros [I1 I2]. apply forallb_forall. intros c Hc. specialize (C1 c Hc). destruct c as [|l|p|l]; cbn [sat].
    + discriminate C1.
    + apply forallb_forall. intros x Hx. rewrite forallb_forall in C1. exact (C1 x (I1 x Hx)).
    + apply has_In, I2, one_of_In, C1.
    + apply forallb_forall. intros x Hx. rewrite forallb_forall in C1. exact (C1 x (I1 x Hx)).
Qed.

Definition sgot (bs : list (string * skw)) (cls p : string) : option sval :=
  match find (fun nb => String.eqb (fst nb) cls) bs with Some nb => sget (snd nb) p | None => None end.
Definition is_user (s : option sval) (p : string) (d : option string) : bool :=
  match s with
  | Some (SUser x e) => String.eqb x p && match e, d with Some a, Some b => String.eqb a b | None, None => true | _, _ => false end
  | _ => false
  end.
Definition plain_m (m : measure) : bool := match m with MI | TE => true | _ => false end.
Definition cond_m (m : measure) : bool := match m with CMI | CTE => true | _ => false end.
(** symbolic check of one class *)
Definition class_ok (c : bool) (m : measure) (f : family) : bool :=
  match chain_of (class_of m f) with
  | None => false
  | Some ch =>
      match srun c ch [] [] with
      | None => false
      | Some (cs, bs) =>
          if c && plain_m m then existsb (fun k => match k with CFalse => true | _ => false end) cs
          else conforms cs (allowed m f) (required m f)
               && (negb c && cond_m m || forallb (fun pd => forallb (fun w => is_user (sgot bs w (fst pd)) (fst pd) (snd pd)) (worker m f (fst pd))) (params m f))
               && (negb (c && has_cond m) || is_user (sgot bs (general m) "cond") "cond" (Some "None"))
               && match m with H => match sgot bs "RandomGeneratorMixin" "seed" with None => true | s => is_user s "seed" (Some "None") end | _ => true end
      end
  end.
Lemma classes_ok : forallb (fun m => forallb (fun f => class_ok true m f && class_ok false m f) families) PropsDisp.measures = true.
Proof. vm_compute. reflexivity. Qed.

Lemma class_ok_all c m f : In f families -> class_ok c m f = true.
Proof.
  intros If. pose proof classes_ok as Q. rewrite forallb_forall in Q. specialize (Q m (PropsDisp.measures_all m)). rewrite forallb_forall in Q. specialize (Q f If).
  apply andb_prop in Q. destruct Q, c; assumption.
Qed.

Lemma run_pass {D} (C : checks D) chain v : is_dd C = false -> (forall n b, before C n b = Ok tt) -> (forall n b, after C n b = Ok tt) ->
  run C chain v = run free chain v.
Proof.
  intros ND B A. revert v. induction chain as [|l rest IH]; intros v; [reflexivity|]. cbn [run]. rewrite ND. cbn [free is_dd before after].
  destruct (existsb _ (names v)); [reflexivity|]. destruct (bind_own (l_own l) v) as [b|e|]; cbn [bind]; [|reflexivity|reflexivity]. rewrite B. cbn [bind].
  rewrite andb_false_r. destruct (negb (l_var l) && _); [reflexivity|]. destruct (negb (Nat.eqb (List.length rest) 0) && _); [reflexivity|]. rewrite IH.
  destruct (run free rest _); cbn [bind]; [rewrite A|..]; reflexivity.
Qed.

Section Kw.
Context {D : Type}.
Implicit Types (C : checks D) (kw : kwargs D).

Lemma conc_start kw : user kw = conc kw [] [].
Proof. unfold conc. cbn [evs map app]. unfold vdrop. generalize (user kw). intros l. induction l as [|p l IH]; [reflexivity|]. cbn. f_equal. exact IH. Qed.

(** the user gives [cond], and not as None *)
Definition with_cond kw : Prop := exists v, kget kw "cond" = Some v /\ v <> ANone.
Lemma flag_cond kw : flag kw = true <-> with_cond kw.
Proof.
  unfold flag, with_cond. destruct (kget kw "cond") as [v|]; [|split; [discriminate|intros (v & Q & _); discriminate Q]].
  split; [intros Q; exists v; split; [reflexivity|intros ->; discriminate Q]|]. intros (w & Q & N). injection Q as <-. destruct v; [congruence|reflexivity..].
Qed.

Lemma construct_free m f kw : In f families -> exists cs bs, class_ok (flag kw) m f = true /\
  (exists ch, chain_of (class_of m f) = Some ch /\ srun (flag kw) ch [] [] = Some (cs, bs)) /\
  construct free (class_of m f) kw = if forallb (sat kw) cs then Ok (map (fun nb => (fst nb, evs kw (snd nb))) bs) else Raise TypeError.
Proof.
  intros If. pose proof (class_ok_all (flag kw) m f If) as Q. pose proof Q as Q0. unfold class_ok in Q. unfold construct. destruct (chain_of (class_of m f)) as [ch|]; [|discriminate Q].
  destruct (srun (flag kw) ch [] []) as [[cs bs]|] eqn:S; [|discriminate Q]. exists cs, bs. split; [exact Q0|]. split; [exists ch; split; [reflexivity|exact S]|].
  rewrite conc_start. apply srun_sound. exact S.
Qed.

(** Which keyword arguments an estimator takes.  Without complaints about data and parameter values, construction succeeds exactly
    when only parameters of the estimator are named, all required ones are given and [cond] is not given to an unconditional
    measure; otherwise it is a TypeError. *)
Theorem C97_keywords C m f kw : In f families -> is_dd C = false ->
  (forall n b, before C n b = Ok tt) -> (forall n b, after C n b = Ok tt) ->
  let fine := incl (map fst kw) (allowed m f) /\ incl (required m f) (map fst kw) /\ (m = MI \/ m = TE -> ~ with_cond kw) in
  (fine <-> exists r, construct C (class_of m f) kw = Ok r) /\ (~ fine -> construct C (class_of m f) kw = Raise TypeError).
Proof.
  intros If ND B A fine.
  assert (P : construct C (class_of m f) kw = construct free (class_of m f) kw) by (unfold construct; destruct (chain_of (class_of m f)); [apply run_pass; assumption|reflexivity]).
  rewrite P. destruct (construct_free m f kw If) as (cs & bs & K & (ch & Hch & S) & E). rewrite E. clear P E.
  assert (F : fine <-> forallb (sat kw) cs = true).
  { unfold class_ok in K. rewrite Hch, S in K. unfold fine. destruct (flag kw && plain_m m) eqn:X.
    - apply andb_prop in X. destruct X as [X1 X2]. apply flag_cond in X1. split.
      + intros (_ & _ & N). exfalso. apply N; [destruct m; try discriminate X2; tauto|exact X1].
      + intros Y. exfalso. apply existsb_exists in K. destruct K as (k & Hk & K). rewrite forallb_forall in Y. specialize (Y k Hk). destruct k; try discriminate K. discriminate Y.
    - apply andb_prop in K. destruct K as [K _]. apply andb_prop in K. destruct K as [K _]. apply andb_prop in K. destruct K as [K _]. rewrite (conforms_ok kw cs _ _ K). split; [tauto|].
      intros [I1 I2]. split; [exact I1|]. split; [exact I2|]. intros M W. apply flag_cond in W. rewrite W in X. destruct M as [-> | ->]; discriminate X. }
  split.
  - rewrite F. split; [intros Y; rewrite Y; eexists; reflexivity|]. intros (r & Y). destruct (forallb (sat kw) cs); [reflexivity|discriminate Y].
  - intros N. destruct (forallb (sat kw) cs) eqn:Y; [|reflexivity]. exfalso. apply N, F. reflexivity.
Qed.

Lemma construct_some C m f kw r : In f families -> is_dd C = false -> construct C (class_of m f) kw = Ok r ->
  exists cs bs, class_ok (flag kw) m f = true /\ (exists ch, chain_of (class_of m f) = Some ch /\ srun (flag kw) ch [] [] = Some (cs, bs)) /\
  forallb (sat kw) cs = true /\ r = map (fun nb => (fst nb, evs kw (snd nb))) bs.
Proof.
  intros If ND E.
  assert (F : construct free (class_of m f) kw = Ok r) by (revert E; unfold construct; destruct (chain_of (class_of m f)); [apply run_free; exact ND|discriminate]).
  destruct (construct_free m f kw If) as (cs & bs & K & S & E'). rewrite F in E'. exists cs, bs. split; [exact K|]. split; [exact S|].
  destruct (forallb (sat kw) cs); [|discriminate E']. injection E' as ->. split; reflexivity.
Qed.

(** whatever the checks do, an object is only constructed from such keyword arguments *)
Theorem C97_only_parameters C m f kw r : In f families -> is_dd C = false -> construct C (class_of m f) kw = Ok r ->
  incl (map fst kw) (allowed m f) /\ incl (required m f) (map fst kw) /\ (m = MI \/ m = TE -> ~ with_cond kw).
Proof.
  intros If ND E. destruct (C97_keywords free m f kw If eq_refl (fun _ _ => eq_refl) (fun _ _ => eq_refl)) as [F _]. apply F. exists r.
  revert E. unfold construct. destruct (chain_of (class_of m f)); [apply run_free; exact ND|discriminate].
Qed.

Lemma find_evs kw bs cls p : got (map (fun nb => (fst nb, evs kw (snd nb))) bs) cls p = option_map (ev kw) (sgot bs cls p).
Proof.
  unfold got, sgot. induction bs as [|[n b] bs IH]; [reflexivity|]. cbn [map find fst snd]. destruct (String.eqb n cls); [|exact IH]. cbn [snd]. apply vget_evs.
Qed.
Lemma user_ev kw s p d : is_user s p d = true ->
  option_map (ev kw) s = Some (match kget kw p with Some v => Given v | None => match d with Some t => Src t | None => Src "None" end end).
Proof.
  destruct s as [[x e|t]|]; try discriminate. cbn [is_user option_map ev]. intros Q. apply andb_prop in Q. destruct Q as [Q1 Q2]. apply String.eqb_eq in Q1. subst x.
  destruct e as [a|], d as [b|]; try discriminate Q2; [apply String.eqb_eq in Q2; subst|]; reflexivity.
Qed.

(** Every parameter arrives, unchanged, at the class that works with it, or its documented default does; for the
    conditional measures this includes the condition. *)
Theorem C97_values C m f kw r : In f families -> is_dd C = false -> construct C (class_of m f) kw = Ok r ->
  (m = CMI \/ m = CTE -> with_cond kw) ->
  (forall p d w, In (p, d) (params m f) -> In w (worker m f p) ->
     (forall v, kget kw p = Some v -> got r w p = Some (Given v)) /\
     (forall t, kget kw p = None -> d = Some t -> got r w p = Some (Src t))) /\
  (m = CMI \/ m = CTE -> forall v, kget kw "cond" = Some v -> got r (general m) "cond" = Some (Given v)).
Proof.
  intros If ND E W. destruct (construct_some C m f kw r If ND E) as (cs & bs & K & (ch & Hch & S) & Y & ->).
  unfold class_ok in K. rewrite Hch, S in K.
  destruct (flag kw && plain_m m) eqn:X.
  { exfalso. apply existsb_exists in K. destruct K as (k & Hk & K). rewrite forallb_forall in Y. specialize (Y k Hk). destruct k; try discriminate K. discriminate Y. }
  apply andb_prop in K. destruct K as [K _]. apply andb_prop in K. destruct K as [K K3]. apply andb_prop in K. destruct K as [K1 K2]. split.
  - intros p d w Hp Hw. apply orb_prop in K2. destruct K2 as [K2|K2].
    { exfalso. apply andb_prop in K2. destruct K2 as [A B]. assert (M : m = CMI \/ m = CTE) by (destruct m; try discriminate B; tauto). apply W, flag_cond in M. rewrite M in A. discriminate A. }
    rewrite forallb_forall in K2. specialize (K2 (p, d) Hp). cbn [fst snd] in K2. rewrite forallb_forall in K2. specialize (K2 w Hw). rewrite find_evs, (user_ev kw _ _ _ K2).
    split; [intros v ->; reflexivity|intros t -> ->; reflexivity].
  - intros M v Hv. rewrite find_evs. pose proof (proj2 (flag_cond kw) (W M)) as FL. rewrite FL in K3.
    assert (HC : has_cond m = true) by (destruct M as [-> | ->]; reflexivity). rewrite HC in K3. cbn [andb negb orb] in K3. rewrite (user_ev kw _ _ _ K3), Hv. reflexivity.
Qed.

(** the seed of MI, CMI, TE and CTE estimators is the user's, for every approach *)
Corollary C97_seed C m f kw r v : In f families -> is_dd C = false -> m <> H -> construct C (class_of m f) kw = Ok r -> (m = CMI \/ m = CTE -> with_cond kw) ->
  kget kw "seed" = Some v -> got r "RandomGeneratorMixin" "seed" = Some (Given v).
Proof.
  intros If ND M E W S. assert (I : In (opt "seed" "None") (params m f)) by (unfold params; apply in_or_app; left; destruct m; cbn; tauto).
  exact (proj1 (proj1 (C97_values C m f kw r If ND E W) "seed" _ "RandomGeneratorMixin" I (or_introl eq_refl)) v S).
Qed.

(** but no entropy takes a seed, although the nearest-neighbour entropy adds random noise: its generator is never seeded *)
Theorem C97_entropy_seed_refuted C f kw : In f families -> is_dd C = false -> In "seed" (map fst kw) ->
  (forall r, construct C (class_of H f) kw <> Ok r) /\
  ((forall n b, before C n b = Ok tt) -> (forall n b, after C n b = Ok tt) -> construct C (class_of H f) kw = Raise TypeError).
Proof.
  intros If ND S. assert (N : ~ In "seed" (allowed H f)).
  { revert f If. apply Forall_forall. repeat (constructor; [cbn; intuition discriminate|]). constructor. }
  split.
  - intros r E. apply N, (proj1 (C97_only_parameters C H f kw r If ND E)), S.
  - intros B A. apply (C97_keywords C H f kw If ND B A). intros (I & _). apply N, I, S.
Qed.
Theorem C97_metric_noise_unseeded C kw r : is_dd C = false ->
  construct C "infomeasure.estimators.entropy.kozachenko_leonenko.KozachenkoLeonenkoEntropyEstimator" kw = Ok r ->
  got r "RandomGeneratorMixin" "seed" = Some (Src "None").
Proof.
  intros ND E. set (f := mkFamily ["metric"; "kl"] ["metric"; "ksg"] "kozachenko_leonenko" "KozachenkoLeonenko" "kraskov_stoegbauer_grassberger" "KSG").
  assert (If : In f families) by (cbn; tauto). change (construct C (class_of H f) kw = Ok r) in E.
  assert (NS : kget kw "seed" = None).
  { destruct (kget kw "seed") as [v|] eqn:S; [|reflexivity]. exfalso. apply (proj1 (C97_entropy_seed_refuted C f kw If ND (proj1 (has_In kw "seed") ltac:(unfold has; rewrite S; reflexivity))) r E). }
  destruct (construct_some C H f kw r If ND E) as (cs & bs & K & (ch & Hch & S) & Y & ->). rewrite find_evs.
  unfold class_ok in K. rewrite Hch, S in K. cbn [plain_m] in K. rewrite andb_false_r in K. apply andb_prop in K. destruct K as [_ K].
  assert (Q : sgot bs "RandomGeneratorMixin" "seed" <> None).
  { clear K. revert S. assert (HC : chain_of (class_of H f) = chain_h "kozachenko_leonenko") by (vm_compute; reflexivity). rewrite HC in Hch. injection Hch as <-.
    destruct (flag kw); vm_compute; intros Q; injection Q as _ <-; discriminate. }
  destruct (sgot bs "RandomGeneratorMixin" "seed") as [s|] eqn:G; [|congruence]. rewrite (user_ev kw _ _ _ K), NS. reflexivity.
Qed.

(** normalisation is refused where symbols are compared directly: discrete, Miller-Madow, ordinal *)
Theorem C97_no_normalize C m f kw r : In f families -> is_dd C = false -> (m = MI \/ m = CMI) ->
  In (f_mod f) ["discrete"; "miller_madow"; "ordinal"] -> construct C (class_of m f) kw = Ok r ->
  ~ In "normalize" (map fst kw) /\ (m = CMI -> with_cond kw -> got r (general m) "normalize" = Some (Src "False")) /\
  (m = MI -> got r (general m) "normalize" = Some (Src "False")).
Proof.
  intros If ND M F E. split.
  - intros N. pose proof (proj1 (C97_only_parameters C m f kw r If ND E) _ N) as I. clear - M F If I. revert F I. revert f If. apply (Forall_forall (fun f => In (f_mod f) ["discrete"; "miller_madow"; "ordinal"] -> In "normalize" (allowed m f) -> False)).
    destruct M as [-> | ->]; repeat (constructor; [cbn; intuition discriminate|]); constructor.
  - destruct (construct_some C m f kw r If ND E) as (cs & bs & K & (ch & Hch & S) & Y & ->).
    assert (Q : sgot bs (general m) "normalize" = Some (SConst "False")).
    { clear - M F If Hch S. revert Hch S. generalize (flag kw). intros c. revert f If F. apply (Forall_forall (fun f => In (f_mod f) ["discrete"; "miller_madow"; "ordinal"] -> chain_of (class_of m f) = Some ch -> srun c ch [] [] = Some (cs, bs) -> sgot bs (general m) "normalize" = Some (SConst "False"))).
      destruct M as [-> | ->]; destruct c; (repeat (constructor; [try (cbn [f_mod plain In]; intros F; exfalso; clear - F; decompose [or] F; try discriminate; contradiction)|]); [..|constructor]).
      all: intros _ Hch; vm_compute in Hch; injection Hch as <-; vm_compute; intros S; injection S as _ <-; reflexivity. }
    rewrite find_evs, Q. split; intros; reflexivity.
Qed.

(** With a DiscreteData object, the estimators without parameters of their own take any keyword, known or not *)
Theorem C97_discrete_data_refuted C f kw : In (f_hmod f) ["discrete"; "miller_madow"; "bonachela"; "chao_shen"; "chao_wang_jost"; "grassberger"; "shrink"; "zhang"] ->
  In f families -> is_dd C = true -> ~ In "self" (map fst kw) -> exists r, construct C (class_of H f) kw = Ok r.
Proof.
  intros F If DD NS.
  assert (HC : chain_of (class_of H f) = Some rest_dh).
  { revert f If F. apply (Forall_forall (fun f => In (f_hmod f) _ -> chain_of (class_of H f) = Some rest_dh)).
    repeat (constructor; [first [intros _; vm_compute; reflexivity|cbn [f_hmod plain In]; intros F; exfalso; clear - F; decompose [or] F; try discriminate; contradiction]|]). constructor. }
  unfold construct. rewrite HC. cbn [rest_dh run L_discrete_h l_pos l_own l_var l_dd bind_own bind negb andb].
  replace (existsb (fun p => one_of self p) (names (user kw))) with false.
  - rewrite DD. eexists. reflexivity.
  - symmetry. apply not_true_iff_false. intros Q. apply existsb_exists in Q. destruct Q as (p & Hp & Q). apply one_of_In in Q. destruct Q as [<-|[]]. apply NS.
    unfold names, user in Hp. rewrite map_map in Hp. exact Hp.
Qed.

Lemma dyn_class_inv m mc kw p : dyn_class m mc kw = Ok p ->
  exists a, kget kw "approach" = Some (AStr a) /\ get_estimator_class (D := D) (AStr (if flag kw then mc else m)) (AStr a) = Ok p.
Proof.
  unfold dyn_class, kget_none, flag. destruct (kget kw "approach") as [a|]; [|discriminate]. destruct (is_none a); [discriminate|].
  intros E. assert (exists s, a = AStr s) as (s & ->). { revert E. unfold get_estimator_class, get_estimator. destruct a; try (intros; eexists; reflexivity); repeat match goal with |- context [if ?b then _ else _] => destruct b end; discriminate. }
  exists s. split; [reflexivity|]. revert E. destruct (kget kw "cond") as [v|]; [destruct (is_none v)|]; cbn [negb is_none]; auto.
Qed.

(** the three API functions and the measure they stand for, given the keyword arguments *)
Definition api_functions : list ((list D -> kwargs D -> res (ctor D)) * (measure * measure)) :=
  [(call_entropy, (H, H)); (call_mutual_information, (MI, CMI)); (call_transfer_entropy, (TE, CTE))].

(** End to end: a request that succeeds names an approach of the measure and otherwise only parameters of that estimator, and each
    given value arrives where it is used *)
Theorem C97_api C call M0 M1 data kw c r : In (call, (M0, M1)) api_functions -> is_dd C = false ->
  call data kw = Ok c -> construct C (c_class c) (c_kw c) = Ok r ->
  exists f a, In f families /\ kget kw "approach" = Some (AStr a) /\
  let M := if flag kw then M1 else M0 in
  In (lower a) (approach_names M f) /\
  incl (map fst kw) ("approach" :: "EstimatorClass" :: allowed M f) /\ incl (required M f) (map fst kw) /\
  (forall p d w v, In (p, d) (params M f) -> In w (worker M f p) -> kget kw p = Some v -> got r w p = Some (Given v)) /\
  (M <> H -> forall v, kget kw "cond" = Some v -> v <> ANone -> got r (general M) "cond" = Some (Given v)).
Proof.
  intros Icall ND Ec Er.
  assert (X : exists p, dyn_class (match M0 with H => "entropy" | MI => "mi" | CMI => "cmi" | TE => "te" | CTE => "cte" end)
                                  (match M1 with H => "entropy" | MI => "mi" | CMI => "cmi" | TE => "te" | CTE => "cte" end) kw = Ok p /\ c_class c = p /\ c_kw c = pass_on kw
                        /\ (M0 = M1 \/ (M0 = MI /\ M1 = CMI) \/ (M0 = TE /\ M1 = CTE))).
  { cbn [api_functions In] in Icall. destruct Icall as [Q|[Q|[Q|[]]]]; injection Q as <- <- <-.
    - unfold call_entropy in Ec. destruct (dyn_class "entropy" "entropy" kw) as [p|e|]; [|discriminate Ec|discriminate Ec]. injection Ec as <-. exists p. auto 8.
    - unfold call_mutual_information in Ec. destruct (dyn_class "mi" "cmi" kw) as [p|e|]; [|discriminate Ec|discriminate Ec]. cbn [bind] in Ec. destruct (Nat.ltb _ 2); [discriminate Ec|]. injection Ec as <-. exists p. auto 8.
    - unfold call_transfer_entropy in Ec. destruct (dyn_class "te" "cte" kw) as [p|e|]; [|discriminate Ec|discriminate Ec]. cbn [bind] in Ec. destruct (negb _); [discriminate Ec|]. injection Ec as <-. exists p. auto 8. }
  destruct X as (p & Dy & CP & KW & MM). rewrite CP in Er.
  destruct (dyn_class_inv _ _ kw p Dy) as (a & Ha & G).
  set (M := if flag kw then M1 else M0).
  assert (G' : exists s, In (lower s) (measure_names M) /\ get_estimator_class (D := D) (AStr s) (AStr a) = Ok p).
  { eexists. split; [|exact G]. unfold M. destruct (flag kw); [destruct M1|destruct M0]; cbn; tauto. }
  destruct G' as (s & Hs & G'). apply PropsDisp.C40_classes in G'. destruct G' as (M' & f & I1 & If & Ia & ->).
  assert (M' = M) as -> by (destruct M', M; try reflexivity; cbn [measure_names In] in *; exfalso; decompose [or] Hs; decompose [or] I1; congruence).
  exists f, a. split; [exact If|]. split; [exact Ha|]. cbv zeta. fold M. split; [exact Ia|]. rewrite KW in Er.
  destruct (C97_only_parameters C M f (pass_on kw) r If ND Er) as (O1 & O2 & O3).
  assert (GP : forall k, k <> "approach" -> k <> "EstimatorClass" -> kget (pass_on kw) k = kget kw k).
  { intros k N1 N2. unfold pass_on. rewrite PropsDisp.kget_kdrop. unfold one_of. cbn [existsb]. rewrite (proj2 (String.eqb_neq _ _) N1), (proj2 (String.eqb_neq _ _) N2). reflexivity. }
  assert (NP : forall k, In k (map fst (pass_on kw)) <-> In k (map fst kw) /\ k <> "approach" /\ k <> "EstimatorClass").
  { intros k. unfold pass_on, kdrop. rewrite !in_map_iff. split.
    - intros ([k' v] & <- & Hk). apply filter_In in Hk. destruct Hk as [Hk Q]. cbn [fst] in *. split; [exists (k', v); auto|]. apply negb_true_iff, not_true_iff_false in Q. split; intros ->; apply Q; apply one_of_In; cbn; tauto.
    - intros (([k' v] & <- & Hk) & N1 & N2). cbn [fst] in *. exists (k', v). split; [reflexivity|]. apply filter_In. split; [exact Hk|]. cbn [fst]. apply negb_true_iff, not_true_iff_false. intros Q. apply one_of_In in Q. cbn in Q. intuition congruence. }
  assert (WC : with_cond (pass_on kw) <-> with_cond kw) by (unfold with_cond; rewrite GP by discriminate; reflexivity).
  assert (W : M = CMI \/ M = CTE -> with_cond (pass_on kw)).
  { intros Q. apply WC, flag_cond. destruct (flag kw) eqn:FL; [reflexivity|]. exfalso. unfold M in Q.
    cbn [api_functions In] in Icall. destruct Icall as [X|[X|[X|[]]]]; injection X as _ Q0 Q1; rewrite <- Q0 in Q; destruct Q; discriminate. }
  destruct (C97_values C M f (pass_on kw) r If ND Er W) as [V1 V2].
  assert (NA : forall p, In p (map fst (params M f)) -> p <> "approach" /\ p <> "EstimatorClass").
  { intros q Hq. assert (Hq' : In q (allowed M f)) by (unfold allowed; apply in_or_app; left; exact Hq). clear - Hq' If. revert f If Hq'.
    apply (Forall_forall (fun f => In q (allowed M f) -> q <> "approach" /\ q <> "EstimatorClass")). destruct M; repeat (constructor; [cbn; intuition congruence|]); constructor. }
  split; [|split; [|split]].
  - intros k Hk. destruct (string_dec k "approach") as [->|N1]; [left; reflexivity|]. destruct (string_dec k "EstimatorClass") as [->|N2]; [right; left; reflexivity|]. right; right. apply O1, NP. auto.
  - intros k Hk. apply NP, O2, Hk.
  - intros q d w v Hq Hw Hv. destruct (NA q (in_map fst _ _ Hq)) as [N1 N2]. apply (V1 q d w Hq Hw). rewrite GP by assumption. exact Hv.
  - intros NH v Hv Nv. assert (FL : flag kw = true) by (apply flag_cond; exists v; auto).
    assert (Q : M = CMI \/ M = CTE). { unfold M. rewrite FL. cbn [api_functions In] in Icall. destruct Icall as [X|[X|[X|[]]]]; injection X as _ Q0 Q1; [exfalso; apply NH; unfold M; rewrite FL; congruence|rewrite <- Q1; tauto..]. }
    apply V2; [exact Q|]. rewrite GP by discriminate. exact Hv.
Qed.
End Kw.
Print Assumptions C97_keywords.
Print Assumptions C97_api.

(** a misspelt history length, and one that is passed on *)
Example C97_example {D} (z : D) :
  let te := "infomeasure.estimators.transfer_entropy.kernel.KernelCTEEstimator" in
  construct (D := D) free te [("cond", AData z); ("src_hist_length", AInt 2)] = Raise TypeError /\
  (exists r, construct (D := D) free te [("cond", AData z); ("src_hist_len", AInt 2); ("dest_hist_len", AInt 3); ("workers", AInt 4)] = Ok r /\
     got r "ConditionalTransferEntropyEstimator" "src_hist_len" = Some (Given (AInt 2)) /\
     got r "ConditionalTransferEntropyEstimator" "dest_hist_len" = Some (Given (AInt 3)) /\
     got r "ConditionalTransferEntropyEstimator" "cond_hist_len" = Some (Src "1") /\ got r "WorkersMixin" "workers" = Some (Given (AInt 4))).
Proof. intros te. split; [vm_compute; reflexivity|]. eexists. split; [vm_compute; reflexivity|]. repeat split. Qed.
