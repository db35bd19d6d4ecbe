(** C115, continued: transfer entropies, and vanishing noise. *)
From Coq Require Import Reals Lra Lia List ZArith Arith Bool Permutation.
From Verif Require Import Res RSum Spec SpecTE SpecTEc SpecBase SpecGamma MBase PBase MTE PTE2 MPct MNorm PropsPct MEst PEst PEst2 MCont SpecKern PKern PKern2 PKern3 PKern4 PKern5 PTEc MKnn SpecKnn SpecKnn2 PKnn PKnn2 PropsKnn PropsKnn2 PropsKnn3 PKnn3 PropsKnn4 PropsKnn5 PKnn4 PropsKnn6 MFam PropsKnn7 SpecFam PFam PropsFam PropsFam2 PropsFam3 SpecPert PPert PPert2 PPert3 PropsPert PropsPert2.
Import ListNotations.
Local Open Scope R_scope.

Lemma F2_map {A B C} (P : B -> C -> Prop) (f : A -> B) (g : A -> C) l : (forall x, In x l -> P (f x) (g x)) -> Forall2 P (map f l) (map g l).
Proof. induction l as [|a l IH]; intros H; cbn; constructor; [apply H; left; reflexivity|apply IH; intros x Hx; apply H; right; exact Hx]. Qed.
Lemma close_row d v w i : close d v w -> Forall2 (rel d) (nth i v []) (nth i w []).
Proof. intros C. apply (Forall2_nth_def (Forall2 (rel d))); [exact C|constructor]. Qed.
Lemma close_concat d (xs ys : list (list R)) : Forall2 (Forall2 (rel d)) xs ys -> Forall2 (rel d) (concat xs) (concat ys).
Proof. induction 1; cbn; [constructor|]. apply Forall2_app; assumption. Qed.
Lemma close_past d v w s l ts : close d v w -> close d (past_pts v s l ts) (past_pts w s l ts).
Proof.
  intros C. unfold close, past_pts, pasts. rewrite !map_map. apply F2_map. intros t _. apply close_concat. unfold past. apply F2_map. intros j _. apply close_row. exact C.
Qed.
Lemma close_present d v w ts : close d v w -> close d (present_pts v ts) (present_pts w ts).
Proof. intros C. unfold close, present_pts, presents. apply F2_map. intros t _. apply close_row. exact C. Qed.
Lemma close_rnd d v w rnd : close d v w -> close d (rnd_rows rnd v) (rnd_rows rnd w).
Proof. intros C. destruct rnd; cbn [rnd_rows]; try exact C; apply F2_map; intros j _; apply close_row; exact C. Qed.
Lemma close_joined d n vs ws : near_all d vs ws -> close d (joined n vs) (joined n ws).
Proof. intros N. unfold close, joined. apply F2_map. intros t _. apply near_sample. exact N. Qed.

Lemma transport_const f g vars data emb : emb data = vars -> (forall d data', close_data d data data' -> close_data d (emb data) (emb data')) ->
  (forall d data', close_data d data data' -> g data' = f (emb data')) -> locally_constant f vars -> locally_constant g data.
Proof.
  intros E0 HE HG (h & A & d & Hd & F). exists h. split; [rewrite (HG 0 data) by (apply close_data_refl; lra); rewrite E0; exact A|].
  exists d. split; [exact Hd|]. intros data' C. rewrite (HG d data' C). apply F. rewrite <- E0. apply HE. exact C.
Qed.
Lemma transport_cont f g vars data emb : emb data = vars -> (forall d data', close_data d data data' -> close_data d (emb data) (emb data')) ->
  (forall d data', close_data d data data' -> g data' = f (emb data')) -> continuous_in_data f vars -> continuous_in_data g data.
Proof.
  intros E0 HE HG (h & A & F). exists h. split; [rewrite (HG 0 data) by (apply close_data_refl; lra); rewrite E0; exact A|].
  intros eps He. destruct (F eps He) as (d & Hd & Q). exists d. split; [exact Hd|]. intros data' C. rewrite (HG d data' C). apply Q. rewrite <- E0. apply HE. exact C.
Qed.
Definition arr (i : nat) (l : list farr) : farr := nth i l (F1 []).
Lemma close_arr d l l' i : close_data d l l' -> close d (rows2d (arr i l)) (rows2d (arr i l')).
Proof. intros C. unfold arr. apply (Forall2_nth_def (fun x y => close d (rows2d x) (rows2d y))); [exact C|constructor]. Qed.

Section C115c.
  Context (E : nenv) (b : base) (V : valid_base b).
  Section TE.
    Variables (n ds dd l k c s : nat) (rnd : rand) (kn : nat).
    Let d := (Nat.max k l * s)%nat.
    Let m' := nrows n d s.
    Let ts := base_times n d s.
    Hypotheses (Hl : (1 <= l)%nat) (Hk : (1 <= k)%nat) (Hs : (1 <= s)%nat) (Hd : (d < n)%nat) (Hkn : (1 <= kn < m')%nat) (Hr : rnd_ok rnd m').
    Let te_emb (a : list farr) : list farr :=
      [F2 (past_pts (rows2d (arr 1 a)) s k ts); F2 (rnd_rows rnd (past_pts (rows2d (arr 0 a)) s l ts)); F2 (present_pts (rows2d (arr 1 a)) ts)].
    Lemma te_emb_close e a a' : close_data e a a' -> close_data e (te_emb a) (te_emb a').
    Proof.
      intros C. pose proof (close_arr _ _ _ 0 C) as C0. pose proof (close_arr _ _ _ 1 C) as C1. unfold te_emb. constructor; [apply close_past; exact C1|].
      constructor; [apply close_rnd, close_past; exact C0|]. constructor; [apply close_present; exact C1|constructor].
    Qed.
    Lemma te_emb_tables a : table n ds (rows2d (arr 0 a)) -> table n dd (rows2d (arr 1 a)) -> tables m' (map rows2d (te_emb a)).
    Proof.
      intros Ts Td. assert (HT : forall t, In t ts -> (d <= t < n)%nat).
      { intros t Ht. unfold ts in Ht. rewrite base_times_In in Ht by exact Hs. tauto. }
      assert (LT : length ts = m') by apply base_times_length. cbn [te_emb map rows2d]. unfold tables.
      apply Forall_cons; [exists (k * dd)%nat; rewrite <- LT; apply (past_table n); auto; intros t Ht; specialize (HT t Ht); unfold d in *; nia|].
      apply Forall_cons; [exists (l * ds)%nat; apply rnd_table; [exact Hr|]; rewrite <- LT; apply (past_table n); auto; intros t Ht; specialize (HT t Ht); unfold d in *; nia|].
      apply Forall_cons; [exists dd; rewrite <- LT; apply (present_table n); auto; intros t Ht; specialize (HT t Ht); lia|apply Forall_nil].
    Qed.
    Lemma te_tables_close a e a' : close_data e a a' -> table n ds (rows2d (arr 0 a)) -> table n dd (rows2d (arr 1 a)) -> table n ds (rows2d (arr 0 a')) /\ table n dd (rows2d (arr 1 a')).
    Proof. intros C Ts Td. split; eapply close_table; try eassumption; apply close_arr; exact C. Qed.
    Theorem C115_ksg_te : forall w source dest, table n ds (rows2d source) -> table n dd (rows2d dest) ->
      tie_free None m' kn [past_pts (rows2d dest) s k ts; rnd_rows rnd (past_pts (rows2d source) s l ts); present_pts (rows2d dest) ts] ->
      locally_constant (fun a => ksg_te E (ksg_args w MInf b kn) (arr 0 a) (arr 1 a) (te_kw l k c s) rnd) [source; dest].
    Proof.
      intros w source dest Ts Td TF.
      apply (transport_const (fun v => ksg_cmi E (ksg_args w MInf b kn) (Some 0%Z) false (tl v) (hd (F1 []) v)) _ (te_emb [source; dest]) _ te_emb); [reflexivity|intros; apply te_emb_close; assumption| |].
      - intros e a' C. destruct (te_tables_close _ _ _ C Ts Td) as [Ts' Td'].
        destruct (C73_te_is_conditional_mi E w MInf b Logic.I V n ds dd (arr 0 a') (arr 1 a') l k c s rnd kn Ts' Td' Hl Hk Hs Hd Hkn Hr) as [X _]. exact X.
      - pose proof (te_emb_tables [source; dest] Ts Td) as T. apply (C115_ksg_cmi E w b V m'); try assumption. cbn; lia.
    Qed.
    Theorem C115_family_te : forall f q source dest, is_gamma (gam E) -> table n ds (rows2d source) -> table n dd (rows2d dest) -> 0 < q < INR kn + 1 ->
      apart (Some 2) m' kn [past_pts (rows2d dest) s k ts] ->
      continuous_in_data (fun a => fam_te f E (ex_args kn q b) 0 (arr 0 a) (arr 1 a) (te_kw l k c s) rnd) [source; dest].
    Proof.
      intros f q source dest HG Ts Td Hq Ha.
      apply (transport_cont (fun v => fam_cmi f E (ex_args kn q b) 0 (Some 0%Z) false (tl v) (hd (F1 []) v)) _ (te_emb [source; dest]) _ te_emb); [reflexivity|intros; apply te_emb_close; assumption| |].
      - intros e a' C. destruct (te_tables_close _ _ _ C Ts Td) as [Ts' Td'].
        apply (C81_te_is_conditional_mi E b V f n ds dd (arr 0 a') (arr 1 a') l k c s rnd kn q Ts' Td' Hl Hk Hs Hd Hkn (proj1 Hq) Hr).
      - pose proof (te_emb_tables [source; dest] Ts Td) as T. apply (C115_family_cmi E b V HG f m'); try assumption. cbn; lia.
    Qed.
  End TE.
  Section CTE.
    Variables (n ds dd dc l k c s kn : nat).
    Let d := (Nat.max (Nat.max k l) c * s)%nat.
    Let m' := nrows n d s.
    Let ts := base_times n d s.
    Hypotheses (Hl : (1 <= l)%nat) (Hk : (1 <= k)%nat) (Hc : (1 <= c)%nat) (Hs : (1 <= s)%nat) (Hd : (d < n)%nat) (Hkn : (1 <= kn < m')%nat).
    Let cte_emb (a : list farr) : list farr :=
      [F2 (joined m' [past_pts (rows2d (arr 1 a)) s k ts; past_pts (rows2d (arr 2 a)) s c ts]); F2 (past_pts (rows2d (arr 0 a)) s l ts); F2 (present_pts (rows2d (arr 1 a)) ts)].
    Lemma cte_emb_close e a a' : close_data e a a' -> close_data e (cte_emb a) (cte_emb a').
    Proof.
      intros C. pose proof (close_arr _ _ _ 0 C) as C0. pose proof (close_arr _ _ _ 1 C) as C1. pose proof (close_arr _ _ _ 2 C) as C2. unfold cte_emb. constructor.
      - apply close_joined. constructor; [apply close_past; exact C1|]. constructor; [apply close_past; exact C2|constructor].
      - constructor; [apply close_past; exact C0|]. constructor; [apply close_present; exact C1|constructor].
    Qed.
    Lemma cte_emb_tables a : table n ds (rows2d (arr 0 a)) -> table n dd (rows2d (arr 1 a)) -> table n dc (rows2d (arr 2 a)) -> tables m' (map rows2d (cte_emb a)).
    Proof.
      intros Ts Td Tc. assert (HT : forall t, In t ts -> (d <= t < n)%nat).
      { intros t Ht. unfold ts in Ht. rewrite base_times_In in Ht by exact Hs. tauto. }
      assert (LT : length ts = m') by apply base_times_length. cbn [cte_emb map rows2d]. unfold tables.
      apply Forall_cons.
      { exists (total_dim [(k * dd)%nat; (c * dc)%nat]). apply joined_table.
        apply Forall2_cons; [rewrite <- LT; apply (past_table n); auto; intros t Ht; specialize (HT t Ht); unfold d in *; nia|].
        apply Forall2_cons; [rewrite <- LT; apply (past_table n); auto; intros t Ht; specialize (HT t Ht); unfold d in *; nia|apply Forall2_nil]. }
      apply Forall_cons; [exists (l * ds)%nat; rewrite <- LT; apply (past_table n); auto; intros t Ht; specialize (HT t Ht); unfold d in *; nia|].
      apply Forall_cons; [exists dd; rewrite <- LT; apply (present_table n); auto; intros t Ht; specialize (HT t Ht); lia|apply Forall_nil].
    Qed.
    Theorem C115_ksg_cte : forall w source dest cond, table n ds (rows2d source) -> table n dd (rows2d dest) -> table n dc (rows2d cond) ->
      tie_free None m' kn [joined m' [past_pts (rows2d dest) s k ts; past_pts (rows2d cond) s c ts]; past_pts (rows2d source) s l ts; present_pts (rows2d dest) ts] ->
      locally_constant (fun a => ksg_cte E (ksg_args w MInf b kn) (arr 0 a) (arr 1 a) (arr 2 a) (te_kw l k c s)) [source; dest; cond].
    Proof.
      intros w source dest cond Ts Td Tc TF.
      apply (transport_const (fun v => ksg_cmi E (ksg_args w MInf b kn) (Some 0%Z) false (tl v) (hd (F1 []) v)) _ (cte_emb [source; dest; cond]) _ cte_emb); [reflexivity|intros; apply cte_emb_close; assumption| |].
      - intros e a' C. pose proof (close_table _ _ _ _ _ (close_arr _ _ _ 0 C) Ts) as Ts'. pose proof (close_table _ _ _ _ _ (close_arr _ _ _ 1 C) Td) as Td'. pose proof (close_table _ _ _ _ _ (close_arr _ _ _ 2 C) Tc) as Tc'.
        exact (C73_cte_is_conditional_mi E w MInf b Logic.I V n ds dd dc (arr 0 a') (arr 1 a') (arr 2 a') l k c s kn Ts' Td' Tc' Hl Hk Hc Hs Hd Hkn).
      - pose proof (cte_emb_tables [source; dest; cond] Ts Td Tc) as T. apply (C115_ksg_cmi E w b V m'); try assumption. cbn; lia.
    Qed.
    Theorem C115_family_cte : forall f q source dest cond, is_gamma (gam E) -> table n ds (rows2d source) -> table n dd (rows2d dest) -> table n dc (rows2d cond) -> 0 < q < INR kn + 1 ->
      apart (Some 2) m' kn [joined m' [past_pts (rows2d dest) s k ts; past_pts (rows2d cond) s c ts]] ->
      continuous_in_data (fun a => fam_cte f E (ex_args kn q b) 0 (arr 0 a) (arr 1 a) (arr 2 a) (te_kw l k c s)) [source; dest; cond].
    Proof.
      intros f q source dest cond HG Ts Td Tc Hq Ha.
      apply (transport_cont (fun v => fam_cmi f E (ex_args kn q b) 0 (Some 0%Z) false (tl v) (hd (F1 []) v)) _ (cte_emb [source; dest; cond]) _ cte_emb); [reflexivity|intros; apply cte_emb_close; assumption| |].
      - intros e a' C. pose proof (close_table _ _ _ _ _ (close_arr _ _ _ 0 C) Ts) as Ts'. pose proof (close_table _ _ _ _ _ (close_arr _ _ _ 1 C) Td) as Td'. pose proof (close_table _ _ _ _ _ (close_arr _ _ _ 2 C) Tc) as Tc'.
        exact (C81_cte_is_conditional_mi E b V f n ds dd dc (arr 0 a') (arr 1 a') (arr 2 a') l k c s kn q Ts' Td' Tc' Hl Hk Hc Hs Hd Hkn (proj1 Hq)).
      - pose proof (cte_emb_tables [source; dest; cond] Ts Td Tc) as T. apply (C115_family_cmi E b V HG f m'); try assumption. cbn; lia.
    Qed.
  End CTE.
End C115c.
