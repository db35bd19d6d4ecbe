(** Property theorems C105: divergences bound differences of frequencies (Pinsker), MI is the divergence of joint from product. *)
From Coq Require Import Reals Lra Lia List ZArith Arith Bool Permutation.
From Verif Require Import Res RSum Spec SpecBase SpecDiv SpecPool SpecPinsker Info Info2 Gibbs Ord MBase MData MEntropy MMI MDiv PBase PEntropy PMI2 PMI4 PMI5 PCMI2 PEst4 PDiv PDiv2 PStab PropsDiv PropsMI PropsDiv2 PPool PCoarse PropsCoarse PPinsker.
Import ListNotations.
Local Open Scope R_scope.

Lemma unit_big b : big_base b -> 0 < unit_of b.
Proof. exact (big_unit b). Qed.

(** for every event the squared difference of its two relative frequencies is at most half the divergence in nats; so the total
    variation distance is, which is the largest such difference *)
Theorem C105_kld_pinsker : forall b ps qs, big_base b -> ps <> [] -> incl ps qs ->
  exists k, kld_disc b (A1 ps) (A1 qs) = Ok k /\
    (forall A : Z -> bool, 2 * (share A ps - share A qs)² <= k * unit_of b) /\
    2 * (TV ps qs)² <= k * unit_of b /\
    (forall A : Z -> bool, Rabs (share A ps - share A qs) <= TV ps qs) /\ (exists A : Z -> bool, share A ps - share A qs = TV ps qs) /\
    k * unit_of b <= ln (INR (length qs)).
Proof.
  intros b ps qs B NE I0. pose proof (big_valid b B) as V. pose proof (unit_neq0 b V) as U0.
  assert (NQ : qs <> []) by (intros ->; destruct ps as [|x ps]; [congruence|destruct (I0 x (or_introl eq_refl))]).
  destruct (C27_kld_discrete b ps qs V NE I0) as (K1 & _).
  exists (KL ps qs / unit_of b). split; [exact K1|]. replace (KL ps qs / unit_of b * unit_of b) with (KL ps qs) by (field; exact U0).
  split; [intros A; apply pinsker_event; assumption|]. split; [rewrite TV_attained by assumption; apply pinsker_event; assumption|].
  split; [intros A; apply TV_ge; assumption|]. split; [exists (above ps qs); symmetry; apply TV_attained; assumption|].
  assert (N : 0 < INR (length ps)) by (apply INR_pos; destruct ps; [congruence|simpl; lia]).
  assert (NQ0 : 0 < INR (length qs)) by (apply INR_pos; destruct qs; [congruence|simpl; lia]).
  apply (Rmult_le_reg_l (INR (length ps))); [exact N|]. rewrite (KL_points ps qs NE I0), <- sumf_const. apply sumf_le. intros x Hx.
  pose proof (prob_pos ps x Hx) as P1. pose proof (prob_pos qs x (I0 x Hx)) as P2. pose proof (prob_le1 ps x) as P3.
  apply ln_monotone; [apply Rdiv_lt_0_compat; assumption|].
  apply (Rmult_le_reg_r (prob qs x)); [exact P2|]. unfold Rdiv. rewrite Rmult_assoc, Rinv_l, Rmult_1_r by lra.
  apply Rle_trans with 1; [exact P3|]. unfold prob. replace (INR (length qs) * (INR (count qs x) / INR (length qs))) with (INR (count qs x)) by (field; lra).
  apply INR_ge1. unfold count. apply count_occ_In, I0, Hx.
Qed.
Print Assumptions C105_kld_pinsker.

Theorem C105_jsd_pinsker : forall b ds, big_base b -> ds <> [] -> Forall (fun d => d <> []) ds ->
  exists j, jsd_discrete b (map A1 ds) = Ok j /\
    forall (A : Z -> bool) d e, In d ds -> In e ds -> (share A d - share A e)² <= INR (length ds) * (j * unit_of b).
Proof.
  intros b ds B NE F. pose proof (big_valid b B) as V. pose proof (unit_neq0 b V) as U0.
  destruct (C28_jsd_discrete b ds V NE F) as (K1 & _). exists (JSD ds / unit_of b). split; [exact K1|].
  replace (JSD ds / unit_of b * unit_of b) with (JSD ds) by (field; exact U0). intros A d e Hd He. apply jsd_event; assumption.
Qed.
Print Assumptions C105_jsd_pinsker.

(** the mutual information is the divergence of the observed pairs from all pairs, whatever one-to-one code is used for pairs *)
Theorem C105_mi_is_kld : forall b (code : Z * Z -> Z) xs ys, big_base b -> length xs = length ys -> xs <> [] -> small2 (length xs) ->
  (forall p q, code p = code q -> p = q) ->
  mi_discrete b (Some 0%Z) [A1 xs; A1 ys] = kld_disc b (A1 (map code (combine xs ys))) (A1 (map code (list_prod xs ys))).
Proof.
  intros b code xs ys B L NE SM Inj. pose proof (big_valid b B) as V.
  assert (LC : length (combine xs ys) = length xs) by (rewrite combine_length; lia).
  assert (NC : map code (combine xs ys) <> []) by (intros E; apply (f_equal (@length Z)) in E; rewrite map_length, LC in E; destruct xs; [congruence|discriminate]).
  assert (I0 : incl (map code (combine xs ys)) (map code (list_prod xs ys))).
  { intros w Hw. apply in_map_iff in Hw. destruct Hw as (p & <- & Hp). apply in_map, combine_in_prod, Hp. }
  rewrite (proj1 (C27_kld_discrete b _ _ V NC I0)), mi2_api by assumption.
  rewrite KL_relabel by (intros p q _ _; apply Inj). rewrite MI_is_KL by assumption. reflexivity.
Qed.
Print Assumptions C105_mi_is_kld.

(** for every event on pairs: its frequency among the observed pairs against its frequency among all pairs *)
Theorem C105_mi_pinsker : forall b xs ys, big_base b -> length xs = length ys -> xs <> [] -> small2 (length xs) ->
  exists m, mi_discrete b (Some 0%Z) [A1 xs; A1 ys] = Ok m /\
    forall A : Z * Z -> bool, 2 * (share A (combine xs ys) - share A (list_prod xs ys))² <= m * unit_of b.
Proof.
  intros b xs ys B L NE SM. pose proof (unit_neq0 b (big_valid b B)) as U0. exists (MI xs ys / unit_of b). split; [apply mi2_api; assumption|].
  intros A. replace (MI xs ys / unit_of b * unit_of b) with (MI xs ys) by (field; exact U0). rewrite MI_is_KL by assumption.
  apply pinsker_event; [|apply combine_in_prod]. destruct xs, ys; try congruence; discriminate.
Qed.
Print Assumptions C105_mi_pinsker.

(** a code for pairs exists; an event with different frequencies *)
Example C105_example :
  (exists code : Z * Z -> Z, forall p q, code p = code q -> p = q) /\
  share (fun v => (v =? 1)%Z) [1; 1; 2]%Z = 2 / 3 /\ share (fun v => (v =? 1)%Z) [1; 2; 2]%Z = 1 / 3 /\
  share (fun p => (fst p =? snd p)%Z) (combine [1; 2] [1; 2])%Z = 1 /\ share (fun p => (fst p =? snd p)%Z) (list_prod [1; 2] [1; 2])%Z = 1 / 2.
Proof.
  split; [|unfold share; simpl; repeat split; lra].
  exists (fun p => let n v := if (v <? 0)%Z then (2 * (- v) - 1)%Z else (2 * v)%Z in
               2 ^ n (fst p) * (2 * n (snd p) + 1))%Z.
  intros [a1 a2] [c1 c2]. cbv zeta. cbn [fst snd].
  set (n := fun v => if (v <? 0)%Z then (2 * (- v) - 1)%Z else (2 * v)%Z).
  assert (n0 : forall v, (0 <= n v)%Z) by (intros v; unfold n; destruct (Z.ltb_spec v 0); lia).
  assert (ni : forall v w, n v = n w -> v = w) by (intros v w; unfold n; destruct (Z.ltb_spec v 0), (Z.ltb_spec w 0); lia).
  change (2 ^ n a1 * (2 * n a2 + 1) = 2 ^ n c1 * (2 * n c2 + 1) -> (a1, a2) = (c1, c2))%Z.
  intros E. assert (Q : forall x y u w, (0 <= x)%Z -> (0 <= y)%Z -> (x < y)%Z -> (2 ^ x * (2 * u + 1) = 2 ^ y * (2 * w + 1))%Z -> False).
  { clear. intros x y u w X Y Lt E. replace y with (x + (1 + (y - x - 1)))%Z in E by lia.
    rewrite Z.pow_add_r, Z.pow_add_r, Z.pow_1_r in E by lia. rewrite <- Z.mul_assoc in E. apply Z.mul_reg_l in E; [|apply Z.pow_nonzero; lia].
    assert (Ev : Z.odd (2 * u + 1) = Z.odd (2 * 2 ^ (y - x - 1) * (2 * w + 1))) by (rewrite E; reflexivity).
    rewrite (Z.add_comm (2 * u)), Z.odd_add_mul_2, <- Z.mul_assoc, Z.odd_mul in Ev. discriminate. }
  assert (E1 : n a1 = n c1).
  { destruct (Z.lt_trichotomy (n a1) (n c1)) as [C|[C|C]]; [|exact C|]; exfalso.
    - exact (Q _ _ _ _ (n0 _) (n0 _) C E).
    - exact (Q _ _ _ _ (n0 _) (n0 _) C (eq_sym E)). }
  rewrite E1 in E. apply Z.mul_reg_l in E; [|apply Z.pow_nonzero; [lia|apply n0]].
  assert (E2 : n a2 = n c2) by lia. apply ni in E1, E2. subst. reflexivity.
Qed.
