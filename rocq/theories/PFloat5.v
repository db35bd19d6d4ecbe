(** Proofs: accuracy of the double-precision mutual information and conditional mutual information. *)
From Coq Require Import Reals Lra Lia List ZArith Arith Bool Permutation Psatz.
From Flocq Require Import Core Relative.
From Verif Require Import Res RSum Spec SpecBase Info Info2 Ord MBase MData MEntropy MMI MTE PBase PEntropy PCoo PMI PMI2 PCMI
  MFloat SpecFloat MFloat2 PFloat PFloat2 PFloat3 PFloat4.
Import ListNotations.
Local Open Scope R_scope.

(** ** one cell *)
Section Terms.
Variables (K p q e : R).
Hypothesis UK : unit_ok K.
Hypothesis UP : unit_ok (p * K).
Hypothesis p0 : 0 < p.
Hypothesis Q : (1 - uro) * p <= q <= (1 + uro) * p.
Hypothesis e01 : 0 <= e <= / 4.

Lemma uu : uro * uro <= uro * / 1000 /\ 0 <= e * uro <= uro * / 4 /\ 0 <= uro * uro /\ 0 < uro <= / 1000.
Proof using e01. pose proof uro_pos. pose proof uro_small. repeat split; nra. Qed.

Lemma term_nd k lv ln_ lo LV LN LO : 2 <= k ->
  ap K 1 (1 * e + 5 * uro) lv LV -> ap K 1 (1 * e + 5 * uro) ln_ LN -> ap K k (k * e + 5 * uro) lo LO ->
  ap (p * K) (2 * k + 2) ((2 * k + 2) * e + (17 * k + 32) * uro)
     (f_combine q (fl (lv - ln_)) (fl (- lo + fl (k * ln_)))) (p * (LV - LN) + p * (- LO + k * LN)).
Proof using UK UP p0 Q e01.
  intros k1 A1 A2 A3. destruct uu as (F1 & F2 & F3 & F4). assert (k0 : 0 <= k) by lra.
  assert (G1 : k * (uro * uro) <= k * (uro * / 1000)) by (apply Rmult_le_compat_l; lra).
  assert (G2 : 0 <= k * (e * uro) <= k * (uro * / 4)) by (split; [apply Rmult_le_pos; lra|apply Rmult_le_compat_l; lra]).
  assert (G3 : 0 <= k * uro) by (apply Rmult_le_pos; lra). assert (G6 : 2 * uro <= k * uro) by (apply Rmult_le_compat_r; lra). assert (G4 : 0 <= k * e) by (apply Rmult_le_pos; lra). assert (G5 : 0 <= k * (uro * uro)) by (apply Rmult_le_pos; lra).
  assert (B1 : ap K 2 (2 * e + 14 * uro) (fl (lv - ln_)) (LV - LN)).
  { eapply ap_weaken; [exact UK|apply ap_fl; [exact UK|apply ap_minus; [exact A1|exact A2]]| |]; lra. }
  assert (B2 : ap K k (k * e + (6.3 * k + 1) * uro) (fl (k * ln_)) (k * LN)).
  { eapply ap_weaken; [exact UK|apply ap_fl; [exact UK|apply ap_scale; [exact k0|exact A2]]| |]; lra. }
  assert (B3 : ap K (2 * k) (2 * k * e + (8.9 * k + 7.1) * uro) (fl (- lo + fl (k * ln_))) (- LO + k * LN)).
  { eapply ap_weaken; [exact UK|apply ap_fl; [exact UK|apply ap_plus; [apply ap_opp; exact A3|exact B2]]| |]; lra. }
  assert (D1 : ap (p * K) 2 (2 * e + 16.6 * uro) (q * fl (lv - ln_)) (p * (LV - LN))).
  { eapply ap_weaken; [exact UP|apply ap_weight; [exact UK| |exact p0|exact Q|exact B1]| |]; lra. }
  assert (D2 : ap (p * K) 2 (2 * e + 20.2 * uro) (fl (q * fl (lv - ln_))) (p * (LV - LN))).
  { eapply ap_weaken; [exact UP|apply ap_fl; [exact UP|exact D1]| |]; lra. }
  pose proof (fun A => ap_weight K _ _ _ _ p q UK A p0 Q B3) as D3.
  assert (D4 : ap (p * K) (2 * k) (2 * k * e + (11.5 * k + 7.2) * uro) (q * fl (- lo + fl (k * ln_))) (p * (- LO + k * LN))).
  { eapply ap_weaken; [exact UP|apply D3| |]; lra. }
  assert (D5 : ap (p * K) (2 * k) (2 * k * e + (14.1 * k + 8.3) * uro) (fl (q * fl (- lo + fl (k * ln_)))) (p * (- LO + k * LN))).
  { eapply ap_weaken; [exact UP|apply ap_fl; [exact UP|exact D4]| |]; lra. }
  eapply ap_weaken; [exact UP|unfold f_combine; apply ap_fl; [exact UP|apply ap_plus; [exact D2|exact D5]]| |]; lra.
Qed.

Lemma term_2d lv ln_ lo l1 l2 LV LN LO :
  ap K 1 (1 * e + 5 * uro) lv LV -> ap K 1 (1 * e + 5 * uro) ln_ LN -> ap K 1 (1 * e + 5 * uro) l1 LN -> ap K 1 (1 * e + 5 * uro) l2 LN -> ap K 2 (2 * e + 5 * uro) lo LO ->
  ap (p * K) 6 (6 * e + 66 * uro)
     (f_combine q (fl (lv - ln_)) (fl (fl (- lo + l1) + l2))) (p * (LV - LN) + p * (- LO + LN + LN)).
Proof using UK UP p0 Q e01.
  intros A1 A2 A2' A2'' A3. destruct uu as (F1 & F2 & F3 & F4).
  assert (B1 : ap K 2 (2 * e + 13.52 * uro) (fl (lv - ln_)) (LV - LN)).
  { eapply ap_weaken; [exact UK|apply ap_fl; [exact UK|apply ap_minus; [exact A1|exact A2]]| |]; lra. }
  assert (B2 : ap K 3 (3 * e + 14.8 * uro) (fl (- lo + l1)) (- LO + LN)).
  { eapply ap_weaken; [exact UK|apply ap_fl; [exact UK|apply ap_plus; [apply ap_opp; exact A3|exact A2']]| |]; lra. }
  assert (B3 : ap K 4 (4 * e + 25.9 * uro) (fl (fl (- lo + l1) + l2)) (- LO + LN + LN)).
  { eapply ap_weaken; [exact UK|apply ap_fl; [exact UK|apply ap_plus; [exact B2|exact A2'']]| |]; lra. }
  assert (D1 : ap (p * K) 2 (2 * e + 16.1 * uro) (q * fl (lv - ln_)) (p * (LV - LN))).
  { eapply ap_weaken; [exact UP|apply ap_weight; [exact UK| |exact p0|exact Q|exact B1]| |]; lra. }
  assert (D2 : ap (p * K) 2 (2 * e + 19.7 * uro) (fl (q * fl (lv - ln_))) (p * (LV - LN))).
  { eapply ap_weaken; [exact UP|apply ap_fl; [exact UP|exact D1]| |]; lra. }
  pose proof (fun A => ap_weight K _ _ _ _ p q UK A p0 Q B3) as D3.
  assert (D4 : ap (p * K) (4) (4 * e + 31 * uro) (q * fl (fl (- lo + l1) + l2)) (p * (- LO + LN + LN))).
  { eapply ap_weaken; [exact UP|apply D3| |]; lra. }
  assert (D5 : ap (p * K) (4) (4 * e + 37.1 * uro) (fl (q * fl (fl (- lo + l1) + l2))) (p * (- LO + LN + LN))).
  { eapply ap_weaken; [exact UP|apply ap_fl; [exact UP|exact D4]| |]; lra. }
  eapply ap_weaken; [exact UP|unfold f_combine; apply ap_fl; [exact UP|apply ap_plus; [exact D2|exact D5]]| |]; lra.
Qed.

Lemma term_cond lv ln_ lo l1 LV LN LO :
  ap K 2 (2 * e + 5 * uro) lv LV -> ap K 1 (1 * e + 5 * uro) ln_ LN -> ap K 1 (1 * e + 5 * uro) l1 LN -> ap K 2 (2 * e + 5 * uro) lo LO ->
  ap (p * K) 6 (6 * e + 66 * uro)
     (f_combine q (fl (lv - ln_)) (fl (- lo + fl (0 + l1)))) (p * (LV - LN) + p * (- LO + LN)).
Proof using UK UP p0 Q e01.
  intros A1 A2 A2' A3. destruct uu as (F1 & F2 & F3 & F4).
  assert (B1 : ap K 3 (3 * e + 15 * uro) (fl (lv - ln_)) (LV - LN)).
  { eapply ap_weaken; [exact UK|apply ap_fl; [exact UK|apply ap_minus; [exact A1|exact A2]]| |]; lra. }
  assert (B2 : ap K 1 (1 * e + 7.5 * uro) (fl (0 + l1)) LN).
  { rewrite Rplus_0_l. eapply ap_weaken; [exact UK|apply ap_fl; [exact UK|exact A2']| |]; lra. }
  assert (B3 : ap K 3 (3 * e + 17.5 * uro) (fl (- lo + fl (0 + l1))) (- LO + LN)).
  { eapply ap_weaken; [exact UK|apply ap_fl; [exact UK|apply ap_plus; [apply ap_opp; exact A3|exact B2]]| |]; lra. }
  assert (D1 : ap (p * K) 3 (3 * e + 18.8 * uro) (q * fl (lv - ln_)) (p * (LV - LN))).
  { eapply ap_weaken; [exact UP|apply ap_weight; [exact UK| |exact p0|exact Q|exact B1]| |]; lra. }
  assert (D2 : ap (p * K) 3 (3 * e + 23.7 * uro) (fl (q * fl (lv - ln_))) (p * (LV - LN))).
  { eapply ap_weaken; [exact UP|apply ap_fl; [exact UP|exact D1]| |]; lra. }
  pose proof (fun A => ap_weight K _ _ _ _ p q UK A p0 Q B3) as D3.
  assert (D4 : ap (p * K) (3) (3 * e + 21.4 * uro) (q * fl (- lo + fl (0 + l1))) (p * (- LO + LN))).
  { eapply ap_weaken; [exact UP|apply D3| |]; lra. }
  assert (D5 : ap (p * K) (3) (3 * e + 26.3 * uro) (fl (q * fl (- lo + fl (0 + l1)))) (p * (- LO + LN))).
  { eapply ap_weaken; [exact UP|apply ap_fl; [exact UP|exact D4]| |]; lra. }
  eapply ap_weaken; [exact UP|unfold f_combine; apply ap_fl; [exact UP|apply ap_plus; [exact D2|exact D5]]| |]; lra.
Qed.
End Terms.
