(** Property theorems C104: merging symbols never increases entropy or a divergence. *)
From Coq Require Import Reals Lra Lia List ZArith Arith Bool Permutation.
From Verif Require Import Res RSum Spec SpecBase SpecDiv SpecPool SpecCoarse Info Info2 Gibbs Ord MBase MData MEntropy MMI MDiv PBase PEntropy PMI2 PMI4 PMI5 PCMI2 PEst4 PDiv PDiv2 PStab PropsDiv PropsMI PPool PCoarse.
Import ListNotations.
Local Open Scope R_scope.

Lemma big_eq b x y : big_base b -> (x / unit_of b = y / unit_of b <-> x = y).
Proof.
  intros B. pose proof (unit_neq0 b (big_valid b B)) as U. split; [|intros ->; reflexivity]. intros E.
  apply (Rmult_eq_reg_r (/ unit_of b)); [exact E|apply Rinv_neq_0_compat; exact U].
Qed.

Theorem C104_entropy : forall b (f : Z -> Z) xs, big_base b -> xs <> [] ->
  exists h h', entropy_discrete b (EArr (A1 xs)) = Ok h /\ entropy_discrete b (EArr (A1 (map f xs))) = Ok h' /\
    h' <= h /\ (h' = h <-> one_to_one f xs).
Proof.
  intros b f xs B NE. pose proof (big_valid b B) as V. assert (NEf : map f xs <> []) by (destruct xs; [congruence|discriminate]).
  exists (Ent xs / unit_of b), (Ent (map f xs) / unit_of b).
  split; [apply entropy_1d; assumption|]. split; [apply entropy_1d; assumption|].
  split; [apply big_div_le; [exact B|apply Ent_map_le]|]. rewrite big_eq by exact B. apply Ent_coarse.
Qed.
Print Assumptions C104_entropy.

Theorem C104_kld : forall b (f : Z -> Z) ps qs, big_base b -> ps <> [] -> incl ps qs ->
  exists k k', kld_disc b (A1 ps) (A1 qs) = Ok k /\ kld_disc b (A1 (map f ps)) (A1 (map f qs)) = Ok k' /\
    0 <= k' <= k /\ (k' = k <-> sufficient f ps qs).
Proof.
  intros b f ps qs B NE I0. pose proof (big_valid b B) as V. assert (NEf : map f ps <> []) by (destruct ps; [congruence|discriminate]).
  assert (If : incl (map f ps) (map f qs)) by (intros w Hw; apply in_map_iff in Hw; destruct Hw as (x & <- & Hx); apply in_map, I0, Hx).
  destruct (C27_kld_discrete b ps qs V NE I0) as (K1 & _). destruct (C27_kld_discrete b _ _ V NEf If) as (K2 & P2 & _).
  destruct (KL_coarse f ps qs NE I0) as [L E].
  exists (KL ps qs / unit_of b), (KL (map f ps) (map f qs) / unit_of b). split; [exact K1|]. split; [exact K2|].
  split; [split; [apply P2; exact B|apply big_div_le; assumption]|]. rewrite big_eq by exact B. exact E.
Qed.
Print Assumptions C104_kld.

Theorem C104_jsd : forall b (f : Z -> Z) ds, big_base b -> ds <> [] -> Forall (fun d => d <> []) ds ->
  exists j j', jsd_discrete b (map A1 ds) = Ok j /\ jsd_discrete b (map A1 (map (map f) ds)) = Ok j' /\
    0 <= j' <= j /\ (j' = j <-> sufficient_mix f ds).
Proof.
  intros b f ds B NE F. pose proof (big_valid b B) as V.
  assert (NEf : map (map f) ds <> []) by (destruct ds; [congruence|discriminate]).
  assert (Ff : Forall (fun d => d <> []) (map (map f) ds)).
  { apply Forall_forall. intros d Hd. apply in_map_iff in Hd. destruct Hd as (c & <- & Hc). rewrite Forall_forall in F. specialize (F c Hc). destruct c; [congruence|discriminate]. }
  destruct (C28_jsd_discrete b ds V NE F) as (K1 & _). destruct (C28_jsd_discrete b _ V NEf Ff) as (K2 & P2 & _).
  destruct (JSD_coarse f ds NE F) as [L E].
  exists (JSD ds / unit_of b), (JSD (map (map f) ds) / unit_of b). split; [exact K1|]. split; [exact K2|].
  split; [split; [apply P2; exact B|apply big_div_le; assumption]|]. rewrite big_eq by exact B. exact E.
Qed.
Print Assumptions C104_jsd.

(** merging 1 and 2 where both occur in the ratio 1 : 1 in each sample loses nothing; merging 2 and 3 does *)
Example C104_example : let ps := [1; 2; 3]%Z in let qs := [1; 2; 3; 3]%Z in
  ps <> [] /\ incl ps qs /\
  sufficient (fun x => if (x =? 2)%Z then 1%Z else x) ps qs /\ ~ one_to_one (fun x => if (x =? 2)%Z then 1%Z else x) ps /\
  ~ sufficient (fun x => if (x =? 2)%Z then 3%Z else x) ps qs.
Proof.
  cbv zeta. split; [discriminate|]. split; [intros x; simpl; tauto|]. split; [|split].
  - intros x [<-|[<-|[<-|[]]]]; unfold prob, count; simpl; lra.
  - intros O. assert (1 = 2)%Z; [|lia]. apply O; simpl; auto.
  - intros Q. specialize (Q 2%Z (or_intror (or_introl eq_refl))). unfold prob, count in Q. simpl in Q. lra.
Qed.
