(** C07 for the Miller-Madow approach and for any number of variables; C26 for any number of variables. *)
From Coq Require Import Reals Lra Lia List ZArith Arith Bool.
From Verif Require Import Res RSum Ord Spec SpecBase Info Info2 MBase MData MEntropy MMI PBase PEntropy PCoo PMI PMI2 PMI3 PMI4 PMI5 PMI6 PCMI PCMI2 PropsMI.
Import ListNotations.
Local Open Scope R_scope.

Theorem C07_mi_mm_local_mean : forall b xs ys, big_base b -> length xs = length ys -> xs <> [] -> small2 (length xs) ->
  exists ls, mi_mm_local b (Some 0%Z) [A1 xs; A1 ys] = Ok ls /\ length ls = length xs /\ mi_mm b (Some 0%Z) [A1 xs; A1 ys] = Ok (mean ls).
Proof.
  intros b xs ys B L NE HS. pose proof (big_valid b B) as V.
  destruct (mi2_local_any b (Some b) xs ys V L NE V) as [ls [E1 [E2 E3]]].
  exists ls. unfold mi_mm_local, mi_mm. rewrite mi_init_2 by exact L. cbn [bind].
  split; [exact E1|]. split; [exact E2|]. rewrite E3. rewrite (mi2_general b xs ys (Some b)); try assumption; [|apply len_pos; exact NE].
  rewrite Rmax_left by (apply big_div_nonneg; [exact B|apply MI_nonneg; exact L]). reflexivity.
Qed.
Print Assumptions C07_mi_mm_local_mean.

Lemma constant_or_not (cols : list (list Z)) : no_constant cols \/ exists c, In c cols /\ forall x y, In x c -> In y c -> x = y.
Proof.
  induction cols as [|c cs IH]; [left; intros c []|].
  destruct (const_dec c) as [C|NC]; [right; exists c; simpl; auto|].
  destruct IH as [IH|[d [Hd Cd]]]; [|right; exists d; simpl; auto].
  left. intros d [<-|Hd]; [exact NC|apply IH; exact Hd].
Qed.
Theorem C07_mi_mm_nd_local_mean : forall b n cols,
  valid_base b -> (3 <= length cols)%nat -> all_len n cols -> (0 < n)%nat ->
  (Z.of_nat n ^ Z.of_nat (length cols) < 2 ^ 64)%Z ->
  exists ls, mi_mm_local b (Some 0%Z) (map A1 cols) = Ok ls /\ length ls = n /\
    mi_mm b (Some 0%Z) (map A1 cols) = Ok (mean ls).
Proof.
  intros b n cols V Hk HL Hn SM. assert (NE : cols <> []) by (apply length_pos_ne; lia).
  unfold mi_mm_local, mi_mm.
  rewrite (mi_init_0 (map A1 cols) n) by (rewrite ?map_length; auto using all_len_arr; lia). cbn [bind].
  destruct (constant_or_not cols) as [NC|[c [Hc Cc]]].
  - destruct (mi_local_general b (Some b) n cols V NE HL Hn NC V) as [ls [E1 [E2 E3]]].
    exists ls. split; [exact E1|]. split; [exact E2|]. rewrite (mi_nd_general b (Some b) n cols) by assumption. rewrite E3. reflexivity.
  - exists (repeat 0 n). split; [apply (mi_local_early b (Some b) n cols c); auto|].
    split; [apply repeat_length|]. rewrite mean_repeat0. apply (mi_nd_early b (Some b) n cols c); auto.
Qed.
Print Assumptions C07_mi_mm_nd_local_mean.

(** conditional mutual information of any number of variables, both approaches *)
Lemma cmi_local_mean_any b mm n cols zs : valid_base b -> (match mm with Some bb => valid_base bb | None => True end) ->
  (2 <= length cols)%nat -> all_len n cols -> length zs = n -> (0 < n)%nat -> (Z.of_nat n ^ Z.of_nat (length cols) < 2 ^ 64)%Z ->
  exists ls, cmi_local b mm (map A1 cols) (A1 zs) = Ok ls /\ length ls = n /\ cmi_global b mm (map A1 cols) (A1 zs) = Ok (mean ls).
Proof.
  intros V VB Hk HL Hz Hn SM. assert (NE : cols <> []) by (apply length_pos_ne; lia).
  assert (SM' : (Z.of_nat n ^ Z.of_nat (Nat.max 2 (length cols)) < 2 ^ 64)%Z) by (rewrite Nat.max_r by exact Hk; exact SM).
  assert (D : cmi_nontrivial cols zs \/ exists c, In c cols /\ (forall x y, In x c -> In y c -> x = y) /\ (forall x y, In x zs -> In y zs -> x = y)).
  { destruct (const_dec zs) as [Cz|(x & y & H)]; [|left; left; exists x, y; exact H].
    destruct (constant_or_not cols) as [NC|[c [Hc Cc]]]; [left; right; exact NC|right; exists c; auto]. }
  destruct D as [NT|(c & Hc & Cc & Cz)].
  - destruct (cmi_local_general cols zs n HL Hz Hn b mm V NE NT VB) as [ls [E1 [E2 E3]]].
    exists ls. split; [exact E1|]. split; [exact E2|]. rewrite (cmi_nd_general cols zs n HL Hz Hn b mm) by assumption. rewrite E3. reflexivity.
  - destruct (cmi_early cols zs n HL Hz Hn b mm c Hc Cc Cz) as [E1 E2]. exists (repeat 0 n). split; [exact E2|]. split; [apply repeat_length|]. rewrite mean_repeat0. exact E1.
Qed.
Lemma cmi_init_cols n cols (zs : list Z) : (2 <= length cols)%nat -> all_len n cols -> length zs = n -> cmi_init (map A1 cols) (length zs) = Ok tt.
Proof.
  intros Hk HL Hz. destruct cols as [|x [|y r]]; simpl in Hk; try lia. cbn [map].
  unfold all_len in HL. inversion HL as [|? ? Hx HL2]; subst. inversion HL2; subst. apply cmi_init_ok; congruence.
Qed.
Theorem C07_cmi_nd_local_mean : forall b n cols zs, valid_base b -> (2 <= length cols)%nat -> all_len n cols -> length zs = n -> (0 < n)%nat ->
  (Z.of_nat n ^ Z.of_nat (length cols) < 2 ^ 64)%Z ->
  (exists ls, cmi_discrete_local b (map A1 cols) (RArr (A1 zs)) = Ok ls /\ length ls = n /\ cmi_discrete b (map A1 cols) (RArr (A1 zs)) = Ok (mean ls)) /\
  (exists ls, cmi_mm_local b (map A1 cols) (A1 zs) = Ok ls /\ length ls = n /\ cmi_mm b (map A1 cols) (A1 zs) = Ok (mean ls)).
Proof.
  intros b n cols zs V Hk HL Hz Hn SM. pose proof (cmi_init_cols n cols zs Hk HL Hz) as EI.
  unfold cmi_discrete, cmi_discrete_local, cmi_mm, cmi_mm_local. cbn [reduce_joint_space bind arr_len]. rewrite EI. cbn [bind].
  split; apply cmi_local_mean_any; try assumption. exact Logic.I.
Qed.
Print Assumptions C07_cmi_nd_local_mean.

(** ** C26: the Miller-Madow total correlation of any number of variables *)
Theorem C26_mm_mi_nd_is_entropy_combination : forall b n cols,
  valid_base b -> (3 <= length cols)%nat -> all_len n cols -> (0 < n)%nat -> no_constant cols ->
  (Z.of_nat n ^ Z.of_nat (length cols) < 2 ^ 64)%Z ->
  exists v hs hj, mi_mm b (Some 0%Z) (map A1 cols) = Ok v /\ mapM (fun c => entropy_mm b (EArr (A1 c))) cols = Ok hs /\
    entropy_mm b (ETuple (map A1 cols)) = Ok hj /\ v = sumR hs - hj.
Proof.
  intros b n cols V Hk HL Hn NC SM. assert (NE : cols <> []) by (apply length_pos_ne; lia).
  exists (TotalCorr 0%Z n cols / unit_of b + (sumf mmc cols - mmc (rows_of 0%Z n cols)) / unit_of b),
    (map (fun c => (Ent c + mmc c) / unit_of b) cols), ((Ent (rows_of 0%Z n cols) + mmc (rows_of 0%Z n cols)) / unit_of b).
  split.
  { unfold mi_mm. rewrite (mi_init_0 (map A1 cols) n) by (rewrite ?map_length; auto using all_len_arr; lia). cbn [bind].
    apply (mi_nd_general b (Some b) n cols); assumption. }
  split.
  { assert (F : forall l : list (list Z), (forall c, In c l -> c <> []) -> mapM (fun c => entropy_mm b (EArr (A1 c))) l = Ok (map (fun c => (Ent c + mmc c) / unit_of b) l)).
    { induction l as [|c l IH]; intros Q; [reflexivity|]. cbn [mapM map]. rewrite mm_mmc by (auto; apply Q; left; reflexivity). cbn [bind]. rewrite IH; [reflexivity|]. intros d Hd. apply Q. right. exact Hd. }
    apply F. intros c Hc. apply length_pos_ne. unfold all_len in HL. rewrite Forall_forall in HL. rewrite (HL c Hc). exact Hn. }
  split; [rewrite (mm_tuple b n cols V NE HL Hn); reflexivity|].
  unfold TotalCorr, sumR. rewrite sumf_map. rewrite (sumf_div (unit_of b) (fun c => Ent c + mmc c)), (sumf_plus Ent mmc).
  unfold Rdiv. ring.
Qed.
Print Assumptions C26_mm_mi_nd_is_entropy_combination.

Example C07_mm_example : big_base (BNum 2) /\ small2 (length [0; 1; 1; 2]%Z) /\ no_constant [[0; 1; 1; 2]; [3; 3; 4; 4]; [0; 0; 0; 1]]%Z /\
  all_len 4 [[0; 1; 1; 2]; [3; 3; 4; 4]; [0; 0; 0; 1]]%Z.
Proof.
  split; [cbn; lra|]. split; [unfold small2; cbn; lia|]. split; [|repeat constructor].
  intros c [<-|[<-|[<-|[]]]]; [exists 0%Z, 1%Z|exists 3%Z, 4%Z|exists 0%Z, 1%Z]; cbn; repeat split; auto; lia.
Qed.
