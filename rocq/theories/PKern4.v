(** Proofs: bounds of kernel mutual information; kernel conditional mutual information. *)
From Coq Require Import Reals Lra Lia List ZArith Arith Bool Permutation.
From Verif Require Import Res RSum Spec SpecBase MBase PBase MTE MPct MNorm MCont SpecKern MKern PKern PKern2 PKern3.
Import ListNotations.
Local Open Scope R_scope.

Lemma KHs_cons h n d v ds vars : KHs h n (d :: ds) (v :: vars) = KH h n d [v] + KHs h n ds vars.
Proof. reflexivity. Qed.

Lemma KHs_bounds h n ds vars : 0 < h -> (0 < n)%nat -> length ds = length vars ->
  INR (total_dim ds) * ln h <= KHs h n ds vars <= INR (length vars) * ln (INR n) + INR (total_dim ds) * ln h.
Proof.
  intros Hh Hn. revert vars. induction ds as [|d ds IH]; intros [|v vars] L; try discriminate.
  - unfold KHs. cbn. lra.
  - rewrite KHs_cons. specialize (IH vars ltac:(cbn in L; lia)).
    pose proof (KH_bounds h n d [v] Hh Hn).
    cbn [total_dim fold_right length]. rewrite plus_INR, S_INR. change (fold_right Nat.add 0%nat ds) with (total_dim ds). lra.
Qed.

Lemma KMI_bounds h n ds vars : 0 < h -> (0 < n)%nat -> length ds = length vars -> vars <> [] ->
  - ln (INR n) <= KHs h n ds vars - KH h n (total_dim ds) vars <= (INR (length vars) - 1) * ln (INR n).
Proof.
  intros Hh Hn L Hv. pose proof (KHs_bounds h n ds vars Hh Hn L). pose proof (KH_bounds h n (total_dim ds) vars Hh Hn).
  split; [lra|].
  destruct vars as [|v vars]; [congruence|]. destruct ds as [|d ds]; [discriminate|].
  rewrite KHs_cons. pose proof (KHs_bounds h n ds vars Hh Hn ltac:(cbn in L; lia)).
  pose proof (KH_mono h n d (total_dim (d :: ds)) [v] (v :: vars) Hh Hn) as M.
  assert (I : incl [v] (v :: vars)) by (intros x [<-|[]]; left; reflexivity). specialize (M I).
  cbn [length]. rewrite S_INR.
  replace (INR (total_dim (d :: ds))) with (INR d + INR (total_dim ds)) in * by (rewrite <- plus_INR; reflexivity).
  lra.
Qed.

(** ** conditional mutual information of one-dimensional variables *)
Definition pts (xs : list R) : list pt := map (fun x => [x]) xs.

Lemma pts_table n xs : length xs = n -> table n 1 (pts xs).
Proof.
  intros L. split; [unfold pts; rewrite map_length; exact L|]. apply Forall_forall. intros p Hp.
  apply in_map_iff in Hp as (x & <- & _). reflexivity.
Qed.

Lemma pts_nth xs t : (t < length xs)%nat -> nth t (pts xs) [] = [nth t xs 0].
Proof. intros H. unfold pts. apply (nth_map_lt (fun x => [x]) xs 0). exact H. Qed.

Lemma jrow_pts n cols t : all_len n cols -> (t < n)%nat ->
  jrow (map pts cols) t = map (fun c => nth t c 0) cols.
Proof.
  intros L Ht. unfold jrow. induction L as [|c cols Lc L IH]; [reflexivity|].
  cbn [map concat]. rewrite IH, pts_nth by lia. reflexivity.
Qed.

Lemma tabs_pts n cols : all_len n cols -> tabs n (map (fun _ => 1%nat) cols) (map pts cols).
Proof. induction 1; constructor; [apply pts_table; assumption|assumption]. Qed.

Lemma total_ones {A} (l : list A) : total_dim (map (fun _ => 1%nat) l) = length l.
Proof. induction l; cbn; [reflexivity|]. unfold total_dim in *. rewrite IHl. reflexivity. Qed.

Definition KCMI1 (h : R) (n : nat) (cols : list (list R)) (zs : list R) : R :=
  sumR (map (fun c => KH h n 2 [pts c; pts zs]) cols)
  - KH h n (S (length cols)) (map pts (cols ++ [zs])) - KH h n 1 [pts zs].

Lemma kernel_cmi_form_ok E h w b n cols zs : 0 < h -> (0 < cpus E)%Z -> workers_ok w -> valid_base b ->
  (0 < n)%nat -> all_len n cols -> length zs = n ->
  kernel_cmi_form E (box_args h w b) (map pts cols) (pts zs) =
    Ok (map (fun t => (ln (kdensity h n (S (length cols)) (map pts (cols ++ [zs])) t)
                       + ln (kdensity h n 1 [pts zs] t)
                       - sumR (map (fun c => ln (kdensity h n 2 [pts c; pts zs] t)) cols)) / unit_of b)
            (seq 0 n)).
Proof.
  intros Hh C W V Hn L Lz. unfold kernel_cmi_form.
  assert (LA : all_len n (cols ++ [zs])) by (apply Forall_app; split; [exact L|repeat constructor; exact Lz]).
  change [pts zs] with (map pts [zs]) at 1. rewrite <- map_app.
  rewrite (cstack_ok n).
  2:{ destruct cols; discriminate. }
  2:{ eapply tabs_tables, tabs_pts. exact LA. }
  cbn [bind]. rewrite (kdens_box E h w b n _ _ Hh C W (tabs_pts _ _ LA) Hn). cbn [bind].
  rewrite total_ones, app_length. cbn [length]. rewrite Nat.add_1_r, map_length.
  assert (J : forall i, (i < length cols)%nat ->
     map (fun r => [MKern.col i r; last_col r]) (jrows n (map pts (cols ++ [zs]))) = jrows n (map pts [nth i cols []; zs])).
  { intros i Hi. unfold jrows. rewrite map_map. apply map_ext_in. intros t Ht. apply in_seq in Ht.
    unfold all_len in L. rewrite Forall_forall in L.
    rewrite (jrow_pts n), (jrow_pts n).
    - unfold MKern.col, last_col. rewrite map_length, app_length. cbn [length]. rewrite Nat.add_sub.
      cbn [map]. rewrite map_app. rewrite app_nth1 by (rewrite map_length; exact Hi).
      rewrite app_nth2 by (rewrite map_length; lia). rewrite map_length, Nat.sub_diag. cbn [map nth].
      rewrite (nth_map_lt _ cols []) by exact Hi. reflexivity.
    - repeat constructor; [apply L, nth_In; exact Hi|exact Lz].
    - lia.
    - exact LA.
    - lia. }
  assert (JZ : map (fun r => [last_col r]) (jrows n (map pts (cols ++ [zs]))) = jrows n (map pts [zs])).
  { unfold jrows. rewrite map_map. apply map_ext_in. intros t Ht. apply in_seq in Ht.
    rewrite (jrow_pts n), (jrow_pts n).
    - unfold last_col. rewrite map_length, app_length. cbn [length]. rewrite Nat.add_sub, map_app.
      rewrite app_nth2 by (rewrite map_length; lia). rewrite map_length, Nat.sub_diag. reflexivity.
    - repeat constructor; exact Lz.
    - lia.
    - exact LA.
    - lia. }
  assert (P : mapM (fun i => kdens E (box_args h w b) (map (fun r => [MKern.col i r; last_col r]) (jrows n (map pts (cols ++ [zs])))))
        (seq 0 (length cols))
      = Ok (map (fun c => squeeze (map (kdensity h n 2 [pts c; pts zs]) (seq 0 n))) cols)).
  { rewrite (mapM_ok _ (fun i => squeeze (map (kdensity h n 2 [pts (nth i cols []); pts zs]) (seq 0 n)))).
    - f_equal. apply (map_nth_seq (fun c => squeeze (map (kdensity h n 2 [pts c; pts zs]) (seq 0 n)))).
    - intros i Hi. apply in_seq in Hi. rewrite J by lia.
      unfold all_len in L. rewrite Forall_forall in L.
      assert (L2 : all_len n [nth i cols []; zs]) by (repeat constructor; [apply L, nth_In; lia|exact Lz]).
      rewrite (kdens_box E h w b n _ _ Hh C W (tabs_pts _ _ L2) Hn). reflexivity. }
  rewrite P. cbn [bind]. rewrite JZ.
  rewrite (kdens_box E h w b n _ _ Hh C W (tabs_pts n [zs] ltac:(repeat constructor; exact Lz)) Hn).
  cbn [bind box_args k_base]. destruct (base_guard_ok b V) as [-> _]. cbn [bind].
  rewrite !flat_squeeze, map_map, map_length, seq_length.
  replace (map (kdensity h n (S (length cols)) (map pts (cols ++ [zs]))) (seq 0 n) ::
     map (fun c => flat (squeeze (map (kdensity h n 2 [pts c; pts zs]) (seq 0 n)))) cols
     ++ [map (kdensity h n (total_dim (map (fun _ : list R => 1%nat) [zs])) (map pts [zs])) (seq 0 n)])
    with (map (fun f => map f (seq 0 n)) (kdensity h n (S (length cols)) (map pts (cols ++ [zs])) ::
       map (fun c => kdensity h n 2 [pts c; pts zs]) cols ++ [kdensity h n 1 [pts zs]])).
  2:{ cbn [map]. f_equal. rewrite map_app, map_map. f_equal. apply map_ext. intros c. rewrite flat_squeeze. reflexivity. }
  rewrite rows_of_maps, mapM_map. apply mapM_ok. intros t Ht. apply in_seq in Ht. cbn [map hd tl].
  rewrite (map_app (fun f : nat -> R => f t)), (map_map _ (fun f : nat -> R => f t)). cbn [map]. rewrite removelast_last, app_comm_cons, last_last.
  set (ps := map (fun c => kdensity h n 2 [pts c; pts zs] t) cols).
  assert (HF : Forall (fun x => 0 < x) ps).
  { unfold ps. apply Forall_forall. intros x Hx. apply in_map_iff in Hx as (c & <- & _). apply kdensity_pos; [exact Hh|lia]. }
  pose proof (prod_pos _ HF) as PP.
  pose proof (kdensity_pos h n (S (length cols)) (map pts (cols ++ [zs])) t Hh ltac:(lia)) as PJ.
  pose proof (kdensity_pos h n 1 [pts zs] t Hh ltac:(lia)) as PZ.
  unfold np_div. destruct (Req_EM_T _ _) as [X|_]; [lra|]. cbn [bind].
  rewrite log_base_ok; [|exact V|apply Rdiv_lt_0_compat; [nra|assumption]]. do 2 f_equal.
  unfold Rdiv. rewrite ln_mult, ln_mult, ln_Rinv, ln_prod; try assumption; [|nra|apply Rinv_0_lt_compat; assumption].
  unfold ps. rewrite map_map. unfold Rminus. f_equal.
Qed.

Lemma mean_sumR {A B} (f : A -> B -> R) (l : list A) (m : list B) :
  mean (map (fun a => sumR (map (fun b => f a b) m)) l) = sumR (map (fun b => mean (map (fun a => f a b) l)) m).
Proof.
  rewrite mean_map, sumR_swap. induction m as [|b m IH]; unfold sumR in *; cbn [map sumf]; [unfold Rdiv; ring|].
  rewrite <- IH, mean_map. unfold Rdiv. ring.
Qed.
Lemma mean_plus {A} (f g : A -> R) l : mean (map (fun t => f t + g t) l) = mean (map f l) + mean (map g l).
Proof. rewrite !mean_map, sumf_plus. unfold Rdiv. ring. Qed.
Lemma mean_minus {A} (f g : A -> R) l : mean (map (fun t => f t - g t) l) = mean (map f l) - mean (map g l).
Proof. rewrite !mean_map, sumf_minus. unfold Rdiv. ring. Qed.

Lemma KH_ln h n d vars : KH h n d vars = - mean (map (fun t => ln (kdensity h n d vars t)) (seq 0 n)).
Proof. unfold KH. apply mean_opp. Qed.

Lemma kernel_cmi_ok E h w b n cols zs : 0 < h -> (0 < cpus E)%Z -> workers_ok w -> valid_base b ->
  (0 < n)%nat -> (2 <= length cols)%nat -> all_len n cols -> length zs = n ->
  kernel_cmi E (box_args h w b) (Some 0%Z) false (map F1 cols) (F1 zs) = Ok (KCMI1 h n cols zs / unit_of b).
Proof.
  intros Hh C W V Hn Hc L Lz. unfold kernel_cmi, kernel_cmi_local. cbn [bind].
  assert (I : fcmi_init false (map F1 cols) (F1 zs) = Ok (map pts cols, pts zs)).
  { unfold fcmi_init. destruct cols as [|c1 [|c2 cols]]; cbn in Hc; try lia. cbn [map flen].
    unfold all_len in L. pose proof (Forall_inv L) as L1. pose proof (Forall_inv (Forall_inv_tail L)) as L2. cbv beta in L1, L2.
    rewrite L1, L2, Lz, Nat.eqb_refl. cbn [negb orb rows2d]. fold (pts c1) (pts c2) (pts zs).
    rewrite map_map. reflexivity. }
  rewrite I. cbn [bind fst snd]. rewrite (kernel_cmi_form_ok E h w b n) by auto. cbn [bind].
  rewrite mean_ok by (apply map_ne, seq_ne; exact Hn). f_equal.
  rewrite (mean_map_div (fun t => ln (kdensity h n (S (length cols)) (map pts (cols ++ [zs])) t)
    + ln (kdensity h n 1 [pts zs] t) - sumR (map (fun c => ln (kdensity h n 2 [pts c; pts zs] t)) cols))).
  f_equal. rewrite mean_minus, mean_plus, mean_sumR. unfold KCMI1. rewrite !KH_ln.
  rewrite (map_ext (fun c => KH h n 2 [pts c; pts zs]) (fun c => - mean (map (fun a => ln (kdensity h n 2 [pts c; pts zs] a)) (seq 0 n))))
    by (intros c; apply KH_ln).
  assert (S : forall l : list (list R), sumR (map (fun c => - mean (map (fun a => ln (kdensity h n 2 [pts c; pts zs] a)) (seq 0 n))) l)
     = - sumR (map (fun c => mean (map (fun a => ln (kdensity h n 2 [pts c; pts zs] a)) (seq 0 n))) l)).
  { induction l as [|c l IH]; unfold sumR in *; cbn [map sumf]; [ring|]. rewrite IH. ring. }
  rewrite S. ring.
Qed.

(** conditional mutual information of two (joint) variables: bounds *)
Lemma KCMI_bounds h n dx dy dz xs ys zs : 0 < h -> (0 < n)%nat ->
  - ln (INR n) <= KH h n (dx + dz) (xs ++ zs) + KH h n (dy + dz) (ys ++ zs)
                  - KH h n (dx + dy + dz) (xs ++ ys ++ zs) - KH h n dz zs <= ln (INR n).
Proof.
  intros Hh Hn.
  pose proof (KH_bounds h n (dx + dz) (xs ++ zs) Hh Hn) as B1.
  pose proof (KH_bounds h n (dy + dz) (ys ++ zs) Hh Hn) as B2.
  pose proof (KH_bounds h n (dx + dy + dz) (xs ++ ys ++ zs) Hh Hn) as B3.
  pose proof (KH_bounds h n dz zs Hh Hn) as B4.
  pose proof (KH_mono h n (dx + dz) (dx + dy + dz) (xs ++ zs) (xs ++ ys ++ zs) Hh Hn) as M1.
  pose proof (KH_mono h n dz (dy + dz) zs (ys ++ zs) Hh Hn) as M2.
  assert (I1 : incl (xs ++ zs) (xs ++ ys ++ zs)).
  { intros v Hv. apply in_app_iff in Hv as [Hv|Hv]; apply in_app_iff; [left; exact Hv|right; apply in_app_iff; right; exact Hv]. }
  assert (I2 : incl zs (ys ++ zs)) by (intros v Hv; apply in_app_iff; right; exact Hv).
  specialize (M1 I1). specialize (M2 I2).
  rewrite !plus_INR in *. lra.
Qed.
