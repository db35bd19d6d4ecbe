(** Proofs: kernel transfer entropy. *)
From Coq Require Import Reals Lra Lia List ZArith Arith Bool Permutation.
From Verif Require Import Res RSum Spec SpecTE SpecTEc SpecBase MBase PBase MTE PTE2 MPct MNorm MCont SpecKern MKern PKern PKern2 PKern3 PKern4 PTEc.
Import ListNotations.
Local Open Scope R_scope.

Lemma kernel_te_form_ok E h w b m dj dp d1 d2 J P M1 M2 : 0 < h -> (0 < cpus E)%Z -> workers_ok w -> valid_base b ->
  (2 <= m)%nat -> tabs m dj J -> tabs m dp P -> tabs m d1 M1 -> tabs m d2 M2 ->
  kernel_te_form E (box_args h w b) (jrows m J) (jrows m P) (jrows m M1) (jrows m M2) =
  Ok (map (fun t => (ln (kdensity h m (total_dim dj) J t) + ln (kdensity h m (total_dim dp) P t)
                     - ln (kdensity h m (total_dim d1) M1 t) - ln (kdensity h m (total_dim d2) M2 t)) / unit_of b) (seq 0 m)).
Proof.
  intros Hh C W V Hm TJ TP T1 T2. unfold kernel_te_form.
  assert (Hm' : (0 < m)%nat) by lia.
  rewrite (kdens_box E h w b m _ _ Hh C W TJ Hm'). cbn [bind].
  rewrite (kdens_box E h w b m _ _ Hh C W TP Hm'). cbn [bind].
  rewrite (kdens_box E h w b m _ _ Hh C W T1 Hm'). cbn [bind].
  rewrite (kdens_box E h w b m _ _ Hh C W T2 Hm'). cbn [bind box_args k_base].
  destruct (base_guard_ok b V) as [-> ->]. cbn [bind].
  rewrite !squeeze_long by (rewrite map_length, seq_length; exact Hm).
  rewrite map_length, seq_length.
  change [map (kdensity h m (total_dim dj) J) (seq 0 m); map (kdensity h m (total_dim dp) P) (seq 0 m);
          map (kdensity h m (total_dim d2) M2) (seq 0 m); map (kdensity h m (total_dim d1) M1) (seq 0 m)]
    with (map (fun f => map f (seq 0 m)) [kdensity h m (total_dim dj) J; kdensity h m (total_dim dp) P;
        kdensity h m (total_dim d2) M2; kdensity h m (total_dim d1) M1]).
  rewrite rows_of_maps, mapM_map. apply mapM_ok. intros t Ht. apply in_seq in Ht. cbn [map nth].
  pose proof (kdensity_pos h m (total_dim dj) J t Hh ltac:(lia)) as P1.
  pose proof (kdensity_pos h m (total_dim dp) P t Hh ltac:(lia)) as P2.
  pose proof (kdensity_pos h m (total_dim d1) M1 t Hh ltac:(lia)) as P3.
  pose proof (kdensity_pos h m (total_dim d2) M2 t Hh ltac:(lia)) as P4.
  set (p1 := kdensity h m (total_dim dj) J t) in *. set (p2 := kdensity h m (total_dim dp) P t) in *.
  set (p3 := kdensity h m (total_dim d1) M1 t) in *. set (p4 := kdensity h m (total_dim d2) M2 t) in *.
  unfold kte_local, np_div. destruct (Req_EM_T (p4 * p3) 0) as [X|_]; [exfalso; nra|].
  rewrite log_base_ok; [|exact V|apply Rdiv_lt_0_compat; nra].
  do 2 f_equal. unfold Rdiv. rewrite ln_mult, ln_Rinv, ln_mult, ln_mult; try nra.
  apply Rinv_0_lt_compat. nra.
Qed.

Lemma kte_mean h m dj dp d1 d2 J P M1 M2 u : (0 < m)%nat ->
  mean_res (map (fun t => (ln (kdensity h m dj J t) + ln (kdensity h m dp P t)
                     - ln (kdensity h m d1 M1 t) - ln (kdensity h m d2 M2 t)) / u) (seq 0 m)) =
  Ok ((KH h m d1 M1 + KH h m d2 M2 - KH h m dj J - KH h m dp P) / u).
Proof.
  intros Hm. rewrite mean_ok by (apply map_ne, seq_ne; exact Hm). f_equal.
  rewrite (mean_map_div (fun t => ln (kdensity h m dj J t) + ln (kdensity h m dp P t)
     - ln (kdensity h m d1 M1 t) - ln (kdensity h m d2 M2 t))). f_equal.
  rewrite !mean_minus, mean_plus, !KH_ln. ring.
Qed.

Lemma fte_init_plain src dst s : length src = length dst -> fte_init src dst (Some (NInt 0)) None s = Ok (src, dst).
Proof. intros L. unfold fte_init. cbn. rewrite L, Nat.eqb_refl. reflexivity. Qed.
