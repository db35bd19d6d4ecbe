(** Proofs: the kernel estimators with the Gaussian kernel on data of any dimension. *)
From Coq Require Import Reals Lra Lia List ZArith Arith Bool Permutation.
From Verif Require Import Res RSum Spec SpecBase MBase PBase MTE MPct MNorm MCont SpecKern SpecGauss MKern PKern PKern2 PKern3 PKern4 PropsKern PropsKern2 PropsKern5 SpecMvg MGauss PMvg PMvg2 PMvg3.
Import ListNotations.
Local Open Scope R_scope.

Lemma column_1 n data : table n 1 data -> data = map (fun x => [x]) (column data 0).
Proof.
  intros [_ F]. unfold column. rewrite map_map. induction F as [|p data Hp F IH]; [reflexivity|]. cbn [map].
  rewrite <- IH. f_equal. destruct p as [|x [|y p]]; cbn in Hp; try lia. reflexivity.
Qed.

Lemma regular_dim d data : regular d data -> (1 <= d)%nat.
Proof. intros [[-> _]|[X _]]; lia. Qed.

Lemma regular_Piv n d data : (2 <= n)%nat -> table n d data -> regular d data -> Piv d (covar data).
Proof.
  intros Hn T [[-> V]|[Hd Sp]].
  - cbn. split; [|exact Logic.I]. rewrite (column_1 n data T), covar_pts. apply sample_var_pos. exact V.
  - apply PD_Piv; [apply covar_sym|]. apply (spread_PD (/ 10 ^ 10)); [|exact Sp]. left. apply threshold_pos.
Qed.

Lemma kde_mv c eig h w n m d data at_ : (0 < c)%Z -> 0 < h -> workers_ok w -> (2 <= n)%nat -> (2 <= m)%nat ->
  table n d data -> table m d at_ -> ready eig d data ->
  kde (genv c eig) data (BwNum h) (Some at_) KGauss w = Ok (D1 (map (mvdensity h d data) at_)) /\
  kde (genv c eig) data (BwNum h) None KGauss w = Ok (D1 (map (mvdensity h d data) data)).
Proof.
  intros HC Hh HW Hn Hm T Ta [Rg Eg].
  assert (W : (0 < (if Z.eqb w (-1) then cpus (genv c eig) else w))%Z).
  { destruct (Z.eqb_spec w (-1)); [exact HC|]. destruct HW; [assumption|congruence]. }
  assert (G : forall ys k, (2 <= k)%nat -> table k d ys -> gaussian_kernel_densities (genv c eig) data h ys
     (if Z.eqb w (-1) then cpus (genv c eig) else w) = Ok (D1 (map (mvdensity h d data) ys))).
  { intros ys k Hk Ty. unfold gaussian_kernel_densities. rewrite (table_width n d data ltac:(lia) T).
    assert (B : exists f, match d with
               | 1%nat => let* f := gauss1 (map (fun r => nth 0 r 0) data) h in Ok (fun q : pt => f (nth 0 q 0))
               | _ => mvg (genv c eig) data h end = Ok f /\ forall q, length q = d -> f q = mvdensity h d data q).
    { destruct Rg as [[-> V]|[Hd Sp]].
      - destruct (gauss1_ok (column data 0) h V Hh) as (f & E & Hf). unfold column in E. rewrite E. cbn [bind]. eexists. split; [reflexivity|].
        intros [|q [|q' l]] Lq; cbn in Lq; try lia. cbn [nth]. rewrite Hf. pose proof (column_1 n data T) as D. set (xs := column data 0) in *. clearbody xs. rewrite D. symmetry. apply mvdensity_1; assumption.
      - destruct (mv_gauss_ok eig n d data h Hn ltac:(lia) T Hh Sp (Eg Hd)) as (f & E & Hf). exists f. split; [|intros q _; apply Hf].
        destruct d as [|[|d']]; [lia|lia|]. cbn [genv mvg]. exact E. }
    destruct B as (f & -> & Hf).
    rewrite (proj1 (C53_parallel_is_sequential f _ ys _ W ltac:(rewrite (proj1 Ty); exact Hk))). do 2 f_equal.
    apply map_ext_in. intros q Hq. apply Hf. destruct Ty as [_ F]. rewrite Forall_forall in F. apply F, Hq. }
  unfold kde. destruct (Rle_dec h 0); [lra|]. rewrite (table_width n d data ltac:(lia) T), (table_width m d at_ ltac:(lia) Ta), Nat.eqb_refl.
  cbn [bind]. rewrite (G at_ m Hm Ta), (G data n Hn T). split; reflexivity.
Qed.

Lemma kdens_mv c eig h w b n d data : (0 < c)%Z -> 0 < h -> workers_ok w -> (2 <= n)%nat -> table n d data -> ready eig d data ->
  kdens (genv c eig) (gauss_args h w b) data = Ok (D1 (map (fun t => mvdensity h d data (nth t data [])) (seq 0 n))).
Proof.
  intros HC Hh HW Hn T Rd. unfold kdens. cbn [gauss_args k_bw k_kern].
  rewrite (proj2 (kde_mv c eig h _ n n d data data HC Hh (gauss_workers (genv c eig) h w b HW HC) Hn Hn T T Rd)).
  do 2 f_equal. rewrite <- (proj1 T). symmetry. apply (map_nth_seq (mvdensity h d data)).
Qed.

(** the mean of - ln of the densities *)
Definition LH (n : nat) (p : nat -> R) : R := mean (map (fun t => - ln (p t)) (seq 0 n)).
Lemma LH_mv h n d data : length data = n -> LH n (fun t => mvdensity h d data (nth t data [])) = MvH h d data.
Proof. intros <-. unfold LH, MvH. f_equal. apply (map_nth_seq (fun q => - ln (mvdensity h d data q))). Qed.

(** ** combinations of arbitrary positive densities *)
Lemma mi_form_gen E a n vars J (pj : nat -> R) (pv : list pt -> nat -> R) : valid_base (k_base a) -> (2 <= n)%nat ->
  cstack vars = Ok J -> kdens E a J = Ok (D1 (map pj (seq 0 n))) ->
  (forall v, In v vars -> kdens E a v = Ok (D1 (map (pv v) (seq 0 n)))) ->
  (forall t, (t < n)%nat -> 0 < pj t) -> (forall v t, In v vars -> (t < n)%nat -> 0 < pv v t) ->
  kernel_mi_form E a vars = Ok (map (fun t => (ln (pj t) - sumR (map (fun v => ln (pv v t)) vars)) / unit_of (k_base a)) (seq 0 n)).
Proof.
  intros V Hn CS KJ KV PJ PV. unfold kernel_mi_form. rewrite CS. cbn [bind]. rewrite KJ. cbn [bind].
  rewrite (mapM_ok _ (fun v => D1 (map (pv v) (seq 0 n)))) by exact KV. cbn [bind].
  destruct (base_guard_ok _ V) as [-> _]. cbn [bind flat]. rewrite map_map, map_length, seq_length. cbn [flat].
  change (map pj (seq 0 n) :: map (fun v => map (pv v) (seq 0 n)) vars) with ([map pj (seq 0 n)] ++ map (fun v => map (pv v) (seq 0 n)) vars).
  replace ([map pj (seq 0 n)] ++ map (fun v => map (pv v) (seq 0 n)) vars) with (map (fun f => map f (seq 0 n)) (pj :: map pv vars))
    by (cbn [map app]; rewrite map_map; reflexivity).
  rewrite rows_of_maps, mapM_map. apply mapM_ok. intros t Ht. apply in_seq in Ht. cbn [map hd tl]. rewrite map_map.
  set (ps := map (fun v => pv v t) vars).
  assert (HF : Forall (fun x => 0 < x) ps).
  { unfold ps. apply Forall_forall. intros x Hx. apply in_map_iff in Hx as (v & <- & Hv). apply PV; [exact Hv|lia]. }
  pose proof (prod_pos _ HF) as PP. specialize (PJ t ltac:(lia)).
  unfold np_div. destruct (Req_EM_T _ _) as [X|_]; [lra|]. cbn [bind].
  rewrite log_base_ok; [|exact V|apply Rdiv_lt_0_compat; assumption]. do 2 f_equal.
  unfold Rdiv. rewrite ln_mult, ln_Rinv, ln_prod; try assumption; [|apply Rinv_0_lt_compat; assumption].
  unfold ps. rewrite map_map. unfold Rminus. f_equal.
Qed.

Lemma mi_mean_gen {A} n (vars : list A) (pj : nat -> R) (pv : A -> nat -> R) u : (0 < n)%nat ->
  mean_res (map (fun t => (ln (pj t) - sumR (map (fun v => ln (pv v t)) vars)) / u) (seq 0 n))
  = Ok ((sumR (map (fun v => LH n (pv v)) vars) - LH n pj) / u).
Proof.
  intros Hn. rewrite mean_ok by (apply map_ne, seq_ne; exact Hn). f_equal.
  rewrite (mean_map_div (fun t => ln (pj t) - sumR (map (fun v => ln (pv v t)) vars))). f_equal.
  rewrite mean_minus, mean_sumR. unfold LH. rewrite mean_opp.
  assert (S : forall l : list A, sumR (map (fun v => mean (map (fun t => - ln (pv v t)) (seq 0 n))) l)
     = - sumR (map (fun v => mean (map (fun t => ln (pv v t)) (seq 0 n))) l)).
  { induction l as [|c l IH]; unfold sumR in *; cbn [map sumf]; [ring|]. rewrite IH, mean_opp. ring. }
  rewrite S. ring.
Qed.

Lemma te_form_gen E a n J P M1 M2 (pj pp p1 p2 : nat -> R) : valid_base (k_base a) -> (2 <= n)%nat ->
  kdens E a J = Ok (D1 (map pj (seq 0 n))) -> kdens E a P = Ok (D1 (map pp (seq 0 n))) ->
  kdens E a M1 = Ok (D1 (map p1 (seq 0 n))) -> kdens E a M2 = Ok (D1 (map p2 (seq 0 n))) ->
  (forall t, (t < n)%nat -> 0 < pj t /\ 0 < pp t /\ 0 < p1 t /\ 0 < p2 t) ->
  kernel_te_form E a J P M1 M2 = Ok (map (fun t => (ln (pj t) + ln (pp t) - ln (p1 t) - ln (p2 t)) / unit_of (k_base a)) (seq 0 n)).
Proof.
  intros V Hn KJ KP K1 K2 PS. unfold kernel_te_form. rewrite KJ, KP, K1, K2. cbn [bind].
  destruct (base_guard_ok _ V) as [-> ->]. cbn [bind]. rewrite map_length, seq_length.
  change [map pj (seq 0 n); map pp (seq 0 n); map p2 (seq 0 n); map p1 (seq 0 n)] with (map (fun f => map f (seq 0 n)) [pj; pp; p2; p1]).
  rewrite rows_of_maps, mapM_map. apply mapM_ok. intros t Ht. apply in_seq in Ht. cbn [map nth].
  destruct (PS t ltac:(lia)) as (A1 & A2 & A3 & A4). set (a1 := pj t) in *. set (a2 := pp t) in *. set (a3 := p1 t) in *. set (a4 := p2 t) in *.
  unfold kte_local, np_div. destruct (Req_EM_T (a4 * a3) 0) as [X|_]; [exfalso; nra|].
  rewrite log_base_ok; [|exact V|apply Rdiv_lt_0_compat; nra].
  do 2 f_equal. unfold Rdiv. rewrite ln_mult, ln_Rinv, ln_mult, ln_mult; try nra.
  apply Rinv_0_lt_compat. nra.
Qed.
Lemma te_mean_gen n (pj pp p1 p2 : nat -> R) u : (0 < n)%nat ->
  mean_res (map (fun t => (ln (pj t) + ln (pp t) - ln (p1 t) - ln (p2 t)) / u) (seq 0 n)) = Ok ((LH n p1 + LH n p2 - LH n pj - LH n pp) / u).
Proof.
  intros Hn. rewrite mean_ok by (apply map_ne, seq_ne; exact Hn). f_equal.
  rewrite (mean_map_div (fun t => ln (pj t) + ln (pp t) - ln (p1 t) - ln (p2 t))). f_equal.
  rewrite !mean_minus, mean_plus. unfold LH. rewrite !mean_opp. ring.
Qed.

Lemma cmi_form_gen E a n cols zs (pj pz : nat -> R) (pv : list R -> nat -> R) : valid_base (k_base a) -> (2 <= n)%nat ->
  all_len n cols -> length zs = n ->
  kdens E a (jrows n (map pts (cols ++ [zs]))) = Ok (D1 (map pj (seq 0 n))) ->
  (forall c, In c cols -> kdens E a (jrows n (map pts [c; zs])) = Ok (D1 (map (pv c) (seq 0 n)))) ->
  kdens E a (jrows n (map pts [zs])) = Ok (D1 (map pz (seq 0 n))) ->
  (forall t, (t < n)%nat -> 0 < pj t /\ 0 < pz t) -> (forall c t, In c cols -> (t < n)%nat -> 0 < pv c t) ->
  kernel_cmi_form E a (map pts cols) (pts zs) =
    Ok (map (fun t => (ln (pj t) + ln (pz t) - sumR (map (fun c => ln (pv c t)) cols)) / unit_of (k_base a)) (seq 0 n)).
Proof.
  intros V Hn L Lz KJ KV KZ PJ PV. unfold kernel_cmi_form.
  assert (LA : all_len n (cols ++ [zs])) by (apply Forall_app; split; [exact L|repeat constructor; exact Lz]).
  change [pts zs] with (map pts [zs]) at 1. rewrite <- map_app.
  rewrite (cstack_ok n).
  2:{ destruct cols; discriminate. }
  2:{ eapply tabs_tables, tabs_pts. exact LA. }
  cbn [bind]. rewrite KJ. cbn [bind]. rewrite map_length.
  assert (J : forall i, (i < length cols)%nat ->
     map (fun r => [MKern.col i r; last_col r]) (jrows n (map pts (cols ++ [zs]))) = jrows n (map pts [nth i cols []; zs])).
  { intros i Hi. unfold jrows. rewrite map_map. apply map_ext_in. intros t Ht. apply in_seq in Ht.
    unfold all_len in L. rewrite Forall_forall in L.
    rewrite (jrow_pts n), (jrow_pts n).
    - unfold MKern.col, last_col. rewrite map_length, app_length. cbn [length]. rewrite Nat.add_sub.
      cbn [map]. rewrite map_app. rewrite app_nth1 by (rewrite map_length; exact Hi).
      rewrite app_nth2 by (rewrite map_length; lia). rewrite map_length, Nat.sub_diag. cbn [map nth].
      rewrite (nth_map_lt _ cols []) by exact Hi. reflexivity.
    - repeat constructor; [apply L, nth_In; exact Hi|exact Lz].
    - lia.
    - exact LA.
    - lia. }
  assert (JZ : map (fun r => [last_col r]) (jrows n (map pts (cols ++ [zs]))) = jrows n (map pts [zs])).
  { unfold jrows. rewrite map_map. apply map_ext_in. intros t Ht. apply in_seq in Ht.
    rewrite (jrow_pts n), (jrow_pts n).
    - unfold last_col. rewrite map_length, app_length. cbn [length]. rewrite Nat.add_sub, map_app.
      rewrite app_nth2 by (rewrite map_length; lia). rewrite map_length, Nat.sub_diag. reflexivity.
    - repeat constructor; exact Lz.
    - lia.
    - exact LA.
    - lia. }
  assert (P : mapM (fun i => kdens E a (map (fun r => [MKern.col i r; last_col r]) (jrows n (map pts (cols ++ [zs])))))
        (seq 0 (length cols)) = Ok (map (fun c => D1 (map (pv c) (seq 0 n))) cols)).
  { rewrite (mapM_ok _ (fun i => D1 (map (pv (nth i cols [])) (seq 0 n)))).
    - f_equal. apply (map_nth_seq (fun c => D1 (map (pv c) (seq 0 n)))).
    - intros i Hi. apply in_seq in Hi. rewrite J by lia. apply KV. apply nth_In. lia. }
  rewrite P. cbn [bind]. rewrite JZ, KZ. cbn [bind]. destruct (base_guard_ok _ V) as [-> _]. cbn [bind flat].
  rewrite map_map, map_length, seq_length. cbn [flat].
  replace (map pj (seq 0 n) :: map (fun c => map (pv c) (seq 0 n)) cols ++ [map pz (seq 0 n)])
    with (map (fun f => map f (seq 0 n)) (pj :: map pv cols ++ [pz])).
  2:{ cbn [map]. f_equal. rewrite map_app, map_map. reflexivity. }
  rewrite rows_of_maps, mapM_map. apply mapM_ok. intros t Ht. apply in_seq in Ht. cbn [map hd tl].
  rewrite (map_app (fun f : nat -> R => f t)), (map_map _ (fun f : nat -> R => f t)). cbn [map]. rewrite removelast_last, app_comm_cons, last_last.
  set (ps := map (fun c => pv c t) cols).
  assert (HF : Forall (fun x => 0 < x) ps).
  { unfold ps. apply Forall_forall. intros x Hx. apply in_map_iff in Hx as (c & <- & Hc). apply PV; [exact Hc|lia]. }
  pose proof (prod_pos _ HF) as PP. destruct (PJ t ltac:(lia)) as [P1 P2].
  unfold np_div. destruct (Req_EM_T _ _) as [X|_]; [lra|]. cbn [bind].
  rewrite log_base_ok; [|exact V|apply Rdiv_lt_0_compat; [nra|assumption]]. do 2 f_equal.
  unfold Rdiv. rewrite ln_mult, ln_mult, ln_Rinv, ln_prod; try assumption; [|nra|apply Rinv_0_lt_compat; assumption].
  unfold ps. rewrite map_map. unfold Rminus. f_equal.
Qed.
Lemma cmi_mean_gen {A} n (cols : list A) (pj pz : nat -> R) (pv : A -> nat -> R) u : (0 < n)%nat ->
  mean_res (map (fun t => (ln (pj t) + ln (pz t) - sumR (map (fun v => ln (pv v t)) cols)) / u) (seq 0 n))
  = Ok ((sumR (map (fun v => LH n (pv v)) cols) - LH n pj - LH n pz) / u).
Proof.
  intros Hn. rewrite mean_ok by (apply map_ne, seq_ne; exact Hn). f_equal.
  rewrite (mean_map_div (fun t => ln (pj t) + ln (pz t) - sumR (map (fun v => ln (pv v t)) cols))). f_equal.
  rewrite mean_minus, mean_plus, mean_sumR. unfold LH. rewrite !mean_opp.
  assert (S : forall l : list A, sumR (map (fun v => mean (map (fun t => - ln (pv v t)) (seq 0 n))) l)
     = - sumR (map (fun v => mean (map (fun t => ln (pv v t)) (seq 0 n))) l)).
  { induction l as [|c l IH]; unfold sumR in *; cbn [map sumf]; [ring|]. rewrite IH, mean_opp. ring. }
  rewrite S. ring.
Qed.
