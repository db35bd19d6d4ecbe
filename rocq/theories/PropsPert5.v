(** C115, continued: noise in conditional measures; examples. *)
From Coq Require Import Reals Lra Lia List ZArith Arith Bool Permutation.
From Verif Require Import Res RSum Spec SpecTE SpecTEc SpecBase SpecGamma MBase PBase MTE PTE2 MPct MNorm PropsPct MEst PEst PEst2 MCont SpecKern PKern PKern2 PKern3 PKern4 PKern5 PTEc MKnn SpecKnn SpecKnn2 PKnn PKnn2 PropsKnn PropsKnn2 PropsKnn3 PKnn3 PropsKnn4 PropsKnn5 PKnn4 PropsKnn6 MFam PropsKnn7 SpecFam PFam PropsFam PropsFam2 PropsFam3 SpecPert PPert PPert2 PPert3 PropsPert PropsPert2 PropsPert3 PropsPert4.
Import ListNotations.
Local Open Scope R_scope.

Section C115e.
  Context (E : nenv) (b : base) (V : valid_base b).
  Lemma triple_close x y v : exists B, 0 <= B /\ forall lvl, 0 < lvl -> exists x' y' v', noise_vars lvl (draw E) 0 [rows2d x; rows2d y; rows2d v] = [x'; y'; v'] /\
    close (lvl * B) (rows2d x) x' /\ close (lvl * B) (rows2d y) y' /\ close (lvl * B) (rows2d v) v'.
  Proof.
    destruct (noise_vars_close (draw E) [rows2d x; rows2d y; rows2d v] 0) as (B & HB & F). exists B. split; [exact HB|]. intros lvl Hl. specialize (F lvl ltac:(lra)).
    cbn [noise_vars] in *. inversion F as [|? ? ? ? C1 F1]; subst. inversion F1 as [|? ? ? ? C2 F2']; subst. inversion F2' as [|? ? ? ? C3 _]; subst.
    do 3 eexists. split; [reflexivity|]. split; [assumption|]. split; assumption.
  Qed.
  Lemma fcte_ok (x y v : list pt) n : length x = n -> length y = n -> length v = n -> fcte_init x y v (Some (NInt 0)) None = Ok tt.
  Proof. intros A B C. unfold fcte_init. rewrite A, B, C, Nat.eqb_refl. reflexivity. Qed.
  Theorem C115_noise_ksg_cte : forall w n ds dd dc source dest cond l k c s kn,
    table n ds (rows2d source) -> table n dd (rows2d dest) -> table n dc (rows2d cond) -> (1 <= l)%nat -> (1 <= k)%nat -> (1 <= c)%nat -> (1 <= s)%nat ->
    let d := (Nat.max (Nat.max k l) c * s)%nat in
    let m' := nrows n d s in
    let ts := base_times n d s in
    (d < n)%nat -> (1 <= kn < m')%nat ->
    tie_free None m' kn [joined m' [past_pts (rows2d dest) s k ts; past_pts (rows2d cond) s c ts]; past_pts (rows2d source) s l ts; present_pts (rows2d dest) ts] ->
    noise_ignored (fun lvl => ksg_cte E (noisy_args w MInf b kn lvl) source dest cond (te_kw l k c s)).
  Proof.
    intros w n ds dd dc source dest cond l k c s kn Ts Td Tc Hl Hk Hc Hs d m' ts Hd Hkn TF.
    destruct (triple_close dest source cond) as (B & HB & F).
    set (nd := fun lvl => noise_vars lvl (draw E) 0 [rows2d dest; rows2d source; rows2d cond]).
    apply (ignore (fun a => ksg_cte E (ksg_args w MInf b kn) (arr 0 a) (arr 1 a) (arr 2 a) (te_kw l k c s)) _ [source; dest; cond] (fun lvl => [F2 (nth 1 (nd lvl) []); F2 (nth 0 (nd lvl) []); F2 (nth 2 (nd lvl) [])]));
      [|reflexivity| |apply (C115_ksg_cte E b V n ds dd dc); assumption].
    - exists B. split; [exact HB|]. intros lvl L. destruct (F lvl L) as (x & y & v & X & C1 & C2 & C3). unfold nd. rewrite X. cbn [nth]. constructor; [exact C2|]. constructor; [exact C1|]. constructor; [exact C3|constructor].
    - intros lvl L. destruct (F lvl L) as (x & y & v & X & C1 & C2 & C3). fold (nd lvl) in X. rewrite X. cbn [nth arr].
      pose proof (close_table _ _ _ _ _ C1 Td) as Td'. pose proof (close_table _ _ _ _ _ C2 Ts) as Ts'. pose proof (close_table _ _ _ _ _ C3 Tc) as Tc'.
      unfold ksg_cte, ksg_cte_local, te_kw. cbn [a_prop a_offset a_step a_src a_dest a_cond rows2d].
      rewrite !(fcte_ok _ _ _ n) by (first [apply Ts|apply Td|apply Tc|apply Ts'|apply Td'|apply Tc']). cbn [bind noisy_args ksg_args n_noise n_id].
      rewrite noise_pos by exact L. fold (nd lvl). rewrite X, no_noise. cbn [bind nth]. reflexivity.
  Qed.
  Theorem C115_noise_family_cte : forall f n ds dd dc source dest cond l k c s kn q, is_gamma (gam E) ->
    table n ds (rows2d source) -> table n dd (rows2d dest) -> table n dc (rows2d cond) -> (1 <= l)%nat -> (1 <= k)%nat -> (1 <= c)%nat -> (1 <= s)%nat ->
    let d := (Nat.max (Nat.max k l) c * s)%nat in
    let m' := nrows n d s in
    let ts := base_times n d s in
    (d < n)%nat -> (1 <= kn < m')%nat -> 0 < q < INR kn + 1 ->
    apart (Some 2) m' kn [joined m' [past_pts (rows2d dest) s k ts; past_pts (rows2d cond) s c ts]] ->
    noise_vanishes (fun lvl => fam_cte f E (ex_args kn q b) lvl source dest cond (te_kw l k c s)).
  Proof.
    intros f n ds dd dc source dest cond l k c s kn q HG Ts Td Tc Hl Hk Hc Hs d m' ts Hd Hkn Hq Ha.
    destruct (triple_close source dest cond) as (B & HB & F).
    set (nd := fun lvl => noise_vars lvl (draw E) 0 [rows2d source; rows2d dest; rows2d cond]).
    apply (vanish (fun a => fam_cte f E (ex_args kn q b) 0 (arr 0 a) (arr 1 a) (arr 2 a) (te_kw l k c s)) _ [source; dest; cond] (fun lvl => [F2 (nth 0 (nd lvl) []); F2 (nth 1 (nd lvl) []); F2 (nth 2 (nd lvl) [])]));
      [|reflexivity| |apply (C115_family_cte E b V n ds dd dc); assumption].
    - exists B. split; [exact HB|]. intros lvl L. destruct (F lvl L) as (x & y & v & X & C1 & C2 & C3). unfold nd. rewrite X. cbn [nth]. constructor; [exact C1|]. constructor; [exact C2|]. constructor; [exact C3|constructor].
    - intros lvl L. destruct (F lvl L) as (x & y & v & X & C1 & C2 & C3). fold (nd lvl) in X. rewrite X. cbn [nth arr].
      pose proof (close_table _ _ _ _ _ C1 Ts) as Ts'. pose proof (close_table _ _ _ _ _ C2 Td) as Td'. pose proof (close_table _ _ _ _ _ C3 Tc) as Tc'.
      unfold fam_cte, te_kw. cbn [a_prop a_offset a_step a_src a_dest a_cond rows2d].
      rewrite !(fcte_ok _ _ _ n) by (first [apply Ts|apply Td|apply Tc|apply Ts'|apply Td'|apply Tc']). cbn [bind].
      rewrite noise_pos by exact L. fold (nd lvl). rewrite X, no_noise. cbn [bind nth]. reflexivity.
  Qed.

  (** ** KSG conditional mutual information: the noise loop *)
  Definition shape (vs : list (list (list R))) : list (list nat) := map (map (@length R)) vs.
  Lemma near_shape d vs ws : near_all d vs ws -> shape ws = shape vs.
  Proof.
    intros N. unfold shape. induction N as [|v w vs ws C N IH]; [reflexivity|]. cbn. f_equal; [|exact IH]. clear - C. unfold close in C.
    induction C as [|x y v w H C IH]; [reflexivity|]. cbn. f_equal; [symmetry; eapply Forall2_len; exact H|exact IH].
  Qed.
  Lemma near_trans d d' vs ws us : near_all d vs ws -> near_all d' ws us -> near_all (d + d') vs us.
  Proof.
    assert (G : forall A (P Q S : A -> A -> Prop) (l m r : list A), (forall x y u, P x y -> Q y u -> S x u) -> Forall2 P l m -> Forall2 Q m r -> Forall2 S l r).
    { intros A P Q S l m r H F. revert r. induction F; intros r F'; inversion F'; subst; constructor; eauto. }
    unfold near_all, close. apply G. intros v w u. apply G. intros x y p. apply G. intros a c e H H'. unfold rel in *. replace (a - e) with ((a - c) + (c - e)) by ring.
    eapply Rle_trans; [apply Rabs_triang|]. lra.
  Qed.
  Lemma upd_close z v j pos : exists B, 0 <= B /\ forall lvl, 0 <= lvl -> forall w, map (@length R) w = map (@length R) v ->
    close (lvl * B) w (upd j (noise_row lvl z pos) w).
  Proof.
    (* the draws used depend on the length of row j only *)
    assert (RB : forall m pos, exists B, 0 <= B /\ forall lvl, 0 <= lvl -> forall p, length p = m -> Forall2 (rel (lvl * B)) p (noise_row lvl z pos p)).
    { induction m as [|m IH]; intros q.
      - exists 0. split; [lra|]. intros lvl _ p L. destruct p; [constructor|discriminate].
      - destruct (IH (S q)) as (B & HB & F). exists (Rabs (z q) + B). pose proof (Rabs_pos (z q)). split; [lra|]. intros lvl Hl p L. destruct p as [|x p]; [discriminate|]. injection L as L. cbn [noise_row]. constructor.
        + unfold rel. replace (x - (x + lvl * z q)) with (- (lvl * z q)) by ring. rewrite Rabs_Ropp, Rabs_mult, (Rabs_right lvl) by lra. nra.
        + eapply Forall2_imp; [|apply (F lvl Hl p L)]. unfold rel. intros a c H'. nra. }
    revert j. induction v as [|p v IH]; intros j.
    - exists 0. split; [lra|]. intros lvl _ w L. destruct w; [|discriminate]. destruct j; constructor.
    - destruct j as [|j].
      + destruct (RB (length p) pos) as (B & HB & F). exists B. split; [exact HB|]. intros lvl Hl w L. destruct w as [|x w]; [discriminate|]. cbn in L. injection L as Lx L. cbn [upd]. constructor; [apply F; assumption|].
        pose proof (near_all_refl (lvl * B) [w] ltac:(nra)) as N. inversion N; assumption.
      + destruct (IH j) as (B & HB & F). exists B. split; [exact HB|]. intros lvl Hl w L. destruct w as [|x w]; [discriminate|]. cbn in L. injection L as Lx L. cbn [upd]. constructor; [|apply F; assumption].
        pose proof (near_all_refl (lvl * B) [[x]] ltac:(nra)) as N. inversion N as [|? ? ? ? N1 _]; subst. inversion N1; assumption.
  Qed.
  Lemma rows_close_shape z v pos : exists B, 0 <= B /\ forall lvl, 0 <= lvl -> forall w, map (@length R) w = map (@length R) v -> close (lvl * B) w (noise_rows lvl z pos w).
  Proof.
    revert pos. induction v as [|p v IH]; intros pos.
    - exists 0. split; [lra|]. intros lvl _ w L. destruct w; [constructor|discriminate].
    - destruct (IH (pos + length p)%nat) as (B & HB & F). destruct (upd_close z [p] 0 pos) as (B' & HB' & F'). exists (B + B'). split; [lra|]. intros lvl Hl w L. destruct w as [|x w]; [discriminate|]. cbn in L. injection L as Lx L.
      cbn [noise_rows]. constructor.
      + specialize (F' lvl Hl [x] ltac:(cbn; congruence)). cbn [upd] in F'. inversion F' as [|? ? ? ? H1 _]; subst. eapply Forall2_imp; [|exact H1]. cbn. intros a c H. nra.
      + rewrite Lx. eapply Forall2_imp; [|apply (F lvl Hl w L)]. intros a c. apply Forall2_imp. intros q q' H. nra.
  Qed.
  Lemma row_vars_close z vs j pos : exists B pos', 0 <= B /\ forall lvl, 0 <= lvl -> forall ws, shape ws = shape vs ->
    near_all (lvl * B) ws (fst (noise_row_vars lvl z j pos ws)) /\ snd (noise_row_vars lvl z j pos ws) = pos'.
  Proof.
    revert pos. induction vs as [|v vs IH]; intros pos.
    - exists 0, pos. split; [lra|]. intros lvl _ ws L. destruct ws; [|discriminate]. split; [constructor|reflexivity].
    - destruct (IH (pos + length (nth j v []))%nat) as (B & pos' & HB & F). destruct (upd_close z v j pos) as (B' & HB' & F').
      exists (B + B'), pos'. split; [lra|]. intros lvl Hl ws L. destruct ws as [|w ws]; [discriminate|]. cbn in L. injection L as Lw L. cbn [noise_row_vars].
      assert (X : length (nth j w []) = length (nth j v [])).
      { change (length (nth j w []) = length (nth j v [])) with ((@length R) (nth j w []) = (@length R) (nth j v [])). rewrite <- !(map_nth (@length R)). rewrite Lw. reflexivity. }
      rewrite X. destruct (F lvl Hl ws L) as [N S]. destruct (noise_row_vars lvl z j (pos + length (nth j v [])) ws) as [ws' p'] eqn:EQ. cbn [fst snd] in *. split; [|exact S].
      constructor.
      + specialize (F' lvl Hl w Lw). eapply Forall2_imp; [|exact F']. intros a c. apply Forall2_imp. intros q q' H. nra.
      + eapply near_all_mono; [|exact N]. nra.
  Qed.
  Lemma cmi_noise_close z js vs v pos : exists B, 0 <= B /\ forall lvl, 0 <= lvl -> forall ws u, shape ws = shape vs -> map (@length R) u = map (@length R) v ->
    near_all (lvl * B) (u :: ws) (snd (cmi_noise lvl z js pos ws u) :: fst (cmi_noise lvl z js pos ws u)).
  Proof.
    revert pos. induction js as [|j js IH]; intros pos.
    - exists 0. split; [lra|]. intros lvl Hl ws u _ _. cbn. apply near_all_refl. nra.
    - destruct (row_vars_close z vs j pos) as (B1 & pos' & HB1 & F1). destruct (rows_close_shape z v pos') as (B2 & HB2 & F2').
      destruct (IH (pos' + size v)%nat) as (B & HB & F). exists (B1 + B2 + B). split; [lra|]. intros lvl Hl ws u Lw Lu. cbn [cmi_noise].
      destruct (F1 lvl Hl ws Lw) as [N S]. destruct (noise_row_vars lvl z j pos ws) as [ws' p'] eqn:EQ. cbn [fst snd] in *. subst p'.
      assert (SZ : size u = size v) by (unfold size; rewrite Lu; reflexivity). rewrite SZ.
      pose proof (F2' lvl Hl u Lu) as NU.
      assert (ST : near_all (lvl * (B1 + B2)) (u :: ws) (noise_rows lvl z pos' u :: ws')).
      { constructor; [|eapply near_all_mono; [|exact N]; nra]. eapply Forall2_imp; [|exact NU]. intros a c. apply Forall2_imp. intros q q' H. nra. }
      pose proof (near_shape _ _ _ ST) as SH. cbn in SH. injection SH as SH1 SH2.
      replace (lvl * (B1 + B2 + B)) with (lvl * (B1 + B2) + lvl * B) by ring. eapply near_trans; [exact ST|]. apply F; [exact Hl|exact (eq_trans SH2 Lw)|exact (eq_trans SH1 Lu)].
  Qed.
  Theorem C115_noise_ksg_cmi : forall w n vars cond k, (2 <= length vars)%nat -> tables n (map rows2d (cond :: vars)) -> (1 <= k < n)%nat ->
    tie_free None n k (map rows2d (cond :: vars)) ->
    noise_ignored (fun lvl => ksg_cmi E (noisy_args w MInf b k lvl) (Some 0%Z) false vars cond).
  Proof.
    intros w n vars cond k Hv T Hk TF. set (vs := map rows2d vars). set (c := rows2d cond).
    set (nd := fun lvl => cmi_noise lvl (draw E) (seq 0 (length (hd [] vs))) 0 vs c).
    destruct (cmi_noise_close (draw E) (seq 0 (length (hd [] vs))) vs c 0) as (B & HB & F).
    assert (SP : forall c l, tables n (c :: l) -> tables n l /\ tables n [c]).
    { intros c' l Tc. unfold tables in *. inversion Tc. split; [assumption|apply Forall_cons; [assumption|apply Forall_nil]]. }
    assert (N : forall lvl, 0 < lvl -> near_all (lvl * B) (map rows2d (cond :: vars)) (snd (nd lvl) :: fst (nd lvl))) by (intros lvl L; apply (F lvl ltac:(lra) vs c eq_refl eq_refl)).
    apply (ignore (fun l => ksg_cmi E (ksg_args w MInf b k) (Some 0%Z) false (tl l) (hd (F1 []) l)) _ (cond :: vars) (fun lvl => F2 (snd (nd lvl)) :: map F2 (fst (nd lvl))));
      [|reflexivity| |apply (C115_ksg_cmi E w b V n); assumption].
    - exists B. split; [exact HB|]. intros lvl L. apply (near_close (lvl * B) (cond :: vars) (snd (nd lvl) :: fst (nd lvl))). apply N. exact L.
    - intros lvl L. cbn [tl hd]. pose proof (near_tables _ n _ _ (N lvl L) T) as T'. destruct (SP _ _ T') as [Tv' Tz']. destruct (SP _ _ T) as [Tv Tz].
      pose proof (Forall2_len _ _ _ (N lvl L)) as LL. cbn [map length] in LL. injection LL as LL. rewrite map_length in LL.
      unfold ksg_cmi, ksg_cmi_local. cbn [bind]. rewrite !(fcmi_init_ok n) by (rewrite ?rows_F2, ?map_length; try assumption; lia). cbn [bind fst snd noisy_args ksg_args n_noise n_id].
      assert (NN : forall x, cmi_with_noise 0 (draw E) (fst x) (snd x) = Ok x) by (intros [x y]; unfold cmi_with_noise; destruct (Req_EM_T 0 0); [reflexivity|congruence]).
      assert (NL : cmi_with_noise lvl (draw E) vs c = Ok (nd lvl)).
      { unfold cmi_with_noise. destruct (Req_EM_T lvl 0); [lra|]. destruct (Rlt_dec lvl 0); [lra|]. replace (existsb _ vs) with false; [reflexivity|]. symmetry.
        assert (LE : forall v, In v vs -> length v = n) by (intros v Hin; unfold tables in Tv; rewrite Forall_forall in Tv; destruct (Tv v Hin) as (dd & X); apply X).
        assert (LH : length (hd [] vs) = n) by (apply LE; unfold vs; destruct vars; [cbn in Hv; lia|left; reflexivity]).
        destruct (existsb _ vs) eqn:EX; [|reflexivity]. apply existsb_exists in EX as (v & Hin & LT). apply Nat.ltb_lt in LT. rewrite (LE v Hin), LH in LT. lia. }
      fold vs c. rewrite NL, rows_F2. cbn [rows2d]. pose proof (NN (fst (nd lvl), snd (nd lvl))) as NN'. cbn [fst snd] in NN'. rewrite NN'. destruct (nd lvl). reflexivity.
  Qed.
End C115e.

(** ** examples: the hypotheses are met *)
Example C115_apart_example : apart (Some 2) 4 2 [rows2d (F1 [0; 1; 3; 7])] /\ apart None 4 2 [rows2d (F1 [0; 1; 3; 7])].
Proof.
  assert (A : forall p, norm_ok p -> apart p 4 2 [rows2d (F1 [0; 1; 3; 7])]).
  { intros p Hp t e Ht ((u & Hu & Nu & ->) & _). rewrite jdist_1. cbn [rows2d map].
    destruct t as [|[|[|[|t]]]]; destruct u as [|[|[|[|u]]]]; try lia; cbn [nth]; rewrite dst1 by exact Hp; apply Rabs_pos_lt; lra. }
  split; apply A; [cbn; lra|exact Logic.I].
Qed.
(** three samples of two variables *)
Example C115_tie_free_example : tie_free None 3 1 (map rows2d [F1 [0; 1; 3]; F1 [0; 5; 9]]) /\ tie_free (Some 2) 3 1 (map rows2d [F1 [0; 1; 3]; F1 [0; 5; 9]]).
Proof.
  assert (TT : tables 3 (map rows2d [F1 [0; 1; 3]; F1 [0; 5; 9]])) by (unfold tables; cbn; repeat (apply Forall_cons; [exists 1%nat; repeat constructor|]); apply Forall_nil).
  assert (AL : forall x y, x < y -> Rabs (x - y) = y - x) by (intros; rewrite Rabs_left1; lra).
  assert (AR : forall x y, x < y -> Rabs (y - x) = y - x) by (intros; rewrite Rabs_right; lra).
  split; intros t e Ht ((u0 & H0 & N0 & E0) & _).
  - assert (J : e = Rmax (Rabs (nth t [0; 1; 3] 0 - nth u0 [0; 1; 3] 0)) (Rabs (nth t [0; 5; 9] 0 - nth u0 [0; 5; 9] 0))).
    { rewrite E0, (jdist_norm None 3) by (try assumption; exact Logic.I). cbn [map rows2d norm fold_right].
      destruct t as [|[|[|t]]]; destruct u0 as [|[|[|u0]]]; try lia; cbn [nth]; rewrite !dst1 by exact Logic.I; rewrite !Rabs_Rabsolu; f_equal; apply Rmax_left; apply Rabs_pos. }
    intros u u' i i' Hu Hu' Nu Nu' Hi Hi'. cbn [map length] in Hi, Hi'.
    assert (D : forall v j, (v < 3)%nat -> (j < 2)%nat -> jdist None [nth j (map rows2d [F1 [0; 1; 3]; F1 [0; 5; 9]]) []] t v = Rabs (nth t (nth j [[0; 1; 3]; [0; 5; 9]] []) 0 - nth v (nth j [[0; 1; 3]; [0; 5; 9]] []) 0)).
    { intros v j Hv Hj. rewrite jdist_1. destruct j as [|[|j]]; [| |lia]; cbn [map rows2d nth]; destruct t as [|[|[|t]]]; destruct v as [|[|[|v]]]; try lia; cbn [nth]; rewrite dst1 by exact Logic.I; reflexivity. }
    rewrite !D by assumption. rewrite J. clear D J E0 TT.
    destruct t as [|[|[|t]]]; try lia; destruct u0 as [|[|[|u0]]]; try lia; cbn [nth];
      repeat first [rewrite (AL 0) by lra|rewrite (AR 0) by lra|rewrite (AL 1) by lra|rewrite (AR 1) by lra|rewrite (AL 5) by lra|rewrite (AR 5) by lra];
      (rewrite Rmax_right by lra);
      destruct u as [|[|[|u]]]; try lia; destruct u' as [|[|[|u']]]; try lia; destruct i as [|[|i]]; try lia; destruct i' as [|[|i']]; try lia; cbn [nth];
      repeat first [rewrite (AL 0) by lra|rewrite (AR 0) by lra|rewrite (AL 1) by lra|rewrite (AR 1) by lra|rewrite (AL 5) by lra|rewrite (AR 5) by lra]; intros A B; solve [lra|split; reflexivity].
  - assert (N2 : norm_ok (Some 2)) by (cbn; lra).
    (* squares of the distances: 26, 90 from sample 0; 26, 20 from 1; 90, 20 from 2 *)
    assert (SQ : forall v, (v < 3)%nat -> v <> t -> jdist (Some 2) (map rows2d [F1 [0; 1; 3]; F1 [0; 5; 9]]) t v
       = sqrt ((nth t [0; 1; 3] 0 - nth v [0; 1; 3] 0) ^ 2 + (nth t [0; 5; 9] 0 - nth v [0; 5; 9] 0) ^ 2)).
    { intros v Hv Nv. rewrite (jdist_norm (Some 2) 3) by assumption. cbn [map rows2d norm].
      assert (PW : forall x, x <> 0 -> powr (Rabs x) 2 = x ^ 2).
      { intros x Hx. unfold powr. destruct (Req_EM_T (Rabs x) 0) as [Z|_]; [apply Rabs_no_R0 in Hx; contradiction|].
        replace 2 with (INR 2) at 1 by (cbn; ring). rewrite Rpower_pow by (apply Rabs_pos_lt; exact Hx). rewrite pow2_abs. reflexivity. }
      assert (SR : forall x, 0 < x -> powr x (/ 2) = sqrt x) by (intros x Hx; unfold powr; destruct (Req_EM_T x 0); [lra|]; rewrite Rpower_sqrt by exact Hx; reflexivity).
      destruct t as [|[|[|t]]]; destruct v as [|[|[|v]]]; try lia; cbn [nth]; rewrite !dst1 by exact N2; rewrite !Rabs_Rabsolu; unfold sumR; cbn [sumf]; rewrite !PW by lra; rewrite SR by nra; f_equal; ring. }
    rewrite (SQ u0 H0 N0) in E0. subst e. split.
    + intros u u' Hu Hu' Nu Nu'. rewrite !SQ by assumption. clear SQ TT.
      destruct t as [|[|[|t]]]; try lia; destruct u0 as [|[|[|u0]]]; try lia; destruct u as [|[|[|u]]]; try lia; destruct u' as [|[|[|u']]]; try lia; cbn [nth]; intros A B; try reflexivity;
        first [apply sqrt_inj in A; [exfalso; lra|nra|nra]|apply sqrt_inj in B; [exfalso; lra|nra|nra]].
    + intros u i Hu Nu Hi. cbn [map length] in Hi. rewrite jdist_1.
      assert (Q : forall x y, 0 <= y -> x = sqrt y -> x ^ 2 = y) by (intros x y Hy ->; rewrite pow2_sqrt by exact Hy; reflexivity).
      intros A. destruct t as [|[|[|t]]]; try lia; destruct u0 as [|[|[|u0]]]; try lia; destruct u as [|[|[|u]]]; try lia; destruct i as [|[|i]]; try lia; cbn [map rows2d nth] in A;
        rewrite dst1 in A by exact N2; apply Q in A; try nra; rewrite pow2_abs in A; lra.
Qed.
