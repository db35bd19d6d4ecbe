(** C115, continued: vanishing noise. *)
From Coq Require Import Reals Lra Lia List ZArith Arith Bool Permutation.
From Verif Require Import Res RSum Spec SpecTE SpecTEc SpecBase SpecGamma MBase PBase MTE PTE2 MPct MNorm PropsPct MEst PEst PEst2 MCont SpecKern PKern PKern2 PKern3 PKern4 PKern5 PTEc MKnn SpecKnn SpecKnn2 PKnn PKnn2 PropsKnn PropsKnn2 PropsKnn3 PKnn3 PropsKnn4 PropsKnn5 PKnn4 PropsKnn6 MFam PropsKnn7 SpecFam PFam PropsFam PropsFam2 PropsFam3 SpecPert PPert PPert2 PPert3 PropsPert PropsPert2 PropsPert3.
Import ListNotations.
Local Open Scope R_scope.

Section Noise.
  Variable z : nat -> R.
  Lemma noise_row_close p pos : exists B, 0 <= B /\ forall lvl, 0 <= lvl -> Forall2 (rel (lvl * B)) p (noise_row lvl z pos p).
  Proof.
    revert pos. induction p as [|x p IH]; intros pos; [exists 0; split; [lra|]; intros; constructor|].
    destruct (IH (S pos)) as (B & HB & F). exists (Rabs (z pos) + B). pose proof (Rabs_pos (z pos)). split; [lra|]. intros lvl Hl. cbn [noise_row]. constructor.
    - unfold rel. replace (x - (x + lvl * z pos)) with (- (lvl * z pos)) by ring. rewrite Rabs_Ropp, Rabs_mult, (Rabs_right lvl) by lra. nra.
    - eapply Forall2_imp; [|apply (F lvl Hl)]. unfold rel. intros a c H'. nra.
  Qed.
  Lemma noise_rows_close v pos : exists B, 0 <= B /\ forall lvl, 0 <= lvl -> close (lvl * B) v (noise_rows lvl z pos v).
  Proof.
    revert pos. induction v as [|p v IH]; intros pos; [exists 0; split; [lra|]; intros; constructor|].
    destruct (IH (pos + length p)%nat) as (B & HB & F). destruct (noise_row_close p pos) as (B' & HB' & F'). exists (B + B'). split; [lra|].
    intros lvl Hl. cbn [noise_rows]. constructor.
    - eapply Forall2_imp; [|apply (F' lvl Hl)]. unfold rel. intros a c H'. nra.
    - eapply Forall2_imp; [|apply (F lvl Hl)]. intros x y. apply Forall2_imp. intros a c H'. nra.
  Qed.
  Lemma noise_vars_close vs pos : exists B, 0 <= B /\ forall lvl, 0 <= lvl -> near_all (lvl * B) vs (noise_vars lvl z pos vs).
  Proof.
    revert pos. induction vs as [|v vs IH]; intros pos; [exists 0; split; [lra|]; intros; constructor|].
    destruct (IH (pos + size v)%nat) as (B & HB & F). destruct (noise_rows_close v pos) as (B' & HB' & F'). exists (B + B'). split; [lra|].
    intros lvl Hl. cbn [noise_vars]. constructor.
    - eapply Forall2_imp; [|apply (F' lvl Hl)]. intros x y. apply Forall2_imp. intros a c H'. nra.
    - eapply near_all_mono; [|apply (F lvl Hl)]. nra.
  Qed.
End Noise.
Lemma noise_pos lvl z vs : 0 < lvl -> with_noise lvl z vs = Ok (noise_vars lvl z 0 vs).
Proof. intros H. unfold with_noise. destruct (Req_EM_T lvl 0); [lra|]. destruct (Rlt_dec lvl 0); [lra|reflexivity]. Qed.
Lemma near_close d vars ws : near_all d (map rows2d vars) ws -> close_data d vars (map F2 ws).
Proof.
  revert ws. induction vars as [|x l IH]; intros ws N; cbn [map] in N; inversion N; subst; cbn [map]; constructor; [assumption|apply IH; assumption].
Qed.
(** noise moves the data by at most a multiple of its level *)
Lemma vanish g f vars (noised : R -> list farr) : (exists B, 0 <= B /\ forall lvl, 0 < lvl -> close_data (lvl * B) vars (noised lvl)) ->
  f 0 = g vars -> (forall lvl, 0 < lvl -> f lvl = g (noised lvl)) -> continuous_in_data g vars -> noise_vanishes f.
Proof.
  intros (B & HB & C) F0 F1 (h & A & Q). exists h. split; [rewrite F0; exact A|]. intros eps He. destruct (Q eps He) as (d & Hd & W).
  exists (d / (B + 1)). split; [apply Rdiv_lt_0_compat; lra|]. intros lvl [L1 L2]. rewrite F1 by exact L1. apply W. eapply close_data_mono; [|apply C; exact L1].
  apply Rmult_lt_compat_r with (r := B + 1) in L2; [|lra]. replace (d / (B + 1) * (B + 1)) with d in L2 by (field; lra). nra.
Qed.
Lemma ignore g f vars (noised : R -> list farr) : (exists B, 0 <= B /\ forall lvl, 0 < lvl -> close_data (lvl * B) vars (noised lvl)) ->
  f 0 = g vars -> (forall lvl, 0 < lvl -> f lvl = g (noised lvl)) -> locally_constant g vars -> noise_ignored f.
Proof.
  intros (B & HB & C) F0 F1 (h & A & d & Hd & W). exists h. split; [rewrite F0; exact A|].
  exists (d / (B + 1)). split; [apply Rdiv_lt_0_compat; lra|]. intros lvl [L1 L2]. rewrite F1 by exact L1. apply W. eapply close_data_mono; [|apply C; exact L1].
  apply Rmult_lt_compat_r with (r := B + 1) in L2; [|lra]. replace (d / (B + 1) * (B + 1)) with d in L2 by (field; lra). nra.
Qed.
(** the keyword arguments of the metric estimators with a noise level *)
Definition noisy_args (w : variant) (m : mink) (b : base) (k : nat) (lvl : R) : nargs := mkNargs (NInt (Z.of_nat k)) (id_of w) lvl m b.

Section C115d.
  Context (E : nenv) (b : base) (V : valid_base b).
  Notation nz vars lvl := (map F2 (noise_vars lvl (draw E) 0 (map rows2d vars))).
  Lemma nz_close vars : exists B, 0 <= B /\ forall lvl, 0 < lvl -> close_data (lvl * B) vars (nz vars lvl).
  Proof. destruct (noise_vars_close (draw E) (map rows2d vars) 0) as (B & HB & F). exists B. split; [exact HB|]. intros lvl Hl. apply near_close, F. lra. Qed.
  Lemma rows_F2 ws : map rows2d (map F2 ws) = ws.
  Proof. rewrite map_map. apply map_id. Qed.

  Theorem C115_noise_entropy : forall w m n d a k, is_gamma (gam E) -> norm_ok (np_of m) -> (1 <= d)%nat -> table n d (rows2d a) -> (1 <= k < n)%nat ->
    apart (np_of m) n k [rows2d a] ->
    noise_vanishes (fun lvl => kl_entropy E (noisy_args w m b k lvl) (FArr a)).
  Proof.
    intros w m n d a k HG Hp Hd T Hk Ha.
    apply (vanish (fun l => kl_entropy E (ksg_args w m b k) (FArr (hd (F1 []) l))) _ [a] (fun lvl => nz [a] lvl)); [apply nz_close|reflexivity| |apply (C115_entropy E b V HG w m Hp n d); assumption].
    intros lvl Hl. cbn [map noise_vars hd]. unfold kl_entropy, kl_entropy_local. cbn [make_rows rows2d bind].
    pose proof (nz_close [a]) as (B & _ & C). specialize (C lvl Hl). cbn [map noise_vars] in C. inversion C as [|? ? ? ? C1 _]; subst. cbn [rows2d] in C1.
    pose proof (close_table _ _ _ _ _ C1 T) as T'.
    assert (W : width (noise_rows lvl (draw E) 0 (rows2d a)) = width (rows2d a)).
    { rewrite !(table_width n d) by (try assumption; lia). reflexivity. }
    rewrite W, (proj1 T), (proj1 T').
    assert (KC : kl_check (noisy_args w m b k lvl) = kl_check (ksg_args w m b k)).
    { unfold kl_check, noisy_args, ksg_args. cbn [n_k n_noise n_p n_id id_ok]. destruct (Rlt_dec lvl 0); [lra|]. destruct (Rlt_dec 0 0); [lra|]. reflexivity. }
    rewrite KC. destruct (kl_check (ksg_args w m b k)); cbn [bind]; try reflexivity.
    cbn [noisy_args ksg_args n_noise n_p n_id n_base]. rewrite noise_pos by exact Hl. rewrite no_noise. cbn [bind noise_vars hd]. reflexivity.
  Qed.
  Theorem C115_noise_ksg_mi : forall w m n vars k, norm_ok (np_of m) -> (2 <= length vars)%nat -> tables n (map rows2d vars) -> (1 <= k < n)%nat ->
    tie_free (np_of m) n k (map rows2d vars) ->
    noise_ignored (fun lvl => ksg_mi E (noisy_args w m b k lvl) (Some 0%Z) false vars).
  Proof.
    intros w m n vars k Hp Hv T Hk TF.
    apply (ignore (ksg_mi E (ksg_args w m b k) (Some 0%Z) false) _ vars (fun lvl => nz vars lvl)); [apply nz_close|reflexivity| |apply (C115_ksg_mi E w b V m n); assumption].
    intros lvl Hl. pose proof (nz_close vars) as (B & _ & C). specialize (C lvl Hl). pose proof (close_tables _ n _ _ C T) as T'. pose proof (close_length _ _ _ C) as LL.
    unfold ksg_mi, ksg_mi_local. rewrite !(fmi_init_ok n) by (try assumption; lia). cbn [bind noisy_args ksg_args n_noise n_k]. rewrite noise_pos by exact Hl. rewrite no_noise, rows_F2. reflexivity.
  Qed.
  Theorem C115_noise_family_mi : forall f n vars k q, is_gamma (gam E) -> (2 <= length vars)%nat -> tables n (map rows2d vars) -> (1 <= k < n)%nat -> 0 < q < INR k + 1 ->
    (forall x, In x vars -> apart (Some 2) n k [rows2d x]) ->
    noise_vanishes (fun lvl => fam_mi f E (ex_args k q b) lvl (Some 0%Z) false vars).
  Proof.
    intros f n vars k q HG Hv T Hk Hq Ha.
    apply (vanish (fam_mi f E (ex_args k q b) 0 (Some 0%Z) false) _ vars (fun lvl => nz vars lvl)); [apply nz_close|reflexivity| |apply (C115_family_mi E b V HG f n); assumption].
    intros lvl Hl. pose proof (nz_close vars) as (B & _ & C). specialize (C lvl Hl). pose proof (close_tables _ n _ _ C T) as T'. pose proof (close_length _ _ _ C) as LL.
    unfold fam_mi. rewrite !(fmi_init_ok n) by (try assumption; lia). cbn [bind]. rewrite noise_pos by exact Hl. rewrite no_noise, rows_F2. reflexivity.
  Qed.
  (** conditional mutual information: noise on the variables and then on the condition *)
  Theorem C115_noise_family_cmi : forall f n vars cond k q, is_gamma (gam E) -> (2 <= length vars)%nat -> tables n (map rows2d (cond :: vars)) -> (1 <= k < n)%nat -> 0 < q < INR k + 1 ->
    apart (Some 2) n k [rows2d cond] ->
    noise_vanishes (fun lvl => fam_cmi f E (ex_args k q b) lvl (Some 0%Z) false vars cond).
  Proof.
    intros f n vars cond k q HG Hv T Hk Hq Ha.
    set (nd := fun lvl => noise_vars lvl (draw E) 0 (map rows2d vars ++ [rows2d cond])).
    destruct (noise_vars_close (draw E) (map rows2d vars ++ [rows2d cond]) 0) as (B & HB & F).
    assert (Cl : forall lvl, 0 < lvl -> exists ws c, nd lvl = ws ++ [c] /\ near_all (lvl * B) (map rows2d vars) ws /\ close (lvl * B) (rows2d cond) c).
    { intros lvl Hl. specialize (F lvl ltac:(lra)). fold (nd lvl) in F. apply Forall2_app_inv_l in F as (ws & cs & F1 & F2' & ->). inversion F2' as [|? c ? ? H1 H2]; subst. inversion H2; subst. exists ws, c. auto. }
    assert (SP : forall c l, tables n (map rows2d (c :: l)) -> tables n (map rows2d l) /\ tables n [rows2d c]).
    { intros c l Tc. cbn [map] in Tc. unfold tables in *. inversion Tc. split; [assumption|apply Forall_cons; [assumption|apply Forall_nil]]. }
    apply (vanish (fun l => fam_cmi f E (ex_args k q b) 0 (Some 0%Z) false (tl l) (hd (F1 []) l)) _ (cond :: vars) (fun lvl => F2 (last (nd lvl) []) :: map F2 (firstn (length vars) (nd lvl))));
      [|reflexivity| |apply (C115_family_cmi E b V HG f n); assumption].
    - exists B. split; [exact HB|]. intros lvl Hl. destruct (Cl lvl Hl) as (ws & c & X & N & C). rewrite X, last_app.
      replace (length vars) with (length ws) by (apply Forall2_len in N; rewrite map_length in N; congruence). rewrite firstn_app_exact. constructor; [exact C|apply near_close; exact N].
    - intros lvl Hl. destruct (Cl lvl Hl) as (ws & c & X & N & C). rewrite X, last_app. assert (LW : length ws = length vars) by (apply Forall2_len in N; rewrite map_length in N; congruence).
      rewrite <- LW, firstn_app_exact. cbn [tl hd]. destruct (SP cond vars T) as [Tv Tz].
      assert (Tv' : tables n ws) by (eapply near_tables; eassumption). assert (Tz' : tables n [c]) by (eapply (near_tables (lvl * B)); [|exact Tz]; constructor; [exact C|constructor]).
      unfold fam_cmi. cbn [bind]. rewrite !(fcmi_init_ok n) by (rewrite ?rows_F2, ?map_length; try assumption; lia). cbn [bind fst snd]. rewrite noise_pos by exact Hl. rewrite no_noise. cbn [bind].
      fold (nd lvl). rewrite X. rewrite rows_F2. cbn [rows2d]. rewrite map_length, <- LW. reflexivity.
  Qed.

  (** transfer entropies: metric (noise on the destination first) and Renyi/Tsallis (source first) *)
  Lemma pair_close x y : exists B, 0 <= B /\ forall lvl, 0 < lvl -> exists x' y', noise_vars lvl (draw E) 0 [rows2d x; rows2d y] = [x'; y'] /\
    close (lvl * B) (rows2d x) x' /\ close (lvl * B) (rows2d y) y'.
  Proof.
    destruct (noise_vars_close (draw E) [rows2d x; rows2d y] 0) as (B & HB & F). exists B. split; [exact HB|]. intros lvl Hl. specialize (F lvl ltac:(lra)).
    cbn [noise_vars] in *. inversion F as [|? ? ? ? C1 F1]; subst. inversion F1 as [|? ? ? ? C2 _]; subst. do 2 eexists. split; [reflexivity|]. split; assumption.
  Qed.
  Theorem C115_noise_ksg_te : forall w n ds dd source dest l k c s rnd kn,
    table n ds (rows2d source) -> table n dd (rows2d dest) -> (1 <= l)%nat -> (1 <= k)%nat -> (1 <= s)%nat ->
    let d := (Nat.max k l * s)%nat in
    let m' := nrows n d s in
    let ts := base_times n d s in
    (d < n)%nat -> (1 <= kn < m')%nat -> rnd_ok rnd m' ->
    tie_free None m' kn [past_pts (rows2d dest) s k ts; rnd_rows rnd (past_pts (rows2d source) s l ts); present_pts (rows2d dest) ts] ->
    noise_ignored (fun lvl => ksg_te E (noisy_args w MInf b kn lvl) source dest (te_kw l k c s) rnd).
  Proof.
    intros w n ds dd source dest l k c s rnd kn Ts Td Hl Hk Hs d m' ts Hd Hkn Hr TF.
    destruct (pair_close dest source) as (B & HB & F).
    set (nd := fun lvl => noise_vars lvl (draw E) 0 [rows2d dest; rows2d source]).
    apply (ignore (fun a => ksg_te E (ksg_args w MInf b kn) (arr 0 a) (arr 1 a) (te_kw l k c s) rnd) _ [source; dest] (fun lvl => [F2 (nth 1 (nd lvl) []); F2 (nth 0 (nd lvl) [])]));
      [|reflexivity| |apply (C115_ksg_te E b V n ds dd); assumption].
    - exists B. split; [exact HB|]. intros lvl L. destruct (F lvl L) as (x & y & X & C1 & C2). unfold nd. rewrite X. cbn [nth]. constructor; [exact C2|]. constructor; [exact C1|constructor].
    - intros lvl L. destruct (F lvl L) as (x & y & X & C1 & C2). fold (nd lvl) in X. rewrite X. cbn [nth arr].
      pose proof (close_table _ _ _ _ _ C1 Td) as Td'. pose proof (close_table _ _ _ _ _ C2 Ts) as Ts'.
      unfold ksg_te, ksg_te_local, te_kw. cbn [a_prop a_offset a_step a_src a_dest rows2d].
      rewrite !fte_init_plain by (destruct Ts, Td, Ts', Td'; congruence). cbn [bind fst snd noisy_args ksg_args n_noise n_id].
      rewrite noise_pos by exact L. fold (nd lvl). rewrite X, no_noise. cbn [bind nth]. reflexivity.
  Qed.
  Theorem C115_noise_family_te : forall f n ds dd source dest l k c s rnd kn q, is_gamma (gam E) ->
    table n ds (rows2d source) -> table n dd (rows2d dest) -> (1 <= l)%nat -> (1 <= k)%nat -> (1 <= s)%nat ->
    let d := (Nat.max k l * s)%nat in
    let m' := nrows n d s in
    let ts := base_times n d s in
    (d < n)%nat -> (1 <= kn < m')%nat -> rnd_ok rnd m' -> 0 < q < INR kn + 1 ->
    apart (Some 2) m' kn [past_pts (rows2d dest) s k ts] ->
    noise_vanishes (fun lvl => fam_te f E (ex_args kn q b) lvl source dest (te_kw l k c s) rnd).
  Proof.
    intros f n ds dd source dest l k c s rnd kn q HG Ts Td Hl Hk Hs d m' ts Hd Hkn Hr Hq Ha.
    destruct (pair_close source dest) as (B & HB & F).
    set (nd := fun lvl => noise_vars lvl (draw E) 0 [rows2d source; rows2d dest]).
    apply (vanish (fun a => fam_te f E (ex_args kn q b) 0 (arr 0 a) (arr 1 a) (te_kw l k c s) rnd) _ [source; dest] (fun lvl => [F2 (nth 0 (nd lvl) []); F2 (nth 1 (nd lvl) [])]));
      [|reflexivity| |apply (C115_family_te E b V n ds dd); assumption].
    - exists B. split; [exact HB|]. intros lvl L. destruct (F lvl L) as (x & y & X & C1 & C2). unfold nd. rewrite X. cbn [nth]. constructor; [exact C1|]. constructor; [exact C2|constructor].
    - intros lvl L. destruct (F lvl L) as (x & y & X & C1 & C2). fold (nd lvl) in X. rewrite X. cbn [nth arr].
      pose proof (close_table _ _ _ _ _ C1 Ts) as Ts'. pose proof (close_table _ _ _ _ _ C2 Td) as Td'.
      unfold fam_te, te_kw. cbn [a_prop a_offset a_step a_src a_dest rows2d].
      rewrite !fte_init_plain by (destruct Ts, Td, Ts', Td'; congruence). cbn [bind fst snd].
      rewrite noise_pos by exact L. fold (nd lvl). rewrite X, no_noise. cbn [bind nth]. reflexivity.
  Qed.
  (** with ties the limit is wrong: two equal variables, and draws that separate them *)
  Theorem C115_noise_ties_refuted : draw E 1 - draw E 0 < draw E 3 - draw E 2 ->
    ksg_mi E (noisy_args Strict MInf b 1 0) (Some 0%Z) false [F1 [0; 1]; F1 [0; 1]] = Ok (1 / unit_of b) /\
    forall lvl, 0 < lvl -> 0 < 1 + lvl * (draw E 1 - draw E 0) ->
      ksg_mi E (noisy_args Strict MInf b 1 lvl) (Some 0%Z) false [F1 [0; 1]; F1 [0; 1]] = Ok 0.
  Proof.
    intros HD. destruct (C115_ties_refuted E b V) as [A Bq]. split; [exact A|]. intros lvl Hl HP.
    set (a := draw E 0) in *. set (a1 := draw E 1) in *. set (c := draw E 2) in *. set (c1 := draw E 3) in *.
    set (r := 1 + lvl * (a1 - a)). set (h := lvl * ((c1 - c) - (a1 - a)) / r). assert (Hr : 0 < r) by exact HP.
    assert (Hh : 0 < h) by (unfold h; apply Rdiv_lt_0_compat; [apply Rmult_lt_0_compat; lra|exact Hr]).
    assert (X : ksg_mi E (noisy_args Strict MInf b 1 lvl) (Some 0%Z) false [F1 [0; 1]; F1 [0; 1]]
              = ksg_mi E (ksg_args Strict MInf b 1) (Some 0%Z) false [F1 [0 + lvl * a; 1 + lvl * a1]; F1 [0 + lvl * c; 1 + lvl * c1]]).
    { assert (TT : forall x y u v, tables 2 (map rows2d [F1 [x; y]; F1 [u; v]])) by (intros; unfold tables; cbn; repeat (apply Forall_cons; [exists 1%nat; repeat constructor|]); apply Forall_nil).
      unfold ksg_mi, ksg_mi_local. rewrite !(fmi_init_ok 2) by (try apply TT; cbn; lia). cbn [bind noisy_args ksg_args n_noise n_k]. rewrite noise_pos by exact Hl. rewrite no_noise. reflexivity. }
    rewrite X. rewrite <- (Bq h Hh). symmetry.
    (* shifting each variable and scaling both by r *)
    assert (TT : forall x y u v, tables 2 (map rows2d [F1 [x; y]; F1 [u; v]])) by (intros; unfold tables; cbn; repeat (apply Forall_cons; [exists 1%nat; repeat constructor|]); apply Forall_nil).
    symmetry. apply (C68_distances_only E Strict MInf b Logic.I V 2 _ _ 1 (fun t => t) r); try assumption; try apply TT; [cbn; lia|lia|rewrite map_id; reflexivity|].
    assert (Q : forall x y x' y', r * Rabs (x - y) = Rabs (x' - y') -> r * Rabs (y - x) = Rabs (y' - x')).
    { intros x y x' y' Hx. rewrite (Rabs_minus_sym y x), (Rabs_minus_sym y' x'). exact Hx. }
    assert (RH : r * (1 + h) = 1 + lvl * (c1 - c)) by (unfold h; replace (r * (1 + lvl * (c1 - c - (a1 - a)) / r)) with (r + lvl * (c1 - c - (a1 - a))) by (field; lra); unfold r; ring).
    assert (R1 : forall x y x' y', r * (y - x) = y' - x' -> x <= y -> forall t u, (t < 2)%nat -> (u < 2)%nat ->
       dst (np_of MInf) (nth t (rows2d (F1 [x'; y'])) []) (nth u (rows2d (F1 [x'; y'])) []) = r * dst (np_of MInf) (nth t (rows2d (F1 [x; y])) []) (nth u (rows2d (F1 [x; y])) [])).
    { intros x y x' y' Hx Hle. assert (L' : x' <= y') by nra.
      intros [|[|t]] [|[|u]] Ht Hu; try lia; cbn [rows2d map nth]; rewrite !dst1 by exact Logic.I.
      - rewrite !Rminus_diag_eq, Rabs_R0 by reflexivity. ring.
      - rewrite (Rabs_left1 (x' - y')), (Rabs_left1 (x - y)) by lra. lra.
      - rewrite (Rabs_right (y' - x')), (Rabs_right (y - x)) by lra. lra.
      - rewrite !Rminus_diag_eq, Rabs_R0 by reflexivity. ring. }
    constructor; [|constructor; [|constructor]]; intros t u Ht Hu.
    - apply R1; try assumption; [|lra]. unfold r. ring.
    - apply R1; try assumption; [|lra]. replace (1 + h - 0) with (1 + h) by ring. rewrite RH. ring.
  Qed.
End C115d.
