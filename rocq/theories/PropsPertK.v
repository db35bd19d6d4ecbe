(** C116: kernel estimates under small changes of the data. *)
From Coq Require Import Reals Lra Lia List ZArith Arith Bool Permutation.
From Verif Require Import Res RSum Spec SpecTE SpecTEc SpecBase SpecGamma MBase PBase MTE PTE2 MCont MKern SpecKern PKern PKern2 PKern3 PKern4 PKern5 PTEc PropsKern PropsKern2 PropsKern3 PropsKern4 SpecKnn PKnn2 PropsKnn PropsKnn2 SpecPert PPert PropsPert PropsPert2 PropsPert3 SpecPertK PPertK.
Import ListNotations.
Local Open Scope R_scope.

Lemma close_tabs d n ds vars vars' : close_data d vars vars' -> Forall2 (fun w a => table n w (rows2d a)) ds vars -> Forall2 (fun w a => table n w (rows2d a)) ds vars'.
Proof.
  intros C. revert ds. induction C as [|x y l l' H C IH]; intros ds F; inversion F; subst; constructor; [eapply close_table; eassumption|apply IH; assumption].
Qed.
Lemma edge_one h a : off_edge h (rows2d a) (rows2d a) -> edgeless h [rows2d a].
Proof. intros O. constructor; [exact O|constructor]. Qed.
Lemma edge_map h vars : List.Forall (fun a => off_edge h (rows2d a) (rows2d a)) vars -> edgeless h (map rows2d vars).
Proof. induction 1; cbn; constructor; assumption. Qed.

Section C116.
  Context (E : kenv) (h : R) (w : Z) (b : base).
  Hypothesis (Hh : 0 < h) (HC : (0 < cpus E)%Z) (HW : workers_ok w) (HV : valid_base b).

  (** no pair of samples on the edge of each other's box: the box-kernel estimates do not change at all *)
  Theorem C116_box_entropy : forall n d a, (2 <= n)%nat -> table n d (rows2d a) -> off_edge h (rows2d a) (rows2d a) ->
    locally_constant (fun l => kernel_entropy E (box_args h w b) (FArr (arr 0 l))) [a].
  Proof using Hh HC HW HV.
    intros n d a Hn T O. eexists. split; [cbn [arr nth]; apply (C59_kernel_entropy E h w b Hh HC HW HV a n d Hn T)|].
    destruct (same_stable h [rows2d a] (edge_one h a O)) as (e & He & Q). exists e. split; [exact He|]. intros l C.
    pose proof (close_arr _ _ _ 0 C) as C0. cbn [arr nth] in C0. fold (arr 0 l) in C0.
    rewrite (proj2 (C59_kernel_entropy E h w b Hh HC HW HV (arr 0 l) n d Hn (close_table _ _ _ _ _ C0 T))).
    rewrite (KH_same' h n d [rows2d a] [rows2d (arr 0 l)]); [reflexivity|]. apply Q. constructor; [exact C0|constructor].
  Qed.
  Theorem C116_box_joint_entropy : forall n ds cols, (2 <= n)%nat -> cols <> [] -> Forall2 (fun d a => table n d (rows2d a)) ds cols ->
    List.Forall (fun a => off_edge h (rows2d a) (rows2d a)) cols ->
    locally_constant (fun l => kernel_entropy E (box_args h w b) (FTuple l)) cols.
  Proof using Hh HC HW HV.
    intros n ds cols Hn NE F O. eexists. split; [apply (C59_kernel_joint_entropy E h w b Hh HC HW HV cols n ds Hn NE F)|].
    destruct (same_stable h _ (edge_map h cols O)) as (e & He & Q). exists e. split; [exact He|]. intros l C.
    rewrite (C59_kernel_joint_entropy E h w b Hh HC HW HV l n ds Hn); [|inversion C; subst; congruence|eapply close_tabs; eassumption].
    rewrite (KH_same' h n _ (map rows2d cols) (map rows2d l)); [reflexivity|]. apply Q. apply close_near. exact C.
  Qed.
  Lemma KHs_same n ds vs ws : Forall2 (same_near h) vs ws -> KHs h n ds ws = KHs h n ds vs.
  Proof.
    intros F. revert ds. induction F as [|v u vs ws S F IH]; intros ds; [reflexivity|]. destruct ds as [|d ds]; [reflexivity|]. rewrite !KHs_cons, IH. f_equal.
    apply KH_same'. constructor; [exact S|constructor].
  Qed.
  Theorem C116_box_mi : forall n ds vars, (2 <= n)%nat -> (2 <= length vars)%nat -> Forall2 (fun d a => table n d (rows2d a)) ds vars ->
    List.Forall (fun a => off_edge h (rows2d a) (rows2d a)) vars ->
    locally_constant (kernel_mi E (box_args h w b) (Some 0%Z) false) vars.
  Proof using Hh HC HW HV.
    intros n ds vars Hn Hv F O. eexists. split; [apply (kernel_mi_ok E h w b n ds vars Hh HC HW HV ltac:(lia) Hv (tabs_cols n ds vars F))|].
    destruct (same_stable h _ (edge_map h vars O)) as (e & He & Q). exists e. split; [exact He|]. intros l C.
    pose proof (Forall2_len _ _ _ C) as LL.
    rewrite (kernel_mi_ok E h w b n ds l Hh HC HW HV ltac:(lia) ltac:(lia) (tabs_cols n ds l (close_tabs _ _ _ _ _ C F))).
    pose proof (Q _ (close_near _ _ _ C)) as S. rewrite (KH_same' h n _ _ _ S), (KHs_same n ds _ _ S). reflexivity.
  Qed.

  Lemma close_pts d xs v : close d (pts xs) v -> exists ys, v = pts ys /\ length ys = length xs.
  Proof.
    revert v. induction xs as [|x xs IH]; intros v C; inversion C as [|? p ? v' P C']; subst; [exists []; split; reflexivity|].
    destruct (IH v' C') as (ys & -> & L). inversion P as [|? y ? q X Q]; subst. inversion Q; subst. exists (y :: ys). split; [reflexivity|]. cbn. congruence.
  Qed.
  (** one-dimensional variables and condition, as in C61 *)
  Theorem C116_box_cmi : forall n cols zs, (2 <= n)%nat -> (2 <= length cols)%nat -> all_len n cols -> length zs = n ->
    List.Forall (fun c => off_edge h (pts c) (pts c)) (zs :: cols) ->
    locally_constant (fun l => kernel_cmi E (box_args h w b) (Some 0%Z) false (tl l) (arr 0 l)) (F1 zs :: map F1 cols).
  Proof using Hh HC HW HV.
    intros n cols zs Hn Hc L Lz O.
    assert (V1 : forall l cs us, (2 <= length cs)%nat -> all_len n cs -> length us = n -> map rows2d l = map pts cs -> forall a, rows2d a = pts us ->
       kernel_cmi E (box_args h w b) (Some 0%Z) false l a = Ok (KCMI1 h n cs us / unit_of b)).
    { intros l cs us Lc Al Lu EQ a EA. rewrite <- (kernel_cmi_ok E h w b n cs us) by (auto; lia). unfold kernel_cmi, kernel_cmi_local. cbn [bind].
      assert (TT : tables n (map pts cs)) by (unfold tables; clear - Al; induction Al; cbn; constructor; [exists 1%nat; apply pts_table; assumption|assumption]).
      assert (TU : tables n [pts us]) by (unfold tables; constructor; [exists 1%nat; apply pts_table; exact Lu|constructor]).
      assert (LL : length l = length cs) by (pose proof (f_equal (@length _) EQ) as X; rewrite !map_length in X; exact X).
      rewrite (fcmi_init_ok n l a); [|lia|rewrite EQ; exact TT|rewrite EA; exact TU].
      rewrite (fcmi_init_ok n (map F1 cs) (F1 us)); [|rewrite map_length; lia|rewrite map_map; exact TT|exact TU]. rewrite EQ, EA, map_map. reflexivity. }
    assert (MP : map rows2d (map F1 cols) = map pts cols) by (rewrite map_map; reflexivity).
    eexists. split; [cbn [tl arr nth]; apply (V1 (map F1 cols) cols zs Hc L Lz MP (F1 zs) eq_refl)|].
    assert (ED : edgeless h (map pts (zs :: cols))) by (unfold edgeless; clear - O; induction O; cbn; constructor; assumption).
    destruct (same_stable h _ ED) as (e & He & Q). exists e. split; [exact He|]. intros l C.
    inversion C as [|? a ? l' Ca C']; subst. cbn [tl arr nth]. cbn [rows2d] in Ca. fold (pts zs) in Ca.
    destruct (close_pts _ _ _ Ca) as (us & EA & Lu).
    assert (EX : exists cs, map rows2d l' = map pts cs /\ length cs = length cols /\ all_len (length zs) cs).
    { clear - C' L. revert L. remember (map F1 cols) as fs eqn:EF. revert cols EF. induction C' as [|x y fs l' P C IH]; intros cols EF L.
      - destruct cols; [|discriminate]. exists []. split; [reflexivity|split; [reflexivity|constructor]].
      - destruct cols as [|c cols]; [discriminate|]. cbn in EF. injection EF as -> EF. unfold all_len in L. pose proof (Forall_inv L) as L1. pose proof (Forall_inv_tail L) as L2. destruct (IH cols EF L2) as (cs & M & N & A).
        cbn [rows2d] in P. fold (pts c) in P. destruct (close_pts _ _ _ P) as (ys & Y & LY). exists (ys :: cs). cbn [map length]. split; [congruence|]. split; [congruence|]. constructor; [congruence|exact A]. }
    destruct EX as (cs & EQ & LC & AL).
    rewrite (V1 l' cs us ltac:(lia) AL ltac:(congruence) EQ a EA). do 2 f_equal.
    assert (S : Forall2 (same_near h) (map pts (zs :: cols)) (map pts (us :: cs))).
    { apply Q. pose proof (close_near _ _ _ C) as N. cbn [map rows2d] in N |- *. rewrite EA, EQ, map_map in N. exact N. }
    cbn [map] in S. inversion S as [|? ? ? ? S0 S1]; subst. clear - S0 S1 LC. unfold KCMI1. rewrite LC. f_equal; [f_equal|].
    - unfold sumR. clear LC. remember (map pts cols) as A eqn:EA. remember (map pts cs) as B eqn:EB. revert cols cs EA EB. induction S1 as [|x y A B H S IH]; intros cols cs EA EB.
      + destruct cols; [|discriminate]. destruct cs; [|discriminate]. reflexivity.
      + destruct cols as [|c cols]; [discriminate|]. destruct cs as [|c' cs]; [discriminate|]. cbn in EA, EB. injection EA as -> ->. injection EB as -> ->. cbn [map sumf].
        rewrite (IH cols cs eq_refl eq_refl). f_equal. apply KH_same'. repeat (constructor; try assumption).
    - apply KH_same'. rewrite !map_app. apply Forall2_app; [exact S1|]. constructor; [exact S0|constructor].
    - apply KH_same'. constructor; [exact S0|constructor].
  Qed.

  Theorem C116_box_te : forall n ds dd source dest l k c s rnd,
    table n ds (rows2d source) -> table n dd (rows2d dest) -> (1 <= l)%nat -> (1 <= k)%nat -> (1 <= s)%nat ->
    let d := (Nat.max k l * s)%nat in let m := nrows n d s in
    (d < n)%nat -> (2 <= m)%nat -> rnd_ok rnd m ->
    off_edge h (rows2d source) (rows2d source) -> off_edge h (rows2d dest) (rows2d dest) ->
    locally_constant (fun a => kernel_te E (box_args h w b) (arr 0 a) (arr 1 a) (kte_kw l k c s) rnd) [source; dest].
  Proof using Hh HC HW HV.
    intros n ds dd source dest l k c s rnd Ts Td Hl Hk Hs d m Hd Hm Hr Os Od. set (ts := base_times n d s).
    assert (HT : forall t, In t ts -> (d <= t < n)%nat) by (intros t Ht; unfold ts in Ht; rewrite base_times_In in Ht by exact Hs; tauto).
    assert (LT : length ts = m) by apply base_times_length.
    destruct (C62_te_is_conditional_mi E h w b n ds dd source dest l k c s rnd Hh HC HW HV Ts Td Hl Hk Hs Hd Hm Hr) as (v & A & EV & _).
    exists v. split; [exact A|]. fold d m ts in EV.
    set (X := rnd_rows rnd (past_pts (rows2d source) s l ts)) in *. set (Z := past_pts (rows2d dest) s k ts) in *. set (Y := present_pts (rows2d dest) ts) in *.
    assert (ED : edgeless h [X; Z; Y]).
    { constructor; [|constructor; [|constructor; [|constructor]]].
      - apply (off_rnd h m); [unfold past_pts, pasts; rewrite !map_length; exact LT| |exact Hr]. apply (off_past h n); [apply Ts|exact Os| |exact Hs]. intros t Ht. specialize (HT t Ht). unfold d in HT. nia.
      - apply (off_past h n); [apply Td|exact Od| |exact Hs]. intros t Ht. specialize (HT t Ht). unfold d in HT. nia.
      - apply (off_present h n); [apply Td|exact Od|]. intros t Ht. specialize (HT t Ht). lia. }
    destruct (same_stable h _ ED) as (e & He & Q). exists e. split; [exact He|]. intros a C.
    pose proof (close_arr _ _ _ 0 C) as C0. pose proof (close_arr _ _ _ 1 C) as C1. cbn [arr nth] in C0, C1. fold (arr 0 a) in C0. fold (arr 1 a) in C1.
    destruct (C62_te_is_conditional_mi E h w b n ds dd (arr 0 a) (arr 1 a) l k c s rnd Hh HC HW HV (close_table _ _ _ _ _ C0 Ts) (close_table _ _ _ _ _ C1 Td) Hl Hk Hs Hd Hm Hr) as (v' & A' & EV' & _).
    rewrite A'. f_equal. rewrite EV', EV. fold d m ts.
    assert (S : Forall2 (same_near h) [X; Z; Y] [rnd_rows rnd (past_pts (rows2d (arr 0 a)) s l ts); past_pts (rows2d (arr 1 a)) s k ts; present_pts (rows2d (arr 1 a)) ts]).
    { apply Q. constructor; [apply close_rnd, close_past; exact C0|]. constructor; [apply close_past; exact C1|]. constructor; [apply close_present; exact C1|constructor]. }
    inversion S as [|? ? ? ? S0 S']; subst. inversion S' as [|? ? ? ? S1 S'']; subst. inversion S'' as [|? ? ? ? S2 _]; subst.
    f_equal. f_equal; [f_equal; [f_equal|]|]; apply KH_same'; repeat (apply Forall2_cons; [assumption|]); apply Forall2_nil.
  Qed.
  Theorem C116_box_cte : forall n ds dd dc source dest cond l k c s,
    table n ds (rows2d source) -> table n dd (rows2d dest) -> table n dc (rows2d cond) -> (1 <= l)%nat -> (1 <= k)%nat -> (1 <= c)%nat -> (1 <= s)%nat ->
    let d := (Nat.max (Nat.max k l) c * s)%nat in let m := nrows n d s in
    (d < n)%nat -> (2 <= m)%nat ->
    off_edge h (rows2d source) (rows2d source) -> off_edge h (rows2d dest) (rows2d dest) -> off_edge h (rows2d cond) (rows2d cond) ->
    locally_constant (fun a => kernel_cte E (box_args h w b) (arr 0 a) (arr 1 a) (arr 2 a) (kte_kw l k c s)) [source; dest; cond].
  Proof using Hh HC HW HV.
    intros n ds dd dc source dest cond l k c s Ts Td Tc Hl Hk Hc Hs d m Hd Hm Os Od Oc. set (ts := base_times n d s).
    assert (HT : forall t, In t ts -> (d <= t < n)%nat) by (intros t Ht; unfold ts in Ht; rewrite base_times_In in Ht by exact Hs; tauto).
    destruct (C62_cte_is_conditional_mi E h w b n ds dd dc source dest cond l k c s Hh HC HW HV Ts Td Tc Hl Hk Hc Hs Hd Hm) as (v & A & EV & _).
    exists v. split; [exact A|]. fold d m ts in EV.
    set (X := past_pts (rows2d source) s l ts) in *. set (Z := past_pts (rows2d dest) s k ts) in *. set (Y := present_pts (rows2d dest) ts) in *. set (W := past_pts (rows2d cond) s c ts) in *.
    assert (ED : edgeless h [X; Z; Y; W]).
    { constructor; [|constructor; [|constructor; [|constructor; [|constructor]]]].
      - apply (off_past h n); [apply Ts|exact Os| |exact Hs]. intros t Ht. specialize (HT t Ht). unfold d in HT. nia.
      - apply (off_past h n); [apply Td|exact Od| |exact Hs]. intros t Ht. specialize (HT t Ht). unfold d in HT. nia.
      - apply (off_present h n); [apply Td|exact Od|]. intros t Ht. specialize (HT t Ht). lia.
      - apply (off_past h n); [apply Tc|exact Oc| |exact Hs]. intros t Ht. specialize (HT t Ht). unfold d in HT. nia. }
    destruct (same_stable h _ ED) as (e & He & Q). exists e. split; [exact He|]. intros a C.
    pose proof (close_arr _ _ _ 0 C) as C0. pose proof (close_arr _ _ _ 1 C) as C1. pose proof (close_arr _ _ _ 2 C) as C2.
    cbn [arr nth] in C0, C1, C2. fold (arr 0 a) in C0. fold (arr 1 a) in C1. fold (arr 2 a) in C2.
    destruct (C62_cte_is_conditional_mi E h w b n ds dd dc (arr 0 a) (arr 1 a) (arr 2 a) l k c s Hh HC HW HV (close_table _ _ _ _ _ C0 Ts) (close_table _ _ _ _ _ C1 Td) (close_table _ _ _ _ _ C2 Tc) Hl Hk Hc Hs Hd Hm) as (v' & A' & EV' & _).
    rewrite A'. f_equal. rewrite EV', EV. fold d m ts.
    assert (S : Forall2 (same_near h) [X; Z; Y; W] [past_pts (rows2d (arr 0 a)) s l ts; past_pts (rows2d (arr 1 a)) s k ts; present_pts (rows2d (arr 1 a)) ts; past_pts (rows2d (arr 2 a)) s c ts]).
    { apply Q. repeat (apply Forall2_cons; [first [apply close_past; assumption|apply close_present; assumption]|]). apply Forall2_nil. }
    inversion S as [|? ? ? ? S0 S']; subst. inversion S' as [|? ? ? ? S1 S'']; subst. inversion S'' as [|? ? ? ? S2 S''']; subst. inversion S''' as [|? ? ? ? S3 _]; subst.
    f_equal. f_equal; [f_equal; [f_equal|]|]; apply KH_same'; repeat (apply Forall2_cons; [assumption|]); apply Forall2_nil.
  Qed.
End C116.
