(** Property theorems added after testing the earlier ones against wrong programs: the value of an array result (C39),
    local values of a cross-entropy (C42), noise of successive evaluations (C90). *)
From Coq Require Import Reals Lra Lia List ZArith Arith Bool.
From Verif Require Import SpecKern PKern PKern2 PKern3.
From Verif Require Import Res RSum Spec SpecBase MBase MData MEntropy MTE MGeneric MObj SpecObj MCont MKern MKnn MFam MObjC MCtor PropsObj PropsObjC.
Import ListNotations.
Local Open Scope R_scope.

(** ** C39 *)
(** an estimation that returns the finite numbers [ls]: the global value is their arithmetic mean *)
Theorem C39_global_is_mean : forall K pd bd data r r' ls x,
  k_calc K data FOff r = (r', inr (PArr (map Fin ls))) -> ls <> [] ->
  In x (snd (run never K pd bd [OpResult; OpGlobal] (fresh data r))) ->
  exists g, x = inr (AGlob (Fin g)) /\ g * INR (length ls) = fold_right Rplus 0 ls.
Proof.
  intros K pd bd data r r' ls x E NE.
  unfold run, run_op, mmap, mbind, result, local_vals, global_val, calculate, mbind, read, run_calc, never, MObj.upd, ret.
  cbn [fresh o_glob o_data o_flag o_rng tick o_calls pred]. rewrite E. cbn.
  assert (M : np_mean (map Fin ls) = Fin (sumR ls / INR (length ls))) by (unfold np_mean; rewrite all_fin_map; destruct ls; [congruence|reflexivity]).
  intros I. exists (sumR ls / INR (length ls)). split; [rewrite M in I; destruct I as [<-|[<-|[]]]; reflexivity|].
  assert (S : sumR ls = fold_right Rplus 0 ls) by (clear; unfold sumR; induction ls as [|y ls IH]; [reflexivity|cbn; rewrite <- IH; reflexivity]).
  rewrite S. field. apply not_0_INR. destruct ls; [congruence|discriminate].
Qed.
Print Assumptions C39_global_is_mean.
(** and an empty array, or one with a nan or infinite entry, gives no finite global value *)
Theorem C39_no_mean : forall K pd bd data r r' ls,
  k_calc K data FOff r = (r', inr (PArr ls)) -> ls = [] \/ In NonFin ls ->
  snd (run never K pd bd [OpResult] (fresh data r)) = [inr (AGlob NonFin)].
Proof.
  intros K pd bd data r r' ls E H.
  unfold run, run_op, mmap, mbind, result, local_vals, global_val, calculate, mbind, read, run_calc, never, MObj.upd, ret.
  cbn [fresh o_glob o_data o_flag o_rng tick o_calls pred]. rewrite E. cbn. repeat f_equal.
  unfold np_mean. destruct H as [->|H]; [reflexivity|].
  assert (A : all_fin ls = None).
  { induction ls as [|y ls IH]; [destruct H|]. cbn. destruct y; [|reflexivity]. destruct H as [H|H]; [discriminate|].
    destruct (all_fin ls) eqn:F; [|reflexivity]. enough (Some l = None) by discriminate. rewrite <- F. clear - H. induction ls as [|y ls IH]; [destruct H|].
    cbn. destruct y; [|reflexivity]. destruct H as [H|H]; [discriminate|]. rewrite IH by exact H. reflexivity. }
  rewrite A. reflexivity.
Qed.

(** ** C42 *)
(** the two-variable form has no local values, whatever the approach and the data *)
Theorem C42_cross_no_local : forall e b x y ls, dh_local e b [IArr x; y] <> Ok ls.
Proof.
  intros e b x y ls. unfold dh_local, dh_init. destruct (is_tuple (IArr x) || is_tuple y || is_dd y); [discriminate|].
  destruct (convert (IArr x)) as [d| |]; [|discriminate..]. cbn [bind]. destruct (convert y) as [d'| |]; discriminate.
Qed.
Theorem C42_cross_unsupported : forall e b cross x y v, dh_entropy e cross b [IArr x; y] = Ok v -> dh_local e b [IArr x; y] = Raise UnsupportedOperation.
Proof.
  intros e b cross x y v. unfold dh_entropy, dh_local, dh_init. destruct (is_tuple (IArr x) || is_tuple y || is_dd y); [discriminate|].
  destruct (convert (IArr x)) as [d| |]; [|discriminate..]. cbn [bind]. destruct (convert y) as [d'| |]; [reflexivity|discriminate..].
Qed.

(** ** C90 *)
(** What an evaluation that starts with the generator at position [q] and leaves it at [q'] returns depends on the
    values [q, ..., q'-1] of the generator only: since the next evaluation starts at [q'] (or later), no two evaluations
    of a test share noise.  [same_window E E' q q']: the two generators agree there. *)
Definition same_window (E E' : nenv) (q q' : nat) : Prop :=
  gam E = gam E' /\ forall i, (q <= i < q')%nat -> draw E i = draw E' i.

Lemma noise_row_ext lvl z z' p : forall pos, (forall i, (pos <= i < pos + length p)%nat -> z i = z' i) ->
  noise_row lvl z pos p = noise_row lvl z' pos p.
Proof.
  induction p as [|x p IH]; intros pos H; [reflexivity|]. cbn [noise_row]. rewrite H by (cbn; lia). f_equal. apply IH. intros i Hi. apply H. cbn. lia.
Qed.
Lemma noise_rows_ext lvl z z' v : forall pos, (forall i, (pos <= i < pos + size v)%nat -> z i = z' i) ->
  noise_rows lvl z pos v = noise_rows lvl z' pos v.
Proof.
  induction v as [|p v IH]; intros pos H; [reflexivity|]. cbn [noise_rows]. unfold size in H. cbn [map fold_right] in H. fold (size v) in H. f_equal.
  - apply noise_row_ext. intros i Hi. apply H. lia.
  - apply IH. intros i Hi. apply H. lia.
Qed.
Lemma noise_vars_ext lvl z z' vs : forall pos, (forall i, (pos <= i < pos + fold_right Nat.add 0 (map size vs))%nat -> z i = z' i) ->
  noise_vars lvl z pos vs = noise_vars lvl z' pos vs.
Proof.
  induction vs as [|p v IH]; intros pos H; [reflexivity|]. cbn [noise_vars]. cbn [map fold_right] in H. f_equal.
  - apply noise_rows_ext. intros i Hi. apply H. lia.
  - apply IH. intros i Hi. apply H. lia.
Qed.
Lemma with_noise_ext lvl E E' q q' vs : (q + noise_draws lvl vs <= q')%nat -> same_window E E' q q' ->
  with_noise lvl (draw (after E q)) vs = with_noise lvl (draw (after E' q)) vs.
Proof.
  intros L [_ W]. unfold with_noise, noise_draws in *. destruct (Req_EM_T lvl 0); [reflexivity|]. destruct (Rlt_dec lvl 0); [reflexivity|].
  f_equal. apply noise_vars_ext. intros i Hi. cbn. apply W. lia.
Qed.

(** the loop of the CMI class *)
Lemma upd_ext {A} (f g : A -> A) d : forall l j, f (nth j l d) = g (nth j l d) -> upd j f l = upd j g l.
Proof. induction l as [|x l IH]; intros [|j] H; cbn in *; [reflexivity|reflexivity|rewrite H; reflexivity|rewrite (IH j H); reflexivity]. Qed.
Lemma upd_size f v : forall j, (forall p, length (f p) = length p) -> size (upd j f v) = size v.
Proof.
  unfold size. induction v as [|p v IH]; intros [|j] F; cbn [upd map fold_right]; [reflexivity|reflexivity|rewrite F; reflexivity|rewrite IH by exact F; reflexivity].
Qed.
Lemma upd_length {A} (f : A -> A) : forall l j, length (upd j f l) = length l.
Proof. induction l as [|x l IH]; intros [|j]; cbn; [reflexivity|reflexivity|reflexivity|rewrite IH; reflexivity]. Qed.
Lemma upd_other {A} (f : A -> A) d : forall l j i, i <> j -> nth i (upd j f l) d = nth i l d.
Proof. induction l as [|x l IH]; intros [|j] [|i] H; cbn; try reflexivity; try congruence. apply IH. congruence. Qed.
Lemma noise_row_length lvl z p : forall pos, length (noise_row lvl z pos p) = length p.
Proof. induction p as [|x p IH]; intros pos; cbn; [reflexivity|rewrite IH; reflexivity]. Qed.
Lemma noise_rows_size lvl z v : forall pos, size (noise_rows lvl z pos v) = size v.
Proof. unfold size. induction v as [|p v IH]; intros pos; cbn; [reflexivity|rewrite noise_row_length, IH; reflexivity]. Qed.
(** entries of row [j] of all variables *)
Definition row_size (j : nat) (data : list (list pt)) : nat := fold_right Nat.add 0%nat (map (fun v => length (nth j v [])) data).
Lemma noise_row_vars_pos lvl z j : forall data pos, snd (noise_row_vars lvl z j pos data) = (pos + row_size j data)%nat.
Proof.
  induction data as [|v vs IH]; intros pos; cbn [noise_row_vars]; [cbn; lia|]. specialize (IH (pos + length (nth j v []))%nat).
  destruct (noise_row_vars lvl z j (pos + length (nth j v [])) vs) as [a b]. cbn [snd] in *. unfold row_size. cbn [map fold_right]. fold (row_size j vs). lia.
Qed.
Lemma noise_row_vars_ext lvl z z' j : forall data pos, (forall i, (pos <= i < pos + row_size j data)%nat -> z i = z' i) ->
  noise_row_vars lvl z j pos data = noise_row_vars lvl z' j pos data.
Proof.
  induction data as [|v vs IH]; intros pos H; [reflexivity|]. cbn [noise_row_vars]. unfold row_size in H. cbn [map fold_right] in H. fold (row_size j vs) in H.
  rewrite (IH (pos + length (nth j v []))%nat) by (intros i Hi; apply H; lia).
  rewrite (upd_ext (noise_row lvl z pos) (noise_row lvl z' pos) [] v j); [reflexivity|]. apply noise_row_ext. intros i Hi. apply H. lia.
Qed.
Lemma noise_row_vars_other lvl z j i : i <> j -> forall data pos, row_size i (fst (noise_row_vars lvl z j pos data)) = row_size i data.
Proof.
  intros NE. induction data as [|v vs IH]; intros pos; [reflexivity|]. cbn [noise_row_vars]. specialize (IH (pos + length (nth j v []))%nat).
  destruct (noise_row_vars lvl z j (pos + length (nth j v [])) vs) as [a b]. cbn [fst] in *. unfold row_size in *. cbn [map fold_right]. rewrite upd_other by exact NE. rewrite IH. reflexivity.
Qed.
Lemma cmi_noise_ext lvl z z' : forall js pos data cond, NoDup js ->
  (forall i, (pos <= i < pos + fold_right Nat.add 0 (map (fun j => row_size j data + size cond) js))%nat -> z i = z' i) ->
  cmi_noise lvl z js pos data cond = cmi_noise lvl z' js pos data cond.
Proof.
  induction js as [|j js IH]; intros pos data cond ND H; [reflexivity|]. cbn [cmi_noise]. cbn [map fold_right] in H. inversion ND as [|? ? NI ND']; subst.
  rewrite (noise_row_vars_ext lvl z z' j data pos) by (intros i Hi; apply H; lia).
  pose proof (noise_row_vars_pos lvl z' j data pos) as P.
  assert (O : forall i, In i js -> row_size i (fst (noise_row_vars lvl z' j pos data)) = row_size i data) by (intros i Hi; apply noise_row_vars_other; intros ->; contradiction).
  destruct (noise_row_vars lvl z' j pos data) as [data' pos']. cbn [fst snd] in *. subst pos'.
  rewrite (noise_rows_ext lvl z z' cond) by (intros i Hi; apply H; lia).
  apply IH; [exact ND'|]. intros i Hi. apply H.
  assert (Q : map (fun i => (row_size i data' + size (noise_rows lvl z' (pos + row_size j data) cond))%nat) js = map (fun i => (row_size i data + size cond)%nat) js)
    by (apply map_ext_in; intros k Hk; rewrite O by exact Hk; rewrite noise_rows_size; reflexivity).
  rewrite Q in Hi. lia.
Qed.
Lemma size_by_rows v : forall n, length v = n -> size v = fold_right Nat.add 0%nat (map (fun j => length (nth j v [])) (seq 0 n)).
Proof.
  unfold size. induction v as [|p v IH]; intros n <-; [reflexivity|]. cbn [length map fold_right seq nth]. rewrite <- seq_shift, map_map. f_equal. apply (IH _ eq_refl).
Qed.
Lemma size_upto v n : (fold_right Nat.add 0 (map (fun j => length (nth j v [])) (seq 0 n)) <= size v)%nat.
Proof.
  unfold size. revert n. induction v as [|p v IH]; intros [|n]; [reflexivity| |cbn; lia|].
  - cbn [map fold_right seq]. assert (forall l : list nat, fold_right Nat.add 0%nat (map (fun j => length (nth j ([] : list pt) [])) l) = 0%nat) as Z by (induction l as [|x l IHl]; [reflexivity|cbn [map fold_right]; rewrite IHl; destruct x; reflexivity]).
    rewrite Z. cbn. lia.
  - cbn [map fold_right seq nth]. rewrite <- seq_shift, map_map. specialize (IH n). cbn [nth]. lia.
Qed.
Lemma sum_swap {A B} (f : A -> B -> nat) (l : list A) (m : list B) :
  fold_right Nat.add 0%nat (map (fun a => fold_right Nat.add 0%nat (map (f a) m)) l) = fold_right Nat.add 0%nat (map (fun b => fold_right Nat.add 0%nat (map (fun a => f a b) l)) m).
Proof.
  induction l as [|a l IH]; cbn [map fold_right]; [induction m as [|b m IHm]; [reflexivity|cbn; rewrite <- IHm; reflexivity]|].
  rewrite IH. clear. induction m as [|b m IHm]; cbn [map fold_right]; [reflexivity|]. rewrite <- IHm. lia.
Qed.
Lemma sum_app l m : fold_right Nat.add 0%nat (l ++ m) = (fold_right Nat.add 0 l + fold_right Nat.add 0 m)%nat.
Proof. induction l as [|x l IH]; cbn; [reflexivity|rewrite IH; lia]. Qed.
Lemma sum_le l m (f g : nat -> nat) : l = m -> (forall x, In x l -> (f x <= g x)%nat) -> (fold_right Nat.add 0 (map f l) <= fold_right Nat.add 0 (map g m))%nat.
Proof. intros <-. induction l as [|x l IH]; intros H; cbn; [lia|]. specialize (IH (fun y Hy => H y (or_intror Hy))). specialize (H x (or_introl eq_refl)). lia. Qed.
Lemma cmi_draws n data cond :
  (fold_right Nat.add 0 (map (fun j => row_size j data + size cond) (seq 0 n)) <= fold_right Nat.add 0 (map size (data ++ repeat cond n)))%nat.
Proof.
  rewrite map_app, sum_app.
  assert (A : fold_right Nat.add 0%nat (map (fun j => row_size j data + size cond)%nat (seq 0 n)) =
              (fold_right Nat.add 0 (map (fun j => row_size j data) (seq 0 n)) + fold_right Nat.add 0 (map size (repeat cond n)))%nat).
  { assert (B : forall k, fold_right Nat.add 0%nat (map size (repeat cond n)) = fold_right Nat.add 0%nat (map (fun _ => size cond) (seq k n))).
    { clear. induction n as [|n IH]; intros k; [reflexivity|]. cbn. rewrite (IH (S k)). reflexivity. }
    rewrite (B 0%nat). clear. generalize (seq 0 n). induction l as [|j l IH]; cbn [map fold_right]; [reflexivity|]. rewrite IH. lia. }
  rewrite A. apply Nat.add_le_mono_r. unfold row_size. rewrite (sum_swap (fun j v => length (nth j v [])) (seq 0 n) data).
  clear. induction data as [|v data IH]; cbn [map fold_right]; [lia|]. pose proof (size_upto v n). lia.
Qed.
Lemma cmi_with_noise_ext lvl E E' q q' data cond :
  (q + noise_draws lvl (data ++ repeat cond (length (hd [] data))) <= q')%nat -> same_window E E' q q' ->
  cmi_with_noise lvl (draw (after E q)) data cond = cmi_with_noise lvl (draw (after E' q)) data cond.
Proof.
  intros L [_ W]. unfold cmi_with_noise, noise_draws in *. destruct (Req_EM_T lvl 0); [reflexivity|]. destruct (Rlt_dec lvl 0); [reflexivity|].
  destruct (existsb _ _); [reflexivity|]. f_equal. apply cmi_noise_ext; [apply seq_NoDup|]. intros i Hi. cbn. apply W.
  pose proof (cmi_draws (length (hd [] data)) data cond). lia.
Qed.
Lemma fam_entropy_gam f E E' a : gam E = gam E' -> fam_entropy f E a = fam_entropy f E' a.
Proof. intros G. destruct f; cbn [fam_entropy]; unfold renyi_entropy, tsallis_entropy, expfam; rewrite G; reflexivity. Qed.

Definition with_noise_ext2 lvl E E' q q' vs : _ -> _ -> with_noise lvl (fun i => draw E (q + i)) vs = with_noise lvl (fun i => draw E' (q + i)) vs := with_noise_ext lvl E E' q q' vs.
Definition cmi_with_noise_ext2 lvl E E' q q' data cond : _ -> _ -> cmi_with_noise lvl (fun i => draw E (q + i)) data cond = cmi_with_noise lvl (fun i => draw E' (q + i)) data cond := cmi_with_noise_ext lvl E E' q q' data cond.
Theorem C90_fresh_noise_ksg_mi : forall E E' a off nm vars K K' d q fg data, ksg_mi_object E a off nm vars = Ok (K, d) -> ksg_mi_object E' a off nm vars = Ok (K', d) ->
  same_window E E' q (fst (k_calc K data fg q)) -> k_calc K data fg q = k_calc K' data fg q.
Proof.
  intros E E' a off nm vars K K' d q fg data O O' W. unfold ksg_mi_object in O, O'. destruct (fmi_init off nm vars) as [ws|e|]; try discriminate O. cbn [bind] in O, O'.
  destruct (negb (id_ok a)); [discriminate O|]. unfold num_object in O, O'. injection O as <- <-. injection O' as <-.
  cbn [klass_num_mi k_calc fst] in *. set (rows := map _ _) in *. rewrite (with_noise_ext2 _ E E' q _ rows (Nat.le_refl _) W). reflexivity.
Qed.
Theorem C90_fresh_noise_ksg_cmi : forall E E' a off nm vars cond K K' d q fg data, ksg_cmi_object E a off nm vars cond = Ok (K, d) -> ksg_cmi_object E' a off nm vars cond = Ok (K', d) ->
  same_window E E' q (fst (k_calc K data fg q)) -> k_calc K data fg q = k_calc K' data fg q.
Proof.
  intros E E' a off nm vars cond K K' d q fg data O O' W. unfold ksg_cmi_object in O, O'. destruct (match off with None | Some 0%Z => Ok tt | _ => Raise ValueError end); try discriminate O. cbn [bind] in O, O'.
  destruct (fcmi_init nm vars cond) as [[ws Z]|e|]; try discriminate O. cbn [bind fst snd] in O, O'.
  destruct (negb (id_ok a)); [discriminate O|]. unfold num_object in O, O'. injection O as <- <-. injection O' as <-.
  cbn [klass_num_mi k_calc fst] in *. set (rows := map _ _) in *. rewrite (cmi_with_noise_ext2 _ E E' q _ rows Z (Nat.le_refl _) W). reflexivity.
Qed.
Theorem C90_fresh_noise_renyi_tsallis_mi : forall f E E' a noise off nm vars K K' d q fg data, fam_mi_object f E a noise off nm vars = Ok (K, d) -> fam_mi_object f E' a noise off nm vars = Ok (K', d) ->
  same_window E E' q (fst (k_calc K data fg q)) -> k_calc K data fg q = k_calc K' data fg q.
Proof.
  intros f E E' a noise off nm vars K K' d q fg data O O' W. unfold fam_mi_object in O, O'. destruct (fmi_init off nm vars) as [ws|e|]; try discriminate O. cbn [bind] in O, O'.
  destruct (e_check a); try discriminate O. cbn [bind] in O, O'. unfold num_object in O, O'. injection O as <- <-. injection O' as <-.
  cbn [klass_num_mi k_calc fst] in *. set (rows := map _ _) in *. rewrite (with_noise_ext2 _ E E' q _ rows (Nat.le_refl _) W).
  rewrite (fam_entropy_gam f (after E q) (after E' q) a (proj1 W)). reflexivity.
Qed.
Theorem C90_fresh_noise_renyi_tsallis_cmi : forall f E E' a noise off nm vars cond K K' d q fg data, fam_cmi_object f E a noise off nm vars cond = Ok (K, d) -> fam_cmi_object f E' a noise off nm vars cond = Ok (K', d) ->
  same_window E E' q (fst (k_calc K data fg q)) -> k_calc K data fg q = k_calc K' data fg q.
Proof.
  intros f E E' a noise off nm vars cond K K' d q fg data O O' W. unfold fam_cmi_object in O, O'. destruct (match off with None | Some 0%Z => Ok tt | _ => Raise ValueError end); try discriminate O. cbn [bind] in O, O'.
  destruct (fcmi_init nm vars cond) as [[ws Z]|e|]; try discriminate O. cbn [bind fst snd] in O, O'.
  destruct (e_check a); try discriminate O. cbn [bind] in O, O'. unfold num_object in O, O'. injection O as <- <-. injection O' as <-.
  cbn [klass_num_mi k_calc fst] in *. set (rows := map _ _) in *. rewrite (with_noise_ext2 _ E E' q _ (rows ++ [Z]) (Nat.le_refl _) W).
  rewrite (fam_entropy_gam f (after E q) (after E' q) a (proj1 W)). reflexivity.
Qed.

(** transfer entropies; [pd], [bd] are the row draws, also made from the generator *)
Lemma size_perm2 a b lvl : noise_draws lvl [a; b] = noise_draws lvl [b; a].
Proof. unfold noise_draws. destruct (Req_EM_T lvl 0); [reflexivity|]. cbn. lia. Qed.
Lemma klass_num_te_window pd bd rows noise (c c' : nat -> rand -> res value) q fg data :
  (forall rnd, c q rnd = c' q rnd) -> k_calc (klass_num_te pd bd rows noise c) data fg q = k_calc (klass_num_te pd bd rows noise c') data fg q.
Proof. intros H. cbn [klass_num_te k_calc]. destruct fg; rewrite H; reflexivity. Qed.
Lemma klass_num_te_pos pd bd rows noise c q fg data : (q + noise <= fst (k_calc (klass_num_te pd bd rows noise c) data fg q))%nat.
Proof. cbn [klass_num_te k_calc]. destruct fg; cbn [fst]; lia. Qed.
Lemma same_window_sub E E' q q1 q2 : same_window E E' q q2 -> (q1 <= q2)%nat -> same_window E E' q q1.
Proof. intros [G W] L. split; [exact G|]. intros i Hi. apply W. lia. Qed.
Theorem C90_fresh_noise_ksg_te : forall pd bd E E' k source dest a q fg data, 
  same_window E E' q (fst (k_calc (ksg_te_klass pd bd E k source dest a) data fg q)) ->
  k_calc (ksg_te_klass pd bd E k source dest a) data fg q = k_calc (ksg_te_klass pd bd E' k source dest a) data fg q.
Proof.
  intros pd bd E E' k source dest a q fg data W. apply klass_num_te_window. intros rnd. f_equal. unfold ksg_te_local.
  pose proof (same_window_sub _ _ _ _ _ W (klass_num_te_pos _ _ _ _ _ _ _ _)) as W'. clear W. unfold te_noise in W'.
  destruct (fte_init (rows2d source) (rows2d dest) (a_prop a) (a_offset a) (a_step a)) as [sd|e|]; [|reflexivity..]. cbn [bind]. destruct (negb (id_ok k)); [reflexivity|].
  rewrite size_perm2 in W'. rewrite (with_noise_ext _ E E' q _ [snd sd; fst sd] (Nat.le_refl _) W'). reflexivity.
Qed.
Theorem C90_fresh_noise_renyi_tsallis_te : forall pd bd f E E' e noise source dest a q fg data,
  same_window E E' q (fst (k_calc (fam_te_klass pd bd f E e noise source dest a) data fg q)) ->
  k_calc (fam_te_klass pd bd f E e noise source dest a) data fg q = k_calc (fam_te_klass pd bd f E' e noise source dest a) data fg q.
Proof.
  intros pd bd f E E' e noise source dest a q fg data W. apply klass_num_te_window. intros rnd. f_equal. unfold fam_te.
  pose proof (same_window_sub _ _ _ _ _ W (klass_num_te_pos _ _ _ _ _ _ _ _)) as W'. clear W. unfold te_noise in W'.
  destruct (fte_init (rows2d source) (rows2d dest) (a_prop a) (a_offset a) (a_step a)) as [sd|x|]; [|reflexivity..]. cbn [bind].
  rewrite (with_noise_ext _ E E' q _ [fst sd; snd sd] (Nat.le_refl _) W').
  rewrite (fam_entropy_gam f (after E q) (after E' q) e (proj1 W')). reflexivity.
Qed.
Theorem C90_fresh_noise_ksg_cte : forall E E' k source dest cond a q fg data, 
  same_window E E' q (fst (k_calc (ksg_cte_klass E k source dest cond a) data fg q)) ->
  k_calc (ksg_cte_klass E k source dest cond a) data fg q = k_calc (ksg_cte_klass E' k source dest cond a) data fg q.
Proof.
  intros E E' k source dest cond a q fg data W. unfold ksg_cte_klass in *. cbn [klass_num_cte k_calc fst] in *. do 3 f_equal. unfold ksg_cte_local.
  rewrite (with_noise_ext _ E E' q _ _ (Nat.le_refl _) W). reflexivity.
Qed.
Theorem C90_fresh_noise_renyi_tsallis_cte : forall f E E' e noise source dest cond a q fg data,
  same_window E E' q (fst (k_calc (fam_cte_klass f E e noise source dest cond a) data fg q)) ->
  k_calc (fam_cte_klass f E e noise source dest cond a) data fg q = k_calc (fam_cte_klass f E' e noise source dest cond a) data fg q.
Proof.
  intros f E E' e noise source dest cond a q fg data W. unfold fam_cte_klass in *. cbn [klass_num_cte k_calc fst] in *. do 3 f_equal. unfold fam_cte.
  rewrite (with_noise_ext _ E E' q _ _ (Nat.le_refl _) W). rewrite (fam_entropy_gam f (after E q) (after E' q) e (proj1 W)). reflexivity.
Qed.
Print Assumptions C90_fresh_noise_ksg_cmi.

(** non-trivial: with a positive noise level the windows are not empty, so two surrogates of the same rows get different noise *)
Example C90_window_moves : forall E a K d, ksg_mi_object E a (Some 0%Z) false [F1 [1; 2; 3]; F1 [3; 1; 2]] = Ok (K, d) -> n_noise a = 1 ->
  fst (k_calc K d FOff 5%nat) = 11%nat.
Proof.
  intros E a K d O N. unfold ksg_mi_object in O.
  rewrite (eq_refl : fmi_init (Some 0%Z) false [F1 [1; 2; 3]; F1 [3; 1; 2]] = Ok [[[1]; [2]; [3]]; [[3]; [1]; [2]]]) in O. cbn [bind] in O.
  destruct (id_ok a); cbn [negb] in O; [|discriminate O]. unfold num_object in O. injection O as <- <-.
  cbn. rewrite N. unfold noise_draws. destruct (Req_EM_T 1 0); [lra|]. reflexivity.
Qed.
