(** Proofs: the embedding with step size [s] is the embedding of every s-th sample with step size one. *)
From Coq Require Import Reals List ZArith Arith Bool Lia.
From Verif Require Import Res RSum Spec SpecBase SpecOrd Ord MBase MData MEntropy MMI MTE MGeneric MOrd MCont SpecSub PKern3 POrd2.
Import ListNotations.
Local Open Scope nat_scope.

Lemma ceil_lt i x s : 1 <= s -> (i < (x + (s - 1)) / s <-> i * s < x).
Proof.
  intros Hs. split; intros H.
  - pose proof (Nat.mul_div_le (x + (s - 1)) s). nia.
  - assert (i + 1 <= (x + (s - 1)) / s); [|lia]. apply Nat.div_le_lower_bound; [lia|]. nia.
Qed.
Lemma seg_eq a b : (forall i, i < a <-> i < b) -> a = b.
Proof. intros H. destruct (lt_eq_lt_dec a b) as [[L|E]|L]; [apply H in L; lia|exact E|apply H in L; lia]. Qed.
Lemma every_lt {A} s (l : list A) i : 1 <= s -> (i < length (every s l) <-> i * s < length l).
Proof. intros Hs. rewrite <- !nth_error_Some, every_nth by exact Hs. reflexivity. Qed.
Lemma nth_ext_err {A} (l l' : list A) : (forall i, nth_error l i = nth_error l' i) -> l = l'.
Proof.
  revert l'. induction l as [|x l IH]; intros [|y l'] H; [reflexivity|specialize (H 0); discriminate|specialize (H 0); discriminate|].
  pose proof (H 0) as H0. cbn in H0. injection H0 as ->. f_equal. apply IH. intros i. exact (H (S i)).
Qed.
Lemma nth_error_first {A} n (l : list A) i : nth_error (firstn n l) i = if i <? n then nth_error l i else None.
Proof.
  revert l i. induction n as [|n IH]; intros l i; [destruct i; reflexivity|].
  destruct l as [|x l]; [rewrite firstn_nil; destruct i; cbn [nth_error]; destruct (_ <? _); reflexivity|].
  destruct i as [|i]; [reflexivity|]. cbn [firstn nth_error]. rewrite IH. reflexivity.
Qed.
Lemma nth_error_skip {A} n (l : list A) i : nth_error (skipn n l) i = nth_error l (n + i).
Proof.
  revert l. induction n as [|n IH]; intros l; [reflexivity|]. destruct l as [|x l]; [destruct i; reflexivity|].
  cbn [skipn Nat.add nth_error]. apply IH.
Qed.

Section S.
Variable s : nat.
Hypothesis Hs : 1 <= s.

Lemma every_map {A B} (f : A -> B) l : every s (map f l) = map f (every s l).
Proof. apply nth_ext_err. intros i. rewrite every_nth, !nth_error_map, every_nth by exact Hs. reflexivity. Qed.
Lemma every_skip {A} p (l : list A) : every s (skipn (p * s) l) = skipn p (every s l).
Proof.
  apply nth_ext_err. intros i. rewrite every_nth, !nth_error_skip, every_nth by exact Hs. f_equal. lia.
Qed.
Lemma every_first {A} p (l : list A) : every s (firstn (length l - p * s) l) = firstn (length (every s l) - p) (every s l).
Proof.
  apply nth_ext_err. intros i. rewrite every_nth, !nth_error_first, every_nth by exact Hs.
  pose proof (every_lt s l (i + p) Hs) as H.
  destruct (Nat.ltb_spec (i * s) (length l - p * s)), (Nat.ltb_spec i (length (every s l) - p)); try reflexivity; exfalso.
  - assert (i + p < length (every s l)) by (apply H; nia). lia.
  - assert ((i + p) * s < length l) by (apply H; lia). nia.
Qed.

Notation sub_arr := (SpecSub.sub_arr s).
Lemma sub_rows a : arr_rows (sub_arr a) = every s (arr_rows a).
Proof. destruct a as [xs|rs]; [symmetry; apply every_map|reflexivity]. Qed.
Lemma sub_lt a i : i < arr_len (sub_arr a) <-> i * s < arr_len a.
Proof. destruct a; apply every_lt, Hs. Qed.
Lemma sub_len_eq a b : arr_len a = arr_len b -> arr_len (sub_arr a) = arr_len (sub_arr b).
Proof. intros E. apply seg_eq. intros i. rewrite !sub_lt, E. reflexivity. Qed.

Lemma arange_every N n m : (forall i, i < N <-> i * s < n) -> arange (m * s) n s = map (fun b => b * s) (arange m N 1).
Proof.
  intros H. unfold arange. rewrite map_map.
  assert (E : (n - m * s + (s - 1)) / s = (N - m + (1 - 1)) / 1).
  { apply seg_eq. intros i. rewrite (ceil_lt i (n - m * s) s Hs), (ceil_lt i (N - m) 1 (le_n 1)).
    pose proof (H (i + m)). split; intros L; [assert (i + m < N) by (apply H; nia); lia|].
    assert ((i + m) * s < n) by (apply H; lia). nia. }
  rewrite E. apply map_ext. intros i. lia.
Qed.
Lemma hist_every bs len : hist_idx (map (fun b => b * s) bs) len s = map (map (fun i => i * s)) (hist_idx bs len 1).
Proof.
  unfold hist_idx. rewrite !map_map. apply map_ext. intros b.
  assert (E : arange s ((len + 1) * s) s = map (fun o => o * s) (arange 1 ((len + 1) * 1) 1)).
  { rewrite <- (Nat.mul_1_l s) at 1. rewrite <- (arange_every ((len + 1) * 1) ((len + 1) * s) 1); [reflexivity|].
    intros i. split; intros L; nia. }
  rewrite E, <- map_rev, !map_map. apply map_ext. intros o. nia.
Qed.
Lemma gather_every a idx : gather_row a (map (fun i => i * s) idx) = gather_row (sub_arr a) idx.
Proof.
  unfold gather_row. f_equal. rewrite mapM_map, sub_rows.
  induction idx as [|i idx IH]; [reflexivity|]. cbn [mapM]. rewrite IH. unfold gather at 1 3. rewrite every_nth by exact Hs. reflexivity.
Qed.
Lemma gathers_every a idxs : gather_rows a (map (map (fun i => i * s)) idxs) = gather_rows (sub_arr a) idxs.
Proof.
  unfold gather_rows. rewrite mapM_map. induction idxs as [|i idx IH]; [reflexivity|]. cbn [mapM]. rewrite IH, gather_every. reflexivity.
Qed.

(** the slices *)
Lemma slices_every source dest l k m rnd :
  src_dest_slices source dest l k s (m * s) rnd =
  rmap (fun r => (fst r, map (fun b => b * s) (snd r))) (src_dest_slices (sub_arr source) (sub_arr dest) l k 1 m rnd).
Proof.
  unfold src_dest_slices.
  rewrite (arange_every (arr_len (sub_arr dest)) (arr_len dest) m (sub_lt dest)).
  set (bs := arange m (arr_len (sub_arr dest)) 1).
  assert (Si : forall sg, map (fun j => nth j (hist_idx (map (fun b => b * s) bs) l s) []) sg =
                          map (map (fun i => i * s)) (map (fun j => nth j (hist_idx bs l 1) []) sg)).
  { intros sg. rewrite hist_every, map_map. apply map_ext. intros j.
    change (@nil nat) with (map (fun i => i * s) (@nil nat)) at 1. apply map_nth. }
  assert (F : map (fun b : nat => [b]) (map (fun b => b * s) bs) = map (map (fun i => i * s)) (map (fun b : nat => [b]) bs))
    by (rewrite !map_map; apply map_ext; reflexivity).
  rewrite F. rewrite (gathers_every dest (map (fun b : nat => [b]) bs)).
  rewrite (hist_every bs k), (gathers_every dest).
  destruct rnd as [|sg|sg|]; [|rewrite Si|rewrite Si|reflexivity]; try rewrite (hist_every bs l); rewrite gathers_every;
    destruct (gather_rows (sub_arr source) _); try reflexivity; cbn [bind rmap];
    destruct (gather_rows (sub_arr dest) (hist_idx bs k 1)); try reflexivity; cbn [bind rmap];
    destruct (gather_rows (sub_arr dest) (map (fun b : nat => [b]) bs)); reflexivity.
Qed.
Lemma pos_of_nat n : pos_int (NInt (Z.of_nat n)) = if 0 <? n then Some n else None.
Proof.
  unfold pos_int. destruct (Nat.ltb_spec 0 n) as [H|H].
  - destruct (Z.ltb_spec 0 (Z.of_nat n)); [rewrite Nat2Z.id; reflexivity|lia].
  - destruct (Z.ltb_spec 0 (Z.of_nat n)); [lia|reflexivity].
Qed.
Lemma pos_s : pos_int (NInt (Z.of_nat s)) = Some s.
Proof. rewrite pos_of_nat. destruct (Nat.ltb_spec 0 s); [reflexivity|lia]. Qed.
Lemma delay_every a m : (arr_len a <=? m * s) = (arr_len (sub_arr a) <=? m * 1).
Proof.
  pose proof (sub_lt a m). destruct (Nat.leb_spec (arr_len a) (m * s)), (Nat.leb_spec (arr_len (sub_arr a)) (m * 1)); try reflexivity; exfalso.
  - assert (m * s < arr_len a) by (apply H; lia). lia.
  - assert (m < arr_len (sub_arr a)) by (apply H; lia). lia.
Qed.

Theorem te_observations_every source dest l k rnd :
  te_observations source dest l k (NInt (Z.of_nat s)) rnd = te_observations (sub_arr source) (sub_arr dest) l k (NInt 1) rnd.
Proof.
  unfold te_observations. rewrite pos_s. change (pos_int (NInt 1)) with (Some 1).
  destruct (pos_int l) as [l'|]; [|reflexivity]. destruct (pos_int k) as [k'|]; [|reflexivity].
  rewrite delay_every. destruct (_ <=? _); [reflexivity|]. rewrite slices_every, Nat.mul_1_r.
  destruct (src_dest_slices (sub_arr source) _ _ _ _ _ _) as [[[[df dh] sh] bs]| |]; reflexivity.
Qed.
Theorem cte_observations_every source dest cond l k m rnd :
  cte_observations source dest cond l k m (NInt (Z.of_nat s)) rnd =
  cte_observations (sub_arr source) (sub_arr dest) (sub_arr cond) l k m (NInt 1) rnd.
Proof.
  unfold cte_observations. rewrite pos_s. change (pos_int (NInt 1)) with (Some 1).
  destruct (pos_int l) as [l'|]; [|reflexivity]. destruct (pos_int k) as [k'|]; [|reflexivity]. destruct (pos_int m) as [m'|]; [|reflexivity].
  rewrite delay_every. destruct (_ <=? _); [reflexivity|]. rewrite slices_every, Nat.mul_1_r.
  destruct (src_dest_slices (sub_arr source) _ _ _ _ _ _) as [[[[df dh] sh] bs]| |]; try reflexivity.
  cbn [rmap bind fst snd]. rewrite hist_every, gathers_every. reflexivity.
Qed.

(** the constructor's shift *)
Lemma to_nat_diff n x : Z.to_nat (Z.of_nat n + - Z.of_nat x) = n - x. Proof. lia. Qed.
Lemma upto_every p a : sub_arr (py_upto_or (- Z.of_nat p * Z.of_nat s) a) = py_upto_or (- Z.of_nat p * 1) (sub_arr a).
Proof.
  unfold py_upto_or. destruct p as [|p]; [reflexivity|].
  destruct (Z.eqb_spec (- Z.of_nat (S p) * Z.of_nat s) 0); [nia|]. destruct (Z.eqb_spec (- Z.of_nat (S p) * 1) 0); [lia|].
  unfold py_upto. destruct (Z.ltb_spec (- Z.of_nat (S p) * Z.of_nat s) 0); [|nia].
  destruct (Z.ltb_spec (- Z.of_nat (S p) * 1) 0); [|lia].
  destruct a as [l|l]; cbn [sub_arr arr_len]; f_equal;
  (replace (Z.of_nat (length l) + - Z.of_nat (S p) * Z.of_nat s)%Z with (Z.of_nat (length l) + - Z.of_nat (S p * s))%Z by nia;
   replace (Z.of_nat (length (every s l)) + - Z.of_nat (S p) * 1)%Z with (Z.of_nat (length (every s l)) + - Z.of_nat (S p))%Z by nia;
   rewrite !to_nat_diff; apply every_first).
Qed.
Lemma from_every p a : sub_arr (py_from (Z.of_nat p * Z.of_nat s) a) = py_from (Z.of_nat p * 1) (sub_arr a).
Proof.
  unfold py_from. destruct (Z.ltb_spec (Z.of_nat p * Z.of_nat s) 0); [nia|]. destruct (Z.ltb_spec (Z.of_nat p * 1) 0); [lia|].
  replace (Z.to_nat (Z.of_nat p * Z.of_nat s)) with (p * s) by nia. replace (Z.to_nat (Z.of_nat p * 1)) with p by lia.
  destruct a; cbn [sub_arr]; f_equal; apply every_skip.
Qed.

Definition both (sd : arr * arr) : arr * arr := (sub_arr (fst sd), sub_arr (snd sd)).
Theorem te_init_every source dest p off : arr_len source = arr_len dest ->
  rmap both (te_init source dest p off (NInt (Z.of_nat s))) = te_init (sub_arr source) (sub_arr dest) p off (NInt 1).
Proof.
  intros E. unfold te_init. rewrite (sub_len_eq _ _ E), E, !Nat.eqb_refl. cbn [negb].
  assert (G : forall q, rmap both (match q with
       | Some (NInt p) => if Z.eqb p 0 then Ok (source, dest)
           else if Z.ltb 0 p then Ok (py_upto_or (- p * Z.of_nat s) source, py_from (p * Z.of_nat s) dest)
                else Ok (py_from (- p * Z.of_nat s) source, py_upto_or (p * Z.of_nat s) dest)
       | _ => Raise ValueError end) =
     match q with
       | Some (NInt p) => if Z.eqb p 0 then Ok (sub_arr source, sub_arr dest)
           else if Z.ltb 0 p then Ok (py_upto_or (- p * 1) (sub_arr source), py_from (p * 1) (sub_arr dest))
                else Ok (py_from (- p * 1) (sub_arr source), py_upto_or (p * 1) (sub_arr dest))
       | _ => Raise ValueError end).
  { intros [[q|]|]; try reflexivity. destruct (Z.eqb q 0); [reflexivity|].
    destruct (Z.ltb_spec 0 q); cbn [rmap bind both fst snd].
    - replace q with (Z.of_nat (Z.to_nat q)) by lia. unfold both. cbn [fst snd]. rewrite upto_every, from_every. reflexivity.
    - replace q with (- Z.of_nat (Z.to_nat (- q)))%Z by lia. unfold both. cbn [fst snd]. rewrite !Z.opp_involutive.
      rewrite upto_every, from_every. reflexivity. }
  destruct (negb (none_or_0 off)); [destruct (none_or_0 p); [|reflexivity]|]; cbn [bind]; apply G.
Qed.

(** ** numeric series *)
Lemma fgather_every rows idx : fgather rows (map (fun i => i * s) idx) = fgather (every s rows) idx.
Proof.
  unfold fgather. f_equal. rewrite mapM_map.
  induction idx as [|i idx IH]; [reflexivity|]. cbn [mapM]. rewrite IH. rewrite every_nth by exact Hs. reflexivity.
Qed.
Lemma fgathers_every rows idxs : mapM (fgather rows) (map (map (fun i => i * s)) idxs) = mapM (fgather (every s rows)) idxs.
Proof.
  rewrite mapM_map. induction idxs as [|i idx IH]; [reflexivity|]. cbn [mapM]. rewrite IH, fgather_every. reflexivity.
Qed.
Lemma fslices_every source dest l k m rnd :
  fslices source dest l k s (m * s) rnd =
  rmap (fun r => (fst r, map (fun b => b * s) (snd r))) (fslices (every s source) (every s dest) l k 1 m rnd).
Proof.
  unfold fslices.
  rewrite (arange_every (length (every s dest)) (length dest) m (fun i => every_lt s dest i Hs)).
  set (bs := arange m (length (every s dest)) 1).
  assert (Si : forall sg, map (fun j => nth j (hist_idx (map (fun b => b * s) bs) l s) []) sg =
                          map (map (fun i => i * s)) (map (fun j => nth j (hist_idx bs l 1) []) sg)).
  { intros sg. rewrite hist_every, map_map. apply map_ext. intros j.
    change (@nil nat) with (map (fun i => i * s) (@nil nat)) at 1. apply map_nth. }
  assert (F : map (fun b : nat => [b]) (map (fun b => b * s) bs) = map (map (fun i => i * s)) (map (fun b : nat => [b]) bs))
    by (rewrite !map_map; apply map_ext; reflexivity).
  rewrite F. rewrite (fgathers_every dest (map (fun b : nat => [b]) bs)).
  rewrite (hist_every bs k), (fgathers_every dest).
  destruct rnd as [|sg|sg|]; [|rewrite Si|rewrite Si|reflexivity]; try rewrite (hist_every bs l); rewrite fgathers_every;
    destruct (mapM (fgather (every s source)) _); try reflexivity; cbn [bind rmap];
    destruct (mapM (fgather (every s dest)) (hist_idx bs k 1)); try reflexivity; cbn [bind rmap];
    destruct (mapM (fgather (every s dest)) (map (fun b : nat => [b]) bs)); reflexivity.
Qed.
Lemma fdelay_every {A} (a : list A) m : (length a <=? m * s) = (length (every s a) <=? m * 1).
Proof.
  pose proof (every_lt s a m Hs). destruct (Nat.leb_spec (length a) (m * s)), (Nat.leb_spec (length (every s a)) (m * 1)); try reflexivity; exfalso.
  - assert (m * s < length a) by (apply H; lia). lia.
  - assert (m < length (every s a)) by (apply H; lia). lia.
Qed.
Theorem fte_spaces_every source dest l k rnd :
  fte_spaces source dest l k (NInt (Z.of_nat s)) rnd = fte_spaces (every s source) (every s dest) l k (NInt 1) rnd.
Proof.
  unfold fte_spaces. rewrite pos_s. change (pos_int (NInt 1)) with (Some 1).
  destruct (pos_int l) as [l'|]; [|reflexivity]. destruct (pos_int k) as [k'|]; [|reflexivity].
  rewrite fdelay_every. destruct (_ <=? _); [reflexivity|]. rewrite fslices_every, Nat.mul_1_r.
  destruct (fslices (every s source) _ _ _ _ _ _) as [[[[df dh] sh] bs]| |]; reflexivity.
Qed.
Theorem fcte_spaces_every source dest cond l k m :
  fcte_spaces source dest cond l k m (NInt (Z.of_nat s)) =
  fcte_spaces (every s source) (every s dest) (every s cond) l k m (NInt 1).
Proof.
  unfold fcte_spaces. rewrite pos_s. change (pos_int (NInt 1)) with (Some 1).
  destruct (pos_int l) as [l'|]; [|reflexivity]. destruct (pos_int k) as [k'|]; [|reflexivity]. destruct (pos_int m) as [m'|]; [|reflexivity].
  rewrite fdelay_every. destruct (_ <=? _); [reflexivity|]. rewrite fslices_every, Nat.mul_1_r.
  destruct (fslices (every s source) _ _ _ _ _ _) as [[[[df dh] sh] bs]| |]; try reflexivity.
  cbn [rmap bind fst snd]. rewrite hist_every, fgathers_every. reflexivity.
Qed.
Lemma fupto_every {A} p (a : list A) : every s (fupto_or (- Z.of_nat p * Z.of_nat s) a) = fupto_or (- Z.of_nat p * 1) (every s a).
Proof.
  unfold fupto_or. destruct p as [|p]; [reflexivity|].
  destruct (Z.eqb_spec (- Z.of_nat (S p) * Z.of_nat s) 0); [nia|]. destruct (Z.eqb_spec (- Z.of_nat (S p) * 1) 0); [lia|].
  unfold fupto. destruct (Z.ltb_spec (- Z.of_nat (S p) * Z.of_nat s) 0); [|nia].
  destruct (Z.ltb_spec (- Z.of_nat (S p) * 1) 0); [|lia].
  replace (Z.of_nat (length a) + - Z.of_nat (S p) * Z.of_nat s)%Z with (Z.of_nat (length a) + - Z.of_nat (S p * s))%Z by nia.
  replace (Z.of_nat (length (every s a)) + - Z.of_nat (S p) * 1)%Z with (Z.of_nat (length (every s a)) + - Z.of_nat (S p))%Z by nia.
  rewrite !to_nat_diff. apply every_first.
Qed.
Lemma ffrom_every {A} p (a : list A) : every s (ffrom (Z.of_nat p * Z.of_nat s) a) = ffrom (Z.of_nat p * 1) (every s a).
Proof.
  unfold ffrom. destruct (Z.ltb_spec (Z.of_nat p * Z.of_nat s) 0); [nia|]. destruct (Z.ltb_spec (Z.of_nat p * 1) 0); [lia|].
  replace (Z.to_nat (Z.of_nat p * Z.of_nat s)) with (p * s) by nia. replace (Z.to_nat (Z.of_nat p * 1)) with p by lia.
  apply every_skip.
Qed.
Lemma every_len_eq {A B} (a : list A) (b : list B) : length a = length b -> length (every s a) = length (every s b).
Proof. intros E. apply seg_eq. intros i. rewrite !(every_lt s _ i Hs), E. reflexivity. Qed.
Definition fboth (sd : list pt * list pt) : list pt * list pt := (every s (fst sd), every s (snd sd)).
Theorem fte_init_every source dest p off : length source = length dest ->
  rmap fboth (fte_init source dest p off (NInt (Z.of_nat s))) = fte_init (every s source) (every s dest) p off (NInt 1).
Proof.
  intros E. unfold fte_init. rewrite (every_len_eq _ _ E), E, !Nat.eqb_refl. cbn [negb].
  assert (G : forall q, rmap fboth (match q with
       | Some (NInt p) => if Z.eqb p 0 then Ok (source, dest)
           else if Z.ltb 0 p then Ok (fupto_or (- p * Z.of_nat s) source, ffrom (p * Z.of_nat s) dest)
                else Ok (ffrom (- p * Z.of_nat s) source, fupto_or (p * Z.of_nat s) dest)
       | _ => Raise ValueError end) =
     match q with
       | Some (NInt p) => if Z.eqb p 0 then Ok (every s source, every s dest)
           else if Z.ltb 0 p then Ok (fupto_or (- p * 1) (every s source), ffrom (p * 1) (every s dest))
                else Ok (ffrom (- p * 1) (every s source), fupto_or (p * 1) (every s dest))
       | _ => Raise ValueError end).
  { intros [[q|]|]; try reflexivity. destruct (Z.eqb q 0); [reflexivity|].
    destruct (Z.ltb_spec 0 q); cbn [rmap bind fboth fst snd].
    - replace q with (Z.of_nat (Z.to_nat q)) by lia. unfold fboth. cbn [fst snd]. rewrite fupto_every, ffrom_every. reflexivity.
    - replace q with (- Z.of_nat (Z.to_nat (- q)))%Z by lia. unfold fboth. cbn [fst snd]. rewrite !Z.opp_involutive.
      rewrite fupto_every, ffrom_every. reflexivity. }
  destruct (negb (none_or_0 off)); [destruct (none_or_0 p); [|reflexivity]|]; cbn [bind]; apply G.
Qed.
Notation sub_farr := (SpecSub.sub_farr s).
Lemma sub_rows2d a : rows2d (sub_farr a) = every s (rows2d a).
Proof. destruct a as [xs|rs]; [symmetry; apply every_map|reflexivity]. Qed.

(** ** ordinal patterns *)
Section O.
Context {T : Type} `{Cmp T}.
Lemma windows_every x0 (xs : list T) d : 1 <= d ->
  every s (windows x0 xs d s) = windows x0 (every s xs) d 1.
Proof.
  intros Hd. unfold windows. rewrite every_map.
  assert (E : every s (seq 0 (nwindows (length xs) d s)) = map (fun i => i * s) (seq 0 (nwindows (length (every s xs)) d 1))).
  { apply nth_ext_err. intros i. rewrite every_nth, nth_error_map by exact Hs.
    assert (G : forall n j, nth_error (seq 0 n) j = if j <? n then Some j else None).
    { intros n j. destruct (Nat.ltb_spec j n); [|apply nth_error_None; rewrite seq_length; lia].
      rewrite (nth_error_nth' _ 0) by (rewrite seq_length; lia). rewrite seq_nth by lia. reflexivity. }
    rewrite !G. unfold nwindows. pose proof (every_lt s xs (i + (d - 1)) Hs) as L.
    destruct (Nat.ltb_spec (i * s) (length xs - (d - 1) * s)), (Nat.ltb_spec i (length (every s xs) - (d - 1) * 1)); try reflexivity; exfalso.
    - assert (i + (d - 1) < length (every s xs)) by (apply L; nia). lia.
    - assert ((i + (d - 1)) * s < length xs) by (apply L; lia). nia. }
  rewrite E, map_map. apply map_ext. intros i. unfold window. apply map_ext. intros j.
  assert (N : forall (l : list T) n, nth n l x0 = match nth_error l n with Some x => x | None => x0 end).
  { induction l as [|y l IH]; intros [|n]; try reflexivity. apply IH. }
  rewrite !N, every_nth by exact Hs.
  replace ((i + j * 1) * s) with (i * s + j * s) by lia. reflexivity.
Qed.
Lemma mapM_every {A B} (f : A -> res B) l r : mapM f l = Ok r -> mapM f (every s l) = Ok (every s r).
Proof.
  unfold every. generalize 0. revert r.
  induction l as [|x l IH]; intros r k E; cbn [mapM thin] in *; [injection E as <-; reflexivity|].
  destruct (f x) as [y| |] eqn:Fx; try discriminate. cbn [bind] in E.
  destruct (mapM f l) as [ys| |] eqn:Ml; try discriminate. injection E as <-.
  destruct k as [|k]; cbn [thin mapM]; [rewrite Fx; cbn [bind]; rewrite (IH _ _ eq_refl); reflexivity|apply IH; reflexivity].
Qed.
Lemma symbolize_every k (xs : list T) d :
  rmap (every s) (symbolize k xs d (Z.of_nat s)) = symbolize k (every s xs) d 1.
Proof.
  unfold symbolize. destruct (Z.ltb_spec d 1) as [D|D]; [reflexivity|].
  destruct (Z.ltb_spec (Z.of_nat s) 1) as [K|K]; [lia|]. change (1 <? 1)%Z with false. cbn iota.
  assert (L : (Z.of_nat (length xs) - (d - 1) * Z.of_nat s <? 1)%Z = (Z.of_nat (length (every s xs)) - (d - 1) * 1 <? 1)%Z).
  { pose proof (every_lt s xs (Z.to_nat (d - 1)) Hs) as L.
    destruct (Z.ltb_spec (Z.of_nat (length xs) - (d - 1) * Z.of_nat s) 1), (Z.ltb_spec (Z.of_nat (length (every s xs)) - (d - 1) * 1) 1); try reflexivity; exfalso.
    - assert (Z.to_nat (d - 1) * s < length xs) by (apply L; lia). nia.
    - assert (Z.to_nat (d - 1) < length (every s xs)) by (apply L; nia). lia. }
  rewrite L. destruct (Z.of_nat (length (every s xs)) - (d - 1) * 1 <? 1)%Z; [reflexivity|].
  destruct xs as [|x0 xs]; [reflexivity|].
  replace (every s (x0 :: xs)) with (x0 :: thin (s - 1) s xs) by reflexivity. cbn [rmap bind].
  rewrite every_map, Nat2Z.id, windows_every by lia. change (Z.to_nat 1) with 1. reflexivity.
Qed.
Lemma symbolize_int_every k (xs : list T) d : legal_kind k ->
  rmap (every s) (symbolize_int k xs d (Z.of_nat s)) = symbolize_int k (every s xs) d 1.
Proof.
  intros LK. unfold symbolize_int. rewrite <- symbolize_every.
  destruct (symbolize k xs d (Z.of_nat s)) as [ps| |] eqn:E; try reflexivity. cbn [rmap bind].
  assert (Lp : ps <> [] /\ forall p, In p ps -> length p = Z.to_nat d).
  { unfold symbolize in E. destruct (Z.ltb_spec d 1); [discriminate|]. destruct (Z.ltb_spec (Z.of_nat s) 1); [discriminate|].
    destruct (Z.ltb_spec (Z.of_nat (length xs) - (d - 1) * Z.of_nat s) 1) as [|W]; [discriminate|]. destruct xs as [|x0 xs]; [discriminate|].
    injection E as <-. split.
    - intros Z. apply (f_equal (@length _)) in Z. rewrite map_length in Z. unfold windows in Z. rewrite map_length, seq_length in Z.
      unfold nwindows in Z. cbn [length] in Z, W. nia.
    - intros p Hp. apply in_map_iff in Hp. destruct Hp as (w & <- & Hw). apply windows_In_length in Hw.
      rewrite (Permutation.Permutation_length (argsort_perm k w LK)), seq_length. exact Hw. }
  destruct Lp as [NE Lp].
  destruct (Nat.ltb 20 (Z.to_nat d)) eqn:B.
  - destruct ps as [|p ps]; [destruct NE; reflexivity|].
    replace (every s (p :: ps)) with (p :: thin (s - 1) s ps) by reflexivity. cbn [mapM]. unfold permutation_to_integer at 1 3.
    rewrite (Lp p) by (left; reflexivity). rewrite B. reflexivity.
  - assert (Q : exists r, mapM (permutation_to_integer (pick_bits (Z.to_nat d))) ps = Ok r).
    { clear E NE. induction ps as [|p ps IH]; [exists []; reflexivity|]. destruct IH as [r IH]; [intros q Hq; apply Lp; right; exact Hq|].
      cbn [mapM]. rewrite IH. unfold permutation_to_integer at 1. rewrite (Lp p) by (left; reflexivity). rewrite B. eexists. reflexivity. }
    destruct Q as [r Q]. rewrite Q. cbn [rmap bind]. symmetry. apply mapM_every, Q.
Qed.
End O.
End S.
