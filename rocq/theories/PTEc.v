(** Proofs: the time-delay embedding of numeric series. *)
From Coq Require Import Reals Lra Lia List ZArith Arith Bool Permutation.
From Verif Require Import Res RSum Spec SpecTE SpecTEc SpecBase SpecKern MBase MTE PTE2 MPct MNorm MCont PKern.
Import ListNotations.
Local Open Scope R_scope.

Lemma fgather_ok rows idx : (forall i, In i idx -> (i < length rows)%nat) ->
  fgather rows idx = Ok (concat (map (fun i => nth i rows []) idx)).
Proof.
  intros H. unfold fgather. rewrite (mapM_ok _ (fun i => nth i rows [])); [reflexivity|].
  intros i Hi. rewrite (nth_error_nth' _ [] (H i Hi)). reflexivity.
Qed.

Lemma fgather_hist rows ts len s : (1 <= s)%nat ->
  (forall b, In b ts -> (len * s <= b < length rows)%nat) ->
  mapM (fgather rows) (hist_idx ts len s) = Ok (past_pts rows s len ts).
Proof.
  intros Hs H. unfold hist_idx.
  transitivity (Ok (map (fun idx => concat (map (fun i => nth i rows []) idx))
    (map (fun b => map (fun o => (b - o)%nat) (rev (arange s ((len + 1) * s) s))) ts))).
  - apply mapM_ok. intros idx Hidx. apply fgather_ok. intros i Hi.
    apply in_map_iff in Hidx. destruct Hidx as (b & <- & Hb). rewrite hist_row in Hi by exact Hs.
    apply in_map_iff in Hi. destruct Hi as (j & <- & Hj). apply in_seq in Hj.
    specialize (H b Hb). nia.
  - f_equal. unfold past_pts, pasts. rewrite !map_map. apply map_ext. intros b. f_equal.
    rewrite hist_row by exact Hs. rewrite map_map. reflexivity.
Qed.

Lemma fgather_now rows ts : (forall b, In b ts -> (b < length rows)%nat) ->
  mapM (fgather rows) (map (fun b => [b]) ts) = Ok (present_pts rows ts).
Proof.
  intros H.
  transitivity (Ok (map (fun idx => concat (map (fun i => nth i rows []) idx)) (map (fun b => [b]) ts))).
  - apply mapM_ok. intros idx Hidx. apply in_map_iff in Hidx. destruct Hidx as (b & <- & Hb).
    apply fgather_ok. intros i [<-|[]]. auto.
  - f_equal. unfold present_pts, presents. rewrite map_map. apply map_ext. intros b. simpl. apply app_nil_r.
Qed.

(** what the randomisation does with the source rows *)
Definition rnd_rows (rnd : rand) (sh : list pt) : list pt :=
  match rnd with RPermute sg | RResample sg => map (fun j => nth j sh []) sg | _ => sh end.
Definition rnd_ok (rnd : rand) (n : nat) : Prop :=
  match rnd with
  | RNone => True
  | RPermute sg => Permutation sg (seq 0 n)
  | RResample sg => length sg = n /\ Forall (fun j => (j < n)%nat) sg
  | RBoth => False
  end.
Lemma rnd_ok_lt rnd n : rnd_ok rnd n ->
  match rnd with RPermute sg | RResample sg => length sg = n /\ Forall (fun j => (j < n)%nat) sg | _ => True end.
Proof.
  destruct rnd as [|sg|sg|]; cbn; auto. intros P. split.
  - apply Permutation_length in P. rewrite seq_length in P. exact P.
  - apply Forall_forall. intros j Hj. apply (Permutation_in j P) in Hj. apply in_seq in Hj. lia.
Qed.

Section Embed.
Variables (source dest : list pt) (l k s n : nat).
Hypothesis (Hl : (1 <= l)%nat) (Hk : (1 <= k)%nat) (Hs : (1 <= s)%nat).
Hypothesis (Ls : length source = n) (Ld : length dest = n).

Lemma fslices_ok d rnd : (Nat.max k l * s <= d)%nat -> rnd_ok rnd (nrows n d s) ->
  let ts := base_times n d s in
  fslices source dest l k s d rnd =
  Ok (present_pts dest ts, past_pts dest s k ts, rnd_rows rnd (past_pts source s l ts), ts).
Proof using Hl Hk Hs Ls Ld.
  intros Hd Hr ts. set (sh := past_pts source s l ts).
  assert (HT : forall b, In b ts -> (d <= b < n)%nat).
  { intros b Hb. unfold ts in Hb. rewrite base_times_In in Hb by exact Hs. tauto. }
  assert (GS : mapM (fgather source) (hist_idx ts l s) = Ok sh).
  { apply fgather_hist; [exact Hs|]. intros b Hb. specialize (HT b Hb). rewrite Ls. nia. }
  assert (GD : mapM (fgather dest) (hist_idx ts k s) = Ok (past_pts dest s k ts)).
  { apply fgather_hist; [exact Hs|]. intros b Hb. specialize (HT b Hb). rewrite Ld. nia. }
  assert (GF : mapM (fgather dest) (map (fun b => [b]) ts) = Ok (present_pts dest ts)).
  { apply fgather_now. intros b Hb. specialize (HT b Hb). rewrite Ld. lia. }
  assert (GJ : forall sg, Forall (fun j => (j < nrows n d s)%nat) sg ->
     mapM (fgather source) (map (fun j => nth j (hist_idx ts l s) []) sg) = Ok (map (fun j => nth j sh []) sg)).
  { intros sg Hsg. apply mapM_inv in GS.
    assert (LH : length (hist_idx ts l s) = nrows n d s)
      by (unfold hist_idx; rewrite map_length; apply base_times_length).
    clear -Hsg GS LH. induction Hsg as [|j sg Hj _ IH]; [reflexivity|].
    cbn [map mapM].
    assert (E : fgather source (nth j (hist_idx ts l s) []) = Ok (nth j sh [])).
    { rewrite <- LH in Hj. clear LH IH. revert j Hj. induction GS as [|x y xs ys H1 H2 IH2]; intros j Hj; [simpl in Hj; lia|].
      destruct j; [exact H1|]. simpl. apply IH2. simpl in Hj. lia. }
    rewrite E. cbn [bind]. rewrite IH. reflexivity. }
  pose proof (rnd_ok_lt _ _ Hr) as Hj.
  unfold fslices. rewrite Ld, arange_base. fold ts.
  destruct rnd as [|sg|sg|]; [| | |contradiction]; cbn [bind rnd_rows].
  - rewrite GS. cbn [bind]. rewrite GD. cbn [bind]. rewrite GF. reflexivity.
  - rewrite (GJ sg (proj2 Hj)). cbn [bind]. rewrite GD. cbn [bind]. rewrite GF. reflexivity.
  - rewrite (GJ sg (proj2 Hj)). cbn [bind]. rewrite GD. cbn [bind]. rewrite GF. reflexivity.
Qed.
End Embed.

Lemma past_pts_length rows s len ts : length (past_pts rows s len ts) = length ts.
Proof. unfold past_pts, pasts. rewrite !map_length. reflexivity. Qed.
Lemma present_pts_length rows ts : length (present_pts rows ts) = length ts.
Proof. unfold present_pts, presents. rewrite map_length. reflexivity. Qed.
Lemma rnd_rows_length rnd n sh : rnd_ok rnd n -> length sh = n -> length (rnd_rows rnd sh) = n.
Proof.
  intros R L. pose proof (rnd_ok_lt _ _ R) as H. destruct rnd as [|sg|sg|]; cbn in *; auto;
    rewrite map_length; apply H.
Qed.

Lemma past_table n d rows s len ts : table n d rows -> (1 <= s)%nat -> (forall b, In b ts -> (len * s <= b < n)%nat) ->
  table (length ts) (len * d) (past_pts rows s len ts).
Proof.
  intros [L F] Hs H. split; [apply past_pts_length|]. rewrite Forall_forall in F. apply Forall_forall. intros p Hp.
  unfold past_pts, pasts in Hp. rewrite map_map in Hp. apply in_map_iff in Hp as (b & <- & Hb). specialize (H b Hb).
  unfold past.
  assert (E : forall js, Forall (fun j => (j < len)%nat) js ->
    length (concat (map (fun j => nth (b - (len - j) * s) rows []) js)) = (length js * d)%nat).
  { induction 1 as [|j js Hj _ IH]; cbn [map concat length]; [reflexivity|].
    rewrite app_length, IH, F; [lia|]. apply nth_In. nia. }
  rewrite E; [rewrite seq_length; reflexivity|]. apply Forall_forall. intros j Hj. apply in_seq in Hj. lia.
Qed.
Lemma present_table n d rows ts : table n d rows -> (forall b, In b ts -> (b < n)%nat) ->
  table (length ts) d (present_pts rows ts).
Proof.
  intros [L F] H. split; [apply present_pts_length|]. rewrite Forall_forall in F. apply Forall_forall. intros p Hp.
  unfold present_pts, presents in Hp. apply in_map_iff in Hp as (b & <- & Hb). apply F. apply nth_In. rewrite L. auto.
Qed.
Lemma rnd_table n d rnd sh : rnd_ok rnd n -> table n d sh -> table n d (rnd_rows rnd sh).
Proof.
  intros R [L F]. split; [apply rnd_rows_length; auto|]. pose proof (rnd_ok_lt _ _ R) as H.
  rewrite Forall_forall in F.
  destruct rnd as [|sg|sg|]; cbn in *; try (apply Forall_forall; exact F);
    apply Forall_forall; intros p Hp; apply in_map_iff in Hp as (j & <- & Hj); apply F; apply nth_In;
    destruct H as [_ H]; rewrite Forall_forall in H; rewrite L; apply H; exact Hj.
Qed.

Lemma fhcat_jrows n vars : vars <> [] -> Forall (fun v => length v = n) vars -> fhcat vars = jrows n vars.
Proof.
  intros Hv F. unfold fhcat, jrows, jrow, rows_of. destruct vars as [|v vars]; [congruence|].
  inversion F; subst. cbn [hd]. rewrite map_map. reflexivity.
Qed.

Lemma fte_spaces_ok source dest l k s n rnd : (1 <= l)%nat -> (1 <= k)%nat -> (1 <= s)%nat ->
  length source = n -> length dest = n ->
  let d := (Nat.max k l * s)%nat in
  let m := nrows n d s in
  let ts := base_times n d s in
  (d < n)%nat -> rnd_ok rnd m ->
  let X := rnd_rows rnd (past_pts source s l ts) in
  let Z := past_pts dest s k ts in
  let Y := present_pts dest ts in
  fte_spaces source dest (NInt (Z.of_nat l)) (NInt (Z.of_nat k)) (NInt (Z.of_nat s)) rnd =
  Ok (jrows m [X; Z; Y], jrows m [Z], jrows m [X; Z], jrows m [Z; Y]).
Proof.
  intros Hl Hk Hs Ls Ld d m ts Hd Hr X Z Y. unfold fte_spaces.
  rewrite !pos_int_pos by assumption. cbv zeta. fold d. rewrite Ls. destruct (Nat.leb_spec n d); [lia|].
  rewrite (fslices_ok source dest l k s n Hl Hk Hs Ls Ld d rnd) by (auto; unfold d; lia). cbn [bind].
  fold ts. fold X Z Y.
  assert (LT : length ts = m) by apply base_times_length.
  assert (LX : length X = m) by (apply rnd_rows_length; [exact Hr|rewrite past_pts_length; exact LT]).
  assert (LZ : length Z = m) by (unfold Z; rewrite past_pts_length; exact LT).
  assert (LY : length Y = m) by (unfold Y; rewrite present_pts_length; exact LT).
  rewrite !(fhcat_jrows m) by (try discriminate; repeat constructor; assumption).
  rewrite (single_rows m Z LZ). reflexivity.
Qed.

Lemma fcte_spaces_ok source dest cond l k c s n : (1 <= l)%nat -> (1 <= k)%nat -> (1 <= c)%nat -> (1 <= s)%nat ->
  length source = n -> length dest = n -> length cond = n ->
  let d := (Nat.max (Nat.max k l) c * s)%nat in
  let m := nrows n d s in
  let ts := base_times n d s in
  (d < n)%nat ->
  let X := past_pts source s l ts in
  let Z := past_pts dest s k ts in
  let C := past_pts cond s c ts in
  let Y := present_pts dest ts in
  fcte_spaces source dest cond (NInt (Z.of_nat l)) (NInt (Z.of_nat k)) (NInt (Z.of_nat c)) (NInt (Z.of_nat s)) =
  Ok (jrows m [X; Z; Y; C], jrows m [Z; C], jrows m [X; Z; C], jrows m [Z; Y; C]).
Proof.
  intros Hl Hk Hc Hs Ls Ld Lc d m ts Hd X Z C Y. unfold fcte_spaces.
  rewrite !pos_int_pos by assumption. cbv zeta. fold d. rewrite Ls. destruct (Nat.leb_spec n d); [lia|].
  rewrite (fslices_ok source dest l k s n Hl Hk Hs Ls Ld d RNone) by (cbn; auto; unfold d; nia). cbn [bind rnd_rows].
  fold ts.
  rewrite (fgather_hist cond ts c s); [|exact Hs|].
  2:{ intros b Hb. unfold ts in Hb. rewrite base_times_In in Hb by exact Hs. rewrite Lc. unfold d in *. nia. }
  cbn [bind]. fold X Z Y C.
  assert (LT : length ts = m) by apply base_times_length.
  assert (LX : length X = m) by (unfold X; rewrite past_pts_length; exact LT).
  assert (LZ : length Z = m) by (unfold Z; rewrite past_pts_length; exact LT).
  assert (LC : length C = m) by (unfold C; rewrite past_pts_length; exact LT).
  assert (LY : length Y = m) by (unfold Y; rewrite present_pts_length; exact LT).
  rewrite !(fhcat_jrows m) by (try discriminate; repeat constructor; assumption). reflexivity.
Qed.
