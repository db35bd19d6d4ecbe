(** Proofs about the keyword model: construction on symbolic keyword arguments. *)
From Coq Require Import List ZArith Arith Bool String Lia.
From Verif Require Import Res MEst MDisp MKw.
Import ListNotations.
Local Open Scope string_scope. Local Open Scope list_scope.

Lemma one_of_In l s : one_of l s = true <-> In s l.
Proof.
  unfold one_of. rewrite existsb_exists. split; [intros (x & I & E); apply String.eqb_eq in E; subst; exact I|intros I; exists s; split; [exact I|apply String.eqb_refl]].
Qed.
Lemma one_of_app a b s : one_of (a ++ b) s = one_of a s || one_of b s.
Proof. unfold one_of. apply existsb_app. Qed.

(** a symbolic value: the user's [x] or its default, or a constant *)
Inductive sval : Type := SUser (x : string) (d : option string) | SConst (t : string).
Inductive constr : Type := CFalse | CForb (l : list string) | CReq (p : string) | CAllow (l : list string).
Definition skw : Type := list (string * sval).
Fixpoint sget (kw : skw) (k : string) : option sval :=
  match kw with [] => None | (a, v) :: r => if String.eqb a k then Some v else sget r k end.

(** symbolic state: explicit arguments, and the user's arguments whose names are not in [removed] *)
Fixpoint sbind (expl : skw) (removed : list string) (own : list (string * option string)) : list constr * skw :=
  match own with
  | [] => ([], [])
  | (p, d) :: r =>
      let (cs, b) := sbind expl removed r in
      match sget expl p with
      | Some s => (cs, (p, s) :: b)
      | None =>
          if one_of removed p
          then match d with Some t => (cs, (p, SConst t) :: b) | None => (CFalse :: cs, b) end
          else match d with Some t => (cs, (p, SUser p d) :: b) | None => (CReq p :: cs, (p, SUser p None) :: b) end
      end
  end.
Definition sflag (c : bool) (b : skw) : option bool :=
  match sget b "cond" with
  | None => Some false
  | Some (SConst t) => Some (negb (String.eqb t "None"))
  | Some (SUser x (Some t)) => if String.eqb x "cond" && String.eqb t "None" then Some c else None
  | Some (SUser _ None) => None
  end.
Definition sfwd (b : skw) (f : fval) : sval :=
  match f with FConst t => SConst t | FOwn p => match sget b p with Some v => v | None => SConst "None" end end.
Definition minus (a b : list string) : list string := filter (fun x => negb (one_of b x)) a.

Fixpoint srun (c : bool) (chain : list layer) (expl : skw) (removed : list string) : option (list constr * list (string * skw)) :=
  match chain with
  | [] => Some ([], [])
  | l :: rest =>
      if existsb (fun p => one_of (l_pos l) p) (map fst expl) then Some ([CFalse], [])
      else
        let (cb, b) := sbind expl removed (l_own l) in
        let ns := map fst (l_own l) in
        let expl1 := filter (fun p => negb (one_of ns (fst p))) expl in
        let rem1 := removed ++ ns in
        let expl2 := filter (fun p => negb (one_of (l_pop l) (fst p))) expl1 in
        let rem2 := rem1 ++ l_pop l in
        match sflag c b with
        | None => None
        | Some fl =>
            let fw := map (fun nf => (fst nf, sfwd b (snd nf))) (l_fwd l fl) in
            let c1 := CForb (minus (l_pos l) removed) :: cb ++
                      (if l_var l then [] else if Nat.eqb (List.length expl1) 0 then [CAllow rem1] else [CFalse]) in
            let c2 := if Nat.eqb (List.length rest) 0 then []
                      else if existsb (fun p => one_of (map fst fw) p) (map fst expl2) then [CFalse] else [CForb (minus (map fst fw) rem2)] in
            match srun c rest (fw ++ expl2) rem2 with
            | None => None
            | Some (cs, bs) => Some (c1 ++ c2 ++ cs, (l_name l, b) :: bs)
            end
        end
  end.

Section Sound.
Context {D : Type}.
Variable kw : kwargs D.

Definition has (n : string) : bool := match kget kw n with Some _ => true | None => false end.
Definition sat (c : constr) : bool :=
  match c with
  | CFalse => false
  | CForb l => forallb (fun n => negb (one_of l n)) (map fst kw)
  | CReq p => has p
  | CAllow l => forallb (one_of l) (map fst kw)
  end.
Definition ev (s : sval) : kval D :=
  match s with
  | SConst t => Src t
  | SUser x d => match kget kw x with Some v => Given v | None => match d with Some t => Src t | None => Src "None" end end
  end.
Definition evs (b : skw) : vkw D := map (fun p => (fst p, ev (snd p))) b.
Definition conc (expl : skw) (removed : list string) : vkw D := evs expl ++ vdrop removed (user kw).
Definition flag : bool := match kget kw "cond" with Some v => negb (is_none v) | None => false end.

Lemma vget_evs b k : vget (evs b) k = option_map ev (sget b k).
Proof. induction b as [|[a s] b IH]; cbn; [reflexivity|]. destruct (String.eqb a k); [reflexivity|exact IH]. Qed.
Lemma vget_app (a b : vkw D) k : vget (a ++ b) k = match vget a k with Some v => Some v | None => vget b k end.
Proof. induction a as [|[n v] a IH]; cbn; [reflexivity|]. destruct (String.eqb n k); [reflexivity|exact IH]. Qed.
Lemma vget_user k : vget (user kw) k = option_map Given (kget kw k).
Proof. unfold user. generalize kw. intros l. induction l as [|[n v] l IH]; cbn; [reflexivity|]. destruct (String.eqb n k); [reflexivity|exact IH]. Qed.
Lemma vget_vdrop r (l : vkw D) k : vget (vdrop r l) k = if one_of r k then None else vget l k.
Proof.
  induction l as [|[n v] l IH]; cbn [vdrop filter fst vget]; [destruct (one_of r k); reflexivity|].
  destruct (one_of r n) eqn:E; cbn [negb].
  - fold (vdrop r l). rewrite IH. destruct (String.eqb_spec n k) as [->|]; [rewrite E; reflexivity|reflexivity].
  - cbn [vget]. fold (vdrop r l). destruct (String.eqb_spec n k) as [->|]; [rewrite E; reflexivity|exact IH].
Qed.
Lemma vdrop_vdrop a b (l : vkw D) : vdrop b (vdrop a l) = vdrop (a ++ b) l.
Proof.
  unfold vdrop. induction l as [|[n v] l IH]; [reflexivity|]. cbn [filter fst]. rewrite one_of_app. destruct (one_of a n); cbn [negb orb]; [exact IH|].
  cbn [filter fst]. destruct (one_of b n); cbn [negb]; [exact IH|]. f_equal. exact IH.
Qed.
Lemma vdrop_evs r (b : skw) : vdrop r (evs b) = evs (filter (fun p => negb (one_of r (fst p))) b).
Proof. unfold vdrop, evs. induction b as [|[n v] b IH]; [reflexivity|]. cbn [map filter fst snd]. destruct (one_of r n); cbn [negb]; [exact IH|]. cbn [map fst snd]. f_equal. exact IH. Qed.
Lemma vdrop_conc r expl rem : vdrop r (conc expl rem) = conc (filter (fun p => negb (one_of r (fst p))) expl) (rem ++ r).
Proof. unfold conc. unfold vdrop at 1. rewrite filter_app. fold (vdrop r (evs expl)). fold (vdrop r (vdrop rem (user kw))). rewrite vdrop_evs, vdrop_vdrop. reflexivity. Qed.
Lemma names_evs b : names (evs b) = map fst b.
Proof. unfold names, evs. rewrite map_map. reflexivity. Qed.
Lemma names_user : names (user kw) = map fst kw.
Proof. unfold names, user. rewrite map_map. reflexivity. Qed.
Lemma names_vdrop r (l : vkw D) : names (vdrop r l) = filter (fun n => negb (one_of r n)) (names l).
Proof. unfold names, vdrop. induction l as [|[n v] l IH]; [reflexivity|]. cbn [map filter fst]. destruct (one_of r n); cbn [negb]; [exact IH|]. cbn [map fst]. f_equal. exact IH. Qed.
Lemma names_conc expl rem : names (conc expl rem) = map fst expl ++ filter (fun n => negb (one_of rem n)) (map fst kw).
Proof. unfold conc, names. rewrite map_app. fold (names (evs expl)). fold (names (vdrop rem (user kw))). rewrite names_evs, names_vdrop, names_user. reflexivity. Qed.

Lemma vget_conc expl rem p : vget (conc expl rem) p =
  match sget expl p with Some s => Some (ev s) | None => if one_of rem p then None else option_map Given (kget kw p) end.
Proof.
  unfold conc. rewrite vget_app, vget_evs. destruct (sget expl p); [reflexivity|]. cbn [option_map]. rewrite vget_vdrop, vget_user. reflexivity.
Qed.

(** binding *)
Lemma bind_sound expl rem own cs b : sbind expl rem own = (cs, b) ->
  bind_own own (conc expl rem) = if forallb sat cs then Ok (evs b) else Raise TypeError.
Proof.
  revert cs b. induction own as [|[p d] own IH]; cbn [sbind bind_own]; intros cs b E.
  - injection E as <- <-. reflexivity.
  - destruct (sbind expl rem own) as [cs' b'] eqn:E'. specialize (IH cs' b' eq_refl). rewrite vget_conc. destruct (sget expl p) as [s|].
    + injection E as <- <-. rewrite IH. destruct (forallb sat cs'); reflexivity.
    + destruct (one_of rem p).
      * destruct d as [t|]; injection E as <- <-; [|reflexivity]. rewrite IH. destruct (forallb sat cs'); reflexivity.
      * destruct d as [t|]; injection E as <- <-.
        -- rewrite IH. destruct (kget kw p) as [v|] eqn:G; cbn [option_map]; destruct (forallb sat cs'); try reflexivity; cbn [bind evs map fst snd ev]; rewrite G; reflexivity.
        -- cbn [forallb]. unfold sat at 1, has. destruct (kget kw p) as [v|] eqn:G; cbn [option_map andb]; [|reflexivity]. rewrite IH. destruct (forallb sat cs'); [|reflexivity]. cbn [bind evs map fst snd ev]. rewrite G. reflexivity.
Qed.

Lemma flag_sound b fl : sflag flag b = Some fl -> cond_given (evs b) = fl.
Proof.
  unfold sflag, cond_given. rewrite vget_evs. destruct (sget b "cond") as [[x [t|]|t]|]; cbn [option_map].
  - destruct (String.eqb_spec x "cond") as [->|]; [|discriminate]. destruct (String.eqb_spec t "None") as [->|]; [|discriminate]. cbn [andb]. intros E. injection E as <-.
    unfold flag. cbn [ev]. destruct (kget kw "cond") as [v|]; reflexivity.
  - discriminate.
  - intros E. injection E as <-. reflexivity.
  - intros E. injection E as <-. reflexivity.
Qed.
Lemma fwd_sound b f : fwd_val (evs b) f = ev (sfwd b f).
Proof. destruct f as [p|t]; [|reflexivity]. cbn. rewrite vget_evs. destruct (sget b p); reflexivity. Qed.

Lemma forb_sound P rem (expl : skw) :
  existsb (fun p => one_of P p) (map fst expl ++ filter (fun n => negb (one_of rem n)) (map fst kw)) =
  existsb (fun p => one_of P p) (map fst expl) || negb (sat (CForb (minus P rem))).
Proof.
  rewrite existsb_app. f_equal. cbn [sat]. generalize (map fst kw). intros l. induction l as [|n l IH]; [reflexivity|].
  cbn [filter forallb]. destruct (one_of rem n) eqn:E; cbn [negb].
  - rewrite IH. assert (Q : one_of (minus P rem) n = false). { apply not_true_iff_false. intros Q. apply one_of_In in Q. unfold minus in Q. apply filter_In in Q. destruct Q as [_ Q]. rewrite E in Q. discriminate Q. }
    rewrite Q. reflexivity.
  - cbn [existsb]. rewrite IH. assert (Q : one_of (minus P rem) n = one_of P n).
    { apply eq_true_iff_eq. rewrite !one_of_In. unfold minus. rewrite filter_In, E. cbn [negb]. tauto. }
    rewrite Q. destruct (one_of P n); reflexivity.
Qed.
Lemma allow_sound rem expl : expl = [] ->
  negb (Nat.eqb (List.length (conc expl rem)) 0) = negb (sat (CAllow rem)).
Proof.
  intros ->. f_equal. unfold conc. cbn [evs map app]. rewrite <- (map_length fst). fold (names (vdrop rem (user kw))). rewrite names_vdrop, names_user. cbn [sat].
  generalize (map fst kw). intros l. induction l as [|n l IH]; [reflexivity|]. cbn [filter forallb]. destruct (one_of rem n); cbn [negb andb]; [exact IH|reflexivity].
Qed.

Definition free : checks D := mkChecks (fun _ _ => Ok tt) (fun _ _ => Ok tt) false.

Theorem srun_sound chain expl rem cs bs : srun flag chain expl rem = Some (cs, bs) ->
  run free chain (conc expl rem) = if forallb sat cs then Ok (map (fun nb => (fst nb, evs (snd nb))) bs) else Raise TypeError.
Proof.
  revert expl rem cs bs. induction chain as [|l rest IH]; intros expl rem cs bs; cbn [srun run].
  - intros E. injection E as <- <-. reflexivity.
  - intros E. rewrite names_conc, forb_sound.
    destruct (existsb (fun p => one_of (l_pos l) p) (map fst expl)) eqn:P; [injection E as <- <-; reflexivity|]. cbn [orb].
    destruct (sbind expl rem (l_own l)) as [cb b] eqn:SB. rewrite (bind_sound _ _ _ _ _ SB).
    destruct (sflag flag b) as [fl|] eqn:FL; [|discriminate E].
    set (expl1 := filter (fun p => negb (one_of (map fst (l_own l)) (fst p))) expl) in *.
    set (expl2 := filter (fun p => negb (one_of (l_pop l) (fst p))) expl1) in *.
    set (fw := map (fun nf => (fst nf, sfwd b (snd nf))) (l_fwd l fl)) in *.
    destruct (srun flag rest (fw ++ expl2) ((rem ++ map fst (l_own l)) ++ l_pop l)) as [[cs' bs']|] eqn:SR; [|discriminate E].
    specialize (IH _ _ _ _ SR). injection E as <- <-. rewrite app_comm_cons, !forallb_app. cbn [forallb]. rewrite forallb_app.
    set (S1 := sat (CForb (minus (l_pos l) rem))). clearbody S1. destruct S1; cbn [negb andb]; [|reflexivity].
    destruct (forallb sat cb); cbn [andb bind]; [|reflexivity].
    assert (V : vdrop (names (l_own l)) (conc expl rem) = conc expl1 (rem ++ map fst (l_own l))) by (rewrite vdrop_conc; reflexivity). rewrite V.
    assert (A : negb (l_var l) && negb (Nat.eqb (List.length (conc expl1 (rem ++ map fst (l_own l)))) 0) =
                negb (forallb sat (if l_var l then [] else if Nat.eqb (List.length expl1) 0 then [CAllow (rem ++ map fst (l_own l))] else [CFalse]))).
    { destruct (l_var l); [reflexivity|]. cbn [negb andb]. destruct (Nat.eqb_spec (List.length expl1) 0) as [Z|Z].
      - destruct expl1 eqn:X; [|discriminate Z]. rewrite (allow_sound (rem ++ map fst (l_own l)) [] eq_refl). cbn [forallb]. rewrite andb_true_r. reflexivity.
      - cbn [forallb sat andb negb]. apply negb_true_iff, Nat.eqb_neq. unfold conc. rewrite app_length. unfold evs. rewrite map_length. lia. }
    rewrite A. destruct (forallb sat (if l_var l then [] else _)); cbn [negb andb]; [|reflexivity].
    assert (DD : l_dd l && is_dd free = false) by apply andb_false_r. rewrite DD. cbn [free before after bind].
    rewrite (flag_sound _ _ FL).
    assert (FW : map (fun nf => (fst nf, fwd_val (evs b) (snd nf))) (l_fwd l fl) = evs fw).
    { unfold evs, fw. rewrite map_map. apply map_ext. intros [n f]. cbn [fst snd]. f_equal. apply fwd_sound. }
    rewrite FW. rewrite vdrop_conc. fold expl2. rewrite names_evs, names_conc.
    assert (B : negb (Nat.eqb (List.length rest) 0) && existsb (fun p => one_of (map fst fw) p) (map fst expl2 ++ filter (fun n => negb (one_of ((rem ++ map fst (l_own l)) ++ l_pop l) n)) (map fst kw)) =
                negb (forallb sat (if Nat.eqb (List.length rest) 0 then [] else if existsb (fun p => one_of (map fst fw) p) (map fst expl2) then [CFalse] else [CForb (minus (map fst fw) ((rem ++ map fst (l_own l)) ++ l_pop l))]))).
    { destruct (Nat.eqb (List.length rest) 0); [reflexivity|]. cbn [negb andb]. rewrite forb_sound. destruct (existsb (fun p => one_of (map fst fw) p) (map fst expl2)); [reflexivity|].
      cbn [orb forallb]. rewrite andb_true_r. reflexivity. }
    rewrite B. destruct (forallb sat (if Nat.eqb (List.length rest) 0 then [] else _)); cbn [negb andb]; [|reflexivity].
    assert (CO : evs fw ++ conc expl2 ((rem ++ map fst (l_own l)) ++ l_pop l) = conc (fw ++ expl2) ((rem ++ map fst (l_own l)) ++ l_pop l)).
    { unfold conc. unfold evs at 3. rewrite map_app. rewrite app_assoc. reflexivity. }
    rewrite CO, IH. destruct (forallb sat cs'); reflexivity.
Qed.

(** checks only take completions away *)
Lemma run_free (C : checks D) chain v r : is_dd C = false -> run C chain v = Ok r -> run free chain v = Ok r.
Proof.
  intros ND. revert v r. induction chain as [|l rest IH]; intros v r; cbn [run]; [auto|].
  destruct (existsb _ (names v)); [auto|]. destruct (bind_own (l_own l) v) as [b|e|]; cbn [bind]; [|auto|auto].
  destruct (negb (l_var l) && _); [auto|]. rewrite ND, andb_false_r. cbn [free is_dd]. rewrite andb_false_r. cbn [before after].
  destruct (before C (l_name l) b) as [u|e|]; cbn [bind]; [|discriminate|discriminate].
  destruct (negb (Nat.eqb (List.length rest) 0) && _); [auto|].
  destruct (run C rest _) as [r'|e|] eqn:E; cbn [bind]; [|discriminate|discriminate]. rewrite (IH _ _ E). cbn [bind].
  destruct (after C (l_name l) b); cbn [bind]; [auto|discriminate|discriminate].
Qed.
End Sound.
