(** Model: ordinal patterns and the ordinal estimators
    (infomeasure/estimators/utils/ordinal.py abbreviated UO, estimators/entropy/ordinal.py abbreviated EO,
    estimators/mutual_information/ordinal.py abbreviated MO, estimators/transfer_entropy/ordinal.py
    abbreviated TO).  Series are lists over any totally ordered type (integers; floats without nan). *)
From Coq Require Import Reals List ZArith Arith Bool.
From Verif Require Import Res RSum Spec Ord MBase MData MEntropy MMI MTE SpecOrd.
Import ListNotations.
Local Open Scope R_scope.

(** ** [permutation_to_integer] (UO 21-75) *)

(** numpy unsigned integer of a given width: arithmetic wraps *)
Definition uwrap (bits z : Z) : Z := (z mod 2 ^ bits)%Z.
(** int64: wraps into the signed range *)
Definition i64 (z : Z) : Z := ((z + 2 ^ 63) mod 2 ^ 64 - 2 ^ 63)%Z.
(** an integer rounded to the nearest float64 (53 significant bits, ties to even), below 2^1024 *)
Definition f64 (z : Z) : Z :=
  let a := Z.abs z in
  let e := Z.max 0 (Z.log2 a - 52) in
  let q := (a / 2 ^ e)%Z in
  let r := (a mod 2 ^ e)%Z in
  let up := orb (2 ^ e <? 2 * r)%Z (andb (2 ^ e =? 2 * r)%Z (Z.odd q) && negb (e =? 0)%Z) in
  (Z.sgn z * ((if up then q + 1 else q) * 2 ^ e))%Z.

(** product of an element of the [factoradic] array (unsigned, [bits] wide) with an element of the
    int64 array of factorials, cast to the unsigned dtype for the sum (UO 71-74).  numpy's common
    type of uint64 and int64 is float64, of a narrower unsigned type and int64 it is int64. *)
Definition up_mul (bits a f : Z) : Z :=
  if (bits =? 64)%Z then uwrap bits (f64 (f64 a * f64 f)) else uwrap bits (i64 (a * i64 f)).

(** number of later, smaller entries (UO 70), in the given dtype *)
Fixpoint smaller (x : nat) (l : list nat) : Z :=
  match l with [] => 0 | y :: r => (if Nat.ltb y x then 1 else 0) + smaller x r end%Z.

(** the loop over positions: digit times factorial of the number of later entries *)
Fixpoint p2i_terms (bits : Z) (perm : list nat) : list Z :=
  match perm with
  | [] => []
  | x :: r => up_mul bits (uwrap bits (smaller x r)) (zfact (length r)) :: p2i_terms bits r
  end.

Definition permutation_to_integer (bits : Z) (perm : list nat) : res Z :=
  if Nat.ltb 20 (length perm) then Raise ValueError
  else Ok (fold_left (fun acc t => uwrap bits (acc + t)) (p2i_terms bits perm) 0%Z).

(** choice of the dtype (UO 137-143): the first of 8, 16, 32 bits whose maximum exceeds d!, else 64 *)
Definition pick_bits (d : nat) : Z :=
  if (zfact d <? 2 ^ 8 - 1)%Z then 8 else if (zfact d <? 2 ^ 16 - 1)%Z then 16
  else if (zfact d <? 2 ^ 32 - 1)%Z then 32 else 64.

Section Ordinal.
Context {T : Type} `{Cmp T}.

Definition ltb (x y : T) : bool := match cmp x y with Lt => true | _ => false end.

(** ** [argsort] *)
(** [kind="stable"]: positions ordered by value, equal values by position *)
Fixpoint ins (p : T * nat) (l : list (T * nat)) : list (T * nat) :=
  match l with
  | [] => [p]
  | q :: r => if ltb (fst q) (fst p) then q :: ins p r else p :: q :: r
  end.
Definition argsort_stable (w : list T) : list nat :=
  map snd (fold_right ins [] (combine w (seq 0 (length w)))).

(** the default kind makes no promise about equal values: any function producing a sorting order.
    [k_stable] is the user's [stable] argument. *)
Record kind : Type := mkKind { k_df : list T -> list nat; k_stable : bool }.
Definition argsort (k : kind) (w : list T) : list nat :=
  if k_stable k then argsort_stable w else k_df k w.
Definition legal_kind (k : kind) : Prop := forall w, sorts w (k_df k w).
(** the same with [stable=False], used where the argument is not passed on *)
Definition unstable (k : kind) : kind := mkKind (k_df k) false.

(** ** [symbolize_series(..., to_int=False)] (UO 120-133).  Without a window, [as_strided] (negative
    shape) or [apply_along_axis] (no rows) raises ValueError. *)
Definition symbolize (k : kind) (xs : list T) (d s : Z) : res (list (list nat)) :=
  if (d <? 1)%Z then Raise ValueError
  else if (s <? 1)%Z then Raise ValueError
  else if (Z.of_nat (length xs) - (d - 1) * s <? 1)%Z then Raise ValueError
  else match xs with
       | [] => Raise ValueError
       | x0 :: _ => Ok (map (fun w => argsort k w) (windows x0 xs (Z.to_nat d) (Z.to_nat s)))
       end.

(** [symbolize_series(..., to_int=True)] (UO 135-149) *)
Definition symbolize_int (k : kind) (xs : list T) (d s : Z) : res (list Z) :=
  let* ps := symbolize k xs d s in
  mapM (permutation_to_integer (pick_bits (Z.to_nat d))) ps.

(** ** Ordinal entropy *)
(** neighbouring elements: [zip(x[:-1], x[1:])] and triples for dimension 3 *)
Fixpoint pairs2 (xs : list T) : list (T * T) :=
  match xs with x :: ((y :: _) as r) => (x, y) :: pairs2 r | _ => [] end.
Fixpoint triples3 (xs : list T) : list (T * T * T) :=
  match xs with x :: ((y :: z :: _) as r) => (x, y, z) :: triples3 r | _ => [] end.

(** a distribution dictionary and the patterns of the series *)
Definition odist : Type := (list (list nat * R) * list (list nat))%type.

(** [_estimate_probabilities_embedding_dim_2] (EO 118-128) *)
Definition est_dim2 (xs : list T) : odist :=
  let gts := map (fun p => ltb (fst p) (snd p)) (pairs2 xs) in
  let pats := map (fun g : bool => if g then [0; 1]%nat else [1; 0]%nat) gts in
  let gt := INR (length (filter (fun g => g) gts)) / (INR (length xs) - 1) in
  if Req_EM_T gt 0 then ([([1; 0]%nat, 1)], pats)
  else if Req_EM_T gt 1 then ([([0; 1]%nat, 1)], pats)
  else ([([0; 1]%nat, gt); ([1; 0]%nat, 1 - gt)], pats).

(** the key translation of EO 139-146; other keys raise KeyError *)
Definition bool_to_num (k : bool * bool * bool) : res (list nat) :=
  match k with
  | (true, true, true) => Ok [0; 1; 2]%nat
  | (true, false, true) => Ok [0; 2; 1]%nat
  | (false, true, true) => Ok [1; 0; 2]%nat
  | (true, false, false) => Ok [1; 2; 0]%nat
  | (false, true, false) => Ok [2; 0; 1]%nat
  | (false, false, false) => Ok [2; 1; 0]%nat
  | _ => Raise KeyError
  end.

(** [_estimate_probabilities_embedding_dim_3] (EO 131-154); a [Counter] is the list of its distinct
    keys with [count]; all counts are positive *)
Definition est_dim3 (xs : list T) : res odist :=
  let keys := map (fun t => let '(x, y, z) := t in (ltb x y, ltb y z, ltb x z)) (triples3 xs) in
  let* dict := mapM (fun k => let* p := bool_to_num k in
                              Ok (p, INR (count keys k) / (INR (length xs) - 2))) (distinct keys) in
  let* pats := mapM bool_to_num keys in
  Ok (dict, pats).

(** [_estimate_probabilities] (EO 187-204) *)
Definition est_probs (k : kind) (xs : list T) (d s : Z) : res odist :=
  if ((d =? 2) && (s =? 1))%Z then Ok (est_dim2 xs)
  else if ((d =? 3) && (s =? 1))%Z then est_dim3 xs
  else let* ps := symbolize k xs d s in
       Ok (map (fun p => (p, INR (count ps p) / IZR (Z.of_nat (length xs) - (d - 1) * s))) (distinct ps), ps).

(** the constructor's checks (EO 84-115) for a 1-D series *)
Definition ord_init (xs : list T) (d s : Z) : res unit :=
  if (d <? 0)%Z then Raise ValueError
  else if (s <? 1)%Z then Raise ValueError
  else if (Z.of_nat (length xs) <? (d - 1) * s + 1)%Z then Raise ValueError
  else Ok tt.

(** [_simple_entropy] (EO 206-223): the entropy, the dictionary and the patterns.  Patterns that are
    plain integers (dimension 1) are [None].  A single window is sorted as a whole series with the default
    kind. *)
Definition ord_simple (k : kind) (b : base) (xs : list T) (d s : Z) : res (R * option odist) :=
  if (d =? 1)%Z then Ok (0, None)
  else if ((d - 1) * s + 1 =? Z.of_nat (length xs))%Z
  then let p := k_df k xs in
       Ok (0, Some ([(p, 1)], [p]))
  else let* ds := est_probs k xs d s in
       let* h := plogp b (map snd (fst ds)) in Ok (h, Some ds).

(** [entropy(xs, approach="ordinal", embedding_dim=d, step_size=s, stable=..)] *)
Definition entropy_ordinal (k : kind) (b : base) (xs : list T) (d s : Z) : res R :=
  let* _ := ord_init xs d s in rmap fst (ord_simple k b xs d s).

(** dictionary lookup by pattern *)
Fixpoint pget (dict : list (list nat * R)) (p : list nat) : res R :=
  match dict with
  | [] => Raise KeyError
  | (q, v) :: r => match pget r p with
                   | Ok w => Ok w
                   | _ => if list_eq_dec Nat.eq_dec q p then Ok v else Raise KeyError
                   end
  end.

(** [local_vals]: [_extract_local_values] (EO 243-253) after [_simple_entropy]; [tuple(0)] of an
    integer pattern raises TypeError *)
Definition local_ordinal (k : kind) (b : base) (xs : list T) (d s : Z) : res (list R) :=
  let* _ := ord_init xs d s in
  let* r := ord_simple k b xs d s in
  match snd r with
  | None => if Nat.eqb (length xs) 0 then Ok [] else Raise TypeError
  | Some (dict, pats) =>
      let* ps := mapM (pget dict) pats in
      let* ls := mapM (log_base b) ps in Ok (map Ropp ls)
  end.

(** [_joint_entropy] (EO 225-241): default argsort whatever [stable] says; only the first series is
    compared with the embedding length in the constructor (EO 100-109), and lengths agree (base.py) *)
Definition joint_entropy_ordinal (k : kind) (b : base) (cols : list (list T)) (d s : Z) : res R :=
  match cols with
  | [] => Raise ValueError
  | xs :: _ =>
      if existsb (fun c => negb (Nat.eqb (length c) (length xs))) cols then Raise ValueError
      else let* _ := ord_init xs d s in
           let* syms := mapM (fun c => symbolize_int (unstable k) c d s) cols in
           let* rows := reduce_joint_space (RTuple (map A1 syms)) in
           let* dd := from_data rows in
           plogp b (map snd (distribution_dict dd))
  end.

(** [_cross_entropy] (EO 255-283) of two series; the constructor checks the first only *)
Definition cross_entropy_ordinal (k : kind) (b : base) (ps qs : list T) (d s : Z) : res R :=
  let* _ := ord_init ps d s in
  let* sp := symbolize_int (unstable k) ps d s in
  let* sq := symbolize_int (unstable k) qs d s in
  let* p := from_data sp in
  let* q := from_data sq in
  discrete_cross b p q.

(** ** Ordinal mutual information *)
(** a pattern array as an integer array (the patterns of a series are the rows of a 2-D array) *)
Definition rows_Z (ps : list (list nat)) : list (list Z) := map (map Z.of_nat) ps.

(** the constructor (MO 64-130) for 1-D series after the parent constructor *)
Definition ord_symbols (k : kind) (xs : list T) (d s : Z) : res (list Z) :=
  let* ps := symbolize k xs d s in reduce_joint_space (RArr (A2 (rows_Z ps))).
Definition ord_mi_checks (xs : list T) (d s : Z) : res unit :=
  if (d <? 0)%Z then Raise ValueError
  else if (s <? 1)%Z then Raise ValueError
  else if (Z.of_nat (length xs) <? (d - 1) * s + 1)%Z then Raise ValueError
  else Ok tt.

(** parent constructor on series (base.py 479-516), as [mi_init] *)
Definition ord_mi_init (offset : Z) (vars : list (list T)) : res (list (list T)) :=
  if Nat.ltb (length vars) 2 then Raise ValueError
  else if Nat.ltb 2 (length vars) && negb (Z.eqb offset 0) then Raise ValueError
  else if negb (forallb (fun a => Nat.eqb (length a) (length (hd [] vars))) vars) then Raise ValueError
  else let x := nth 0 vars [] in let y := nth 1 vars [] in
       if Z.ltb 0 offset then Ok [firstn (length x - Z.to_nat offset) x; skipn (Z.to_nat offset) y]
       else if Z.ltb offset 0 then Ok [skipn (Z.to_nat (- offset)) x; firstn (length y - Z.to_nat (- offset)) y]
       else Ok vars.

(** [mutual_information(x1, ..., xn, approach="ordinal")] (MO 145-193) *)
Definition mi_ordinal (k : kind) (b : base) (offset : Z) (vars : list (list T)) (d s : Z) : res R :=
  let* vs := ord_mi_init offset vars in
  let* _ := ord_mi_checks (hd [] vs) d s in
  let* syms := mapM (fun v => ord_symbols k v d s) vs in
  if (d =? 1)%Z then Ok 0 else mi_global b None (map A1 syms).

(** [conditional_mutual_information(x1, ..., xn, cond=z, approach="ordinal")] (MO 196-252); the
    parent constructor compares the lengths of the first two variables and the condition
    (base.py 647-657) *)
Definition cmi_ordinal (k : kind) (b : base) (vars : list (list T)) (cond : list T) (d s : Z) : res R :=
  match vars with
  | x :: y :: _ =>
      if negb (Nat.eqb (length x) (length y)) || negb (Nat.eqb (length x) (length cond)) then Raise ValueError
      else let* _ := ord_mi_checks x d s in
           let* syms := mapM (fun v => ord_symbols k v d s) vars in
           let* z := ord_symbols k cond d s in
           if (d =? 1)%Z then Ok 0 else cmi_global b None (map A1 syms) (A1 z)
  | _ => Raise IndexError
  end.

(** ** Ordinal transfer entropy after the parent constructor's shift (TO 202-220) *)
Definition te_ordinal (k : kind) (b : base) (src dst : list T) (d : Z) (l kk s : num) (rnd : rand) : res R :=
  match s with
  | NInt sz =>
      if (d <? 0)%Z then Raise ValueError
      else if (sz <? 0)%Z then Raise ValueError
      else if (Z.of_nat (length src) <? (d - 1) * sz + 1)%Z then Raise ValueError
      else let* ss := symbolize_int k src d sz in
           let* ds := symbolize_int k dst d sz in
           let* o := te_observations (A1 ss) (A1 ds) l kk s rnd in
           let '(sh, dh, df) := o in te_form b None sh dh df
  | NFloat => Raise ValueError
  end.
(** conditional (TO 278-295) *)
Definition cte_ordinal (k : kind) (b : base) (src dst cond : list T) (d : Z) (l kk m s : num) : res R :=
  match s with
  | NInt sz =>
      if (d <? 0)%Z then Raise ValueError
      else if (sz <? 0)%Z then Raise ValueError
      else if (Z.of_nat (length src) <? (d - 1) * sz + 1)%Z then Raise ValueError
      else let* ss := symbolize_int k src d sz in
           let* ds := symbolize_int k dst d sz in
           let* cs := symbolize_int k cond d sz in
           let* o := cte_observations (A1 ss) (A1 ds) (A1 cs) l kk m s RNone in
           let '(sh, dh, df, ch) := o in cte_form b None sh dh df ch
  | NFloat => Raise ValueError
  end.
End Ordinal.
Arguments kind : clear implicits.
