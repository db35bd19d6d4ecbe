(** Model: the numeric estimators as programs on memory.  The other model files compute with values; here arrays are
    numpy array objects - views into buffers, which may share memory with one another and with the arrays of the
    caller - and the statements that write in place ([+=]) change the buffers they write to.
    Python: infomeasure/estimators/base.py (BASE), mutual_information/kraskov_stoegbauer_grassberger.py (KSG),
    transfer_entropy/kraskov_stoegbauer_grassberger.py (KTE), entropy/kozachenko_leonenko.py (KL), mixins.py (MIX).
    Not modelled here: expressions that only read arrays and give new ones ([column_stack], [KDTree], [query],
    arithmetic, fancy indexing); they are applied to the values read. *)
From Coq Require Import Reals List ZArith Arith Bool.
From Verif Require Import Res RSum Spec SpecBase MBase MTE MPct MNorm MEst MCont MKnn MFam.
Import ListNotations.
Local Open Scope R_scope.

(** memory: the buffers allocated so far; an array is a buffer and the positions of its elements in it, row by row.
    Arbitrary positions: slices, strides, columns of a matrix and repeated elements are all covered. *)
Definition heap : Type := list (list R).
Inductive nd : Type := N1 (b : nat) (ps : list nat) | N2 (b : nat) (rs : list (list nat)).
Definition nd_buf (a : nd) : nat := match a with N1 b _ | N2 b _ => b end.
Definition nd_cells (a : nd) : list nat := match a with N1 _ ps => ps | N2 _ rs => concat rs end.
Definition nd_len (a : nd) : nat := match a with N1 _ ps => length ps | N2 _ rs => length rs end.

(** the value of one element, and of an array *)
Definition cell (h : heap) (b p : nat) : R := nth p (nth b h []) 0.
Definition contents (h : heap) (a : nd) : farr :=
  match a with N1 b ps => F1 (map (cell h b) ps) | N2 b rs => F2 (map (map (cell h b)) rs) end.

(** programs: the memory afterwards (also when an exception propagates) and the result *)
Definition prog (A : Type) : Type := heap -> heap * res A.
Definition lift {A} (r : res A) : prog A := fun h => (h, r).
Definition seqp {A B} (m : prog A) (f : A -> prog B) : prog B :=
  fun h => match m h with
           | (h', Ok a) => f a h'
           | (h', Raise e) => (h', Raise e)
           | (h', NonFinite) => (h', NonFinite)
           end.
Notation "'do' x <- m ; f" := (seqp m (fun x => f)) (at level 200, x pattern, m at level 100, f at level 200, right associativity).
Fixpoint forp {A B} (f : A -> prog B) (l : list A) : prog (list B) :=
  match l with
  | [] => lift (Ok [])
  | x :: l => do y <- f x; do ys <- forp f l; lift (Ok (y :: ys))
  end.

(** reading an array *)
Definition load (a : nd) : prog farr := fun h => (h, Ok (contents h a)).

(** a new array with its own buffer, row-major *)
Fixpoint layout (off : nat) (ns : list nat) : list (list nat) :=
  match ns with [] => [] | n :: ns => seq off n :: layout (off + n) ns end.
Definition alloc (v : farr) : prog nd :=
  fun h => match v with
           | F1 xs => (h ++ [xs], Ok (N1 (length h) (seq 0 (length xs))))
           | F2 rs => (h ++ [concat rs], Ok (N2 (length h) (layout 0 (map (@length R) rs))))
           end.

(** [a.copy()], [a.astype(float)] (numpy copies here even if the type is already float) *)
Definition copy (a : nd) : prog nd := do v <- load a; alloc v.
Definition astype_float (a : nd) : prog nd := do v <- load a; alloc v.

(** views: [a[:n]], [a[k:]] on the first axis; [a[:, newaxis]] for 1-D arrays ([assure_2d_data], utils/array.py 31-34) *)
Definition v_upto (n : Z) (a : nd) : nd := match a with N1 b ps => N1 b (fupto n ps) | N2 b rs => N2 b (fupto n rs) end.
Definition v_upto_or (n : Z) (a : nd) : nd := match a with N1 b ps => N1 b (fupto_or n ps) | N2 b rs => N2 b (fupto_or n rs) end.
Definition v_from (n : Z) (a : nd) : nd := match a with N1 b ps => N1 b (ffrom n ps) | N2 b rs => N2 b (ffrom n rs) end.
Definition v_skip (k : nat) (a : nd) : nd := match a with N1 b ps => N1 b (skipn k ps) | N2 b rs => N2 b (skipn k rs) end.
Definition v_drop_last (k : nat) (a : nd) : nd :=
  match a with N1 b ps => N1 b (firstn (length ps - k) ps) | N2 b rs => N2 b (firstn (length rs - k) rs) end.
Definition v_2d (a : nd) : nd := match a with N1 b ps => N2 b (map (fun p => [p]) ps) | N2 b rs => N2 b rs end.

(** writing: buffer [b], positions [ps], values [vs] *)
Fixpoint put (buf : list R) (ps : list nat) (vs : list R) : list R :=
  match ps, vs with
  | p :: ps, v :: vs => put (MKnn.upd p (fun _ => v) buf) ps vs
  | _, _ => buf
  end.
Definition store (b : nat) (ps : list nat) (vs : list R) : prog unit :=
  fun h => (MKnn.upd b (fun buf => put buf ps vs) h, Ok tt).

(** [x += self.rng.normal(0, lvl, x.shape)] for the elements of buffer [b] at positions [ps]; [pos] values have been drawn
    before.  The right-hand side is evaluated first; numpy rejects a negative level. *)
Definition iadd_noise (lvl : R) (z : nat -> R) (pos b : nat) (ps : list nat) : prog nat :=
  if Rlt_dec lvl 0 then lift (Raise ValueError)
  else fun h =>
    let vs := map (fun ip => cell h b (snd ip) + lvl * z (pos + fst ip)%nat) (combine (seq 0 (length ps)) ps) in
    match store b ps vs h with (h', _) => (h', Ok (pos + length ps)%nat) end.
(** a whole array *)
Definition iadd_all (lvl : R) (z : nat -> R) (pos : nat) (a : nd) : prog nat := iadd_noise lvl z pos (nd_buf a) (nd_cells a).
(** [a[j] += ...]: row [j] of a 2-D array *)
Definition iadd_row (lvl : R) (z : nat -> R) (pos : nat) (a : nd) (j : nat) : prog nat :=
  match a with
  | N2 b rs => match nth_error rs j with Some ps => iadd_noise lvl z pos b ps | None => lift (Raise IndexError) end
  | N1 b ps => match nth_error ps j with Some p => iadd_noise lvl z pos b [p] | None => lift (Raise IndexError) end
  end.
(** a loop that threads the number of values drawn *)
Fixpoint loop {A} (f : nat -> A -> prog nat) (l : list A) (pos : nat) : prog nat :=
  match l with [] => lift (Ok pos) | x :: l => do pos' <- f pos x; loop f l pos' end.

(** arguments: numpy arrays of the caller, or Python lists *)
Inductive pyarg : Type := PArr (a : nd) | PList (v : farr).
(** [asarray]: an array is taken as it is, not copied *)
Definition asarray (x : pyarg) : prog nd := match x with PArr a => lift (Ok a) | PList v => alloc v end.

(** [normalize_data_0_1] gives a new array *)
Definition p_norm (a : nd) : prog nd := do v <- load a; do w <- lift (norm_any v); alloc w.
Definition is_2d (a : nd) : bool := match a with N2 _ _ => true | N1 _ _ => false end.

(** ** Constructors *)

(** [MutualInformationEstimator.__init__] (BASE 479-516) *)
Definition p_mi_init (offset : option Z) (normalize : bool) (args : list pyarg) : prog (list nd) :=
  if Nat.ltb (length args) 2 then lift (Raise ValueError)
  else if Nat.ltb 2 (length args) && negb (match offset with None => true | Some o => Z.eqb o 0 end)
  then lift (Raise ValueError)
  else
  do vars <- forp asarray args;
  if negb (forallb (fun a => Nat.eqb (nd_len a) (nd_len (hd (N1 0 []) vars))) vars) then lift (Raise ValueError)
  else match offset with
       | None => lift (Raise TypeError)
       | Some o =>
           let vs := if Z.ltb 0 o then
                       [v_drop_last (Z.to_nat o) (nth 0 vars (N1 0 [])); v_skip (Z.to_nat o) (nth 1 vars (N1 0 []))]
                     else if Z.ltb o 0 then
                       [v_skip (Z.to_nat (- o)) (nth 0 vars (N1 0 [])); v_drop_last (Z.to_nat (- o)) (nth 1 vars (N1 0 []))]
                     else vars in
           do vs <- (if normalize then
                       if existsb is_2d vs then lift (Raise ValueError) else forp p_norm vs
                     else lift (Ok vs));
           lift (Ok vs)
       end.

(** [ConditionalMutualInformationEstimator.__init__] (BASE 637-667); the lengths are compared before [asarray], which does not
    change them *)
Definition p_cmi_init (offset : option Z) (normalize : bool) (args : list pyarg) (cond : pyarg) : prog (list nd * nd) :=
  do _ <- lift (match offset with None | Some 0%Z => Ok tt | _ => Raise ValueError end);
  match args with
  | _ :: _ :: _ =>
      do vars <- forp asarray args;
      do c <- asarray cond;
      let x := nth 0 vars (N1 0 []) in let y := nth 1 vars (N1 0 []) in
      if negb (Nat.eqb (nd_len x) (nd_len y)) || negb (Nat.eqb (nd_len x) (nd_len c)) then lift (Raise ValueError)
      else if normalize then
        if existsb is_2d [x; y; c] then lift (Raise ValueError)
        else do vs <- forp p_norm vars; do c' <- p_norm c; lift (Ok (vs, c'))
      else lift (Ok (vars, c))
  | _ => lift (Raise IndexError)
  end.

(** [TransferEntropyEstimator.__init__] (BASE 794-844) *)
Definition p_te_init (source dest : pyarg) (prop_time offset : option num) (s : num) : prog (nd * nd) :=
  do p <- lift (if negb (none_or_0 offset)
                then if none_or_0 prop_time then Ok offset else Raise ValueError
                else Ok prop_time);
  do src <- asarray source;
  do dst <- asarray dest;
  if negb (Nat.eqb (nd_len src) (nd_len dst)) then lift (Raise ValueError)
  else match p with
       | Some (NInt p) =>
           if Z.eqb p 0 then lift (Ok (src, dst))
           else match s with
                | NFloat => lift (Raise TypeError)
                | NInt s =>
                    if Z.ltb 0 p then lift (Ok (v_upto_or (- p * s) src, v_from (p * s) dst))
                    else lift (Ok (v_from (- p * s) src, v_upto_or (p * s) dst))
                end
       | _ => lift (Raise ValueError)
       end.

(** [ConditionalTransferEntropyEstimator.__init__] (BASE 979-1018) *)
Definition p_cte_init (source dest cond : pyarg) (prop_time offset : option num) : prog (nd * nd * nd) :=
  do src <- asarray source;
  do dst <- asarray dest;
  do c <- asarray cond;
  if negb (Nat.eqb (nd_len src) (nd_len dst)) || negb (Nat.eqb (nd_len src) (nd_len c)) then lift (Raise ValueError)
  else match prop_time with
       | Some (NInt p) => if negb (Z.eqb p 0) || negb (none_or_0 offset) then lift (Raise ValueError) else lift (Ok (src, dst, c))
       | _ => lift (Raise ValueError)
       end.

(** ** [_calculate] *)

(** [KSGMIEstimator._calculate] (KSG 157-238): copies, then noise row by row, then the estimate of what is in the copies *)
Definition p_ksg_mi_calc (E : nenv) (a : nargs) (self_data : list nd) : prog (list R) :=
  do data <- forp (fun v => do w <- astype_float v; copy w) self_data;
  do _ <- (if Req_EM_T (n_noise a) 0 then lift (Ok 0%nat)
           else loop (fun pos v => loop (fun pos j => iadd_row (n_noise a) (draw E) pos v j) (seq 0 (nd_len v)) pos) data 0);
  do vs <- forp load data;
  do k <- lift (int_k a);
  lift (ksg_mi_form a k (map rows2d vs)).

(** [KSGCMIEstimator._calculate] (KSG 269-351) *)
Definition p_ksg_cmi_calc (E : nenv) (a : nargs) (self_data : list nd) (self_cond : nd) : prog (list R) :=
  do data <- forp (fun v => do w <- astype_float v; copy w) self_data;
  do cond <- (do w <- astype_float self_cond; copy w);
  do _ <- (if Req_EM_T (n_noise a) 0 then lift (Ok 0%nat)
           else loop (fun pos j =>
                        do pos <- loop (fun pos v => iadd_row (n_noise a) (draw E) pos v j) data pos;
                        iadd_all (n_noise a) (draw E) pos cond)
                     (seq 0 (nd_len (hd (N1 0 []) data))) 0);
  do vs <- forp load data;
  do c <- load cond;
  do k <- lift (int_k a);
  lift (ksg_cmi_form a k (map rows2d vs) (rows2d c)).

(** [KSGTEEstimator._calculate] (KTE 175-279): the destination receives its noise first *)
Definition p_ksg_te_calc (E : nenv) (k : nargs) (a : te_args) (rnd : rand) (sd : nd * nd) : prog (list R) :=
  do source <- (do w <- astype_float (fst sd); copy w);
  do dest <- (do w <- astype_float (snd sd); copy w);
  do _ <- (if Req_EM_T (n_noise k) 0 then lift (Ok 0%nat)
           else do pos <- iadd_all (n_noise k) (draw E) 0 dest; iadd_all (n_noise k) (draw E) pos source);
  do vs <- load source;
  do vd <- load dest;
  do sp <- lift (fte_spaces (rows2d vs) (rows2d vd) (a_src a) (a_dest a) (a_step a) rnd);
  let '(j, dp, m1, m2) := sp in
  do kk <- lift (int_k k);
  lift (ksg_te_form k kk j dp m1 m2).

(** [KSGCTEEstimator._calculate] (KTE 322-432) *)
Definition p_ksg_cte_calc (E : nenv) (k : nargs) (a : te_args) (sdc : nd * nd * nd) : prog (list R) :=
  let '(s, d, c) := sdc in
  do source <- (do w <- astype_float s; copy w);
  do dest <- (do w <- astype_float d; copy w);
  do cond <- (do w <- astype_float c; copy w);
  do _ <- (if Req_EM_T (n_noise k) 0 then lift (Ok 0%nat)
           else do pos <- iadd_all (n_noise k) (draw E) 0 dest;
                do pos <- iadd_all (n_noise k) (draw E) pos source; iadd_all (n_noise k) (draw E) pos cond);
  do vs <- load source;
  do vd <- load dest;
  do vc <- load cond;
  do sp <- lift (fcte_spaces (rows2d vs) (rows2d vd) (rows2d vc) (a_src a) (a_dest a) (a_cond a) (a_step a));
  let '(j, dp, m1, m2) := sp in
  do kk <- lift (int_k k);
  lift (ksg_te_form k kk j dp m1 m2).

(** [_generic_mi_from_entropy] (BASE 562-583) with the Renyi or Tsallis entropy *)
Definition p_fam_mi_calc (f : family) (E : nenv) (a : eargs) (noise : R) (self_data : list nd) : prog R :=
  do data <- forp copy self_data;
  do data <- (if Req_EM_T noise 0 then lift (Ok data)
              else do r <- (fix go (l : list nd) (pos : nat) : prog (list nd) :=
                              match l with
                              | [] => lift (Ok [])
                              | v :: l => do w <- astype_float v; do pos' <- iadd_all noise (draw E) pos w;
                                          do ws <- go l pos'; lift (Ok (w :: ws))
                              end) data 0%nat;
                   lift (Ok r));
  do vs <- forp load data;
  lift (MFam.gen_mi (fam_entropy f E a) (map rows2d vs)).

(** [_generic_cmi_from_entropy] (BASE 700-743): arrays that are already of type float (per array: [isf]) are not converted *)
Definition p_fam_cmi_calc (f : family) (E : nenv) (a : eargs) (noise : R) (isf : nd -> bool) (self_data : list nd) (self_cond : nd) : prog R :=
  do data <- forp copy self_data;
  do cond <- copy self_cond;
  do dc <- (if Req_EM_T noise 0 then lift (Ok (data ++ [cond]))
            else (fix go (l : list nd) (pos : nat) : prog (list nd) :=
                    match l with
                    | [] => lift (Ok [])
                    | v :: l => do w <- (if isf v then lift (Ok v) else astype_float v);
                                do pos' <- iadd_all noise (draw E) pos w;
                                do ws <- go l pos'; lift (Ok (w :: ws))
                    end) (data ++ [cond]) 0%nat);
  do vs <- forp load dc;
  lift (let rs := map rows2d vs in MFam.gen_cmi (fam_entropy f E a) (firstn (length data) rs) (last rs [])).

(** [_generic_te_from_entropy] (BASE 892-943) *)
Definition p_fam_te_calc (f : family) (E : nenv) (e : eargs) (noise : R) (a : te_args) (rnd : rand) (sd : nd * nd) : prog R :=
  do source <- copy (fst sd);
  do dest <- copy (snd sd);
  do sd' <- (if Req_EM_T noise 0 then lift (Ok (source, dest))
             else do source <- astype_float source;
                  do dest <- astype_float dest;
                  do pos <- iadd_all noise (draw E) 0 source;
                  do _ <- iadd_all noise (draw E) pos dest;
                  lift (Ok (source, dest)));
  do vs <- load (fst sd');
  do vd <- load (snd sd');
  do sp <- lift (fte_spaces (rows2d vs) (rows2d vd) (a_src a) (a_dest a) (a_step a) rnd);
  let '(j, dp, m1, m2) := sp in
  lift (MFam.gen_te (fam_entropy f E e) j dp m1 m2).

(** [_generic_cte_from_entropy] (BASE 1050-1098) *)
Definition p_fam_cte_calc (f : family) (E : nenv) (e : eargs) (noise : R) (a : te_args) (sdc : nd * nd * nd) : prog R :=
  let '(s, d, c) := sdc in
  do source <- copy s;
  do dest <- copy d;
  do cond <- copy c;
  do sdc' <- (if Req_EM_T noise 0 then lift (Ok (source, dest, cond))
              else do source <- astype_float source;
                   do dest <- astype_float dest;
                   do cond <- astype_float cond;
                   do pos <- iadd_all noise (draw E) 0 source;
                   do pos <- iadd_all noise (draw E) pos dest;
                   do _ <- iadd_all noise (draw E) pos cond;
                   lift (Ok (source, dest, cond)));
  let '(source, dest, cond) := sdc' in
  do vs <- load source;
  do vd <- load dest;
  do vc <- load cond;
  do sp <- lift (fcte_spaces (rows2d vs) (rows2d vd) (rows2d vc) (a_src a) (a_dest a) (a_cond a) (a_step a));
  let '(j, dp, m1, m2) := sp in
  lift (MFam.gen_te (fam_entropy f E e) j dp m1 m2).

(** ** Kozachenko-Leonenko entropy: [_simple_entropy] and [_cross_entropy] (KL 172-268) *)
Definition kl_form (E : nenv) (a : nargs) (k : Z) (data : list pt) : res (list R) :=
  let* q := kth_query (n_p a) data (k + 1) in
  let* cd := unit_ball_volume (gam E) (width data) (1 / 2) (n_p a) in
  let* pk := psi_k (n_id a) k in
  let* pN := digamma (Z.of_nat (length data)) in
  let* lc := np_log cd in
  mapM (fun x => match q x with
                 | None => NonFinite
                 | Some r => if Req_EM_T r 0 then to_base (n_base a) 0
                             else let* l := np_log (2 * r) in
                                  to_base (n_base a) (- pk + pN + lc + INR (width data) * l)
                 end) data.
Definition p_kl_simple (E : nenv) (a : nargs) (k : Z) (self_data0 : nd) : prog (list R) :=
  do data <- (do w <- astype_float self_data0; copy w);
  do _ <- (if Req_EM_T (n_noise a) 0 then lift (Ok 0%nat) else iadd_all (n_noise a) (draw E) 0 data);
  do v <- load data;
  lift (kl_form E a k (rows2d v)).
(** [metric entropy] of one variable, an array or a tuple of arrays: [EntropyEstimator.__init__] (BASE 325-338),
    [__init__] (KL 127-170), [_joint_entropy] (KL 211-223) *)
Inductive pyinput : Type := PyVar (x : pyarg) | PyTuple (xs : list pyarg).
Definition p_kl_entropy_local (E : nenv) (a : nargs) (i : pyinput) : prog (list R) :=
  do k <- lift (kl_check a);
  match i with
  | PyVar x => do v <- asarray x; p_kl_simple E a k (v_2d v)
  | PyTuple xs =>
      do vs <- forp asarray xs;
      if existsb (fun c => negb (Nat.eqb (nd_len c) (nd_len (hd (N1 0 []) vs)))) vs then lift (Raise ValueError)
      else do ws <- forp load (map v_2d vs);
           do joint <- lift (cstack (map rows2d ws));
           do j <- alloc (F2 joint);
           p_kl_simple E a k j
  end.
Definition p_kl_cross (E : nenv) (a : nargs) (p q : pyarg) : prog R :=
  do k <- lift (kl_check a);
  do vp <- asarray p;
  do vq <- asarray q;
  do dp <- (do w <- astype_float (v_2d vp); copy w);
  do dq <- (do w <- astype_float (v_2d vq); copy w);
  do _ <- (if Req_EM_T (n_noise a) 0 then lift (Ok 0%nat)
           else do pos <- iadd_all (n_noise a) (draw E) 0 dp; iadd_all (n_noise a) (draw E) pos dq);
  do xp <- load dp;
  do xq <- load dq;
  lift (let at_ := rows2d xp in let data := rows2d xq in
        if negb (Nat.eqb (width at_) (width data)) then Raise ValueError
        else
        let* qu := kth_query (n_p a) data k in
        let M := length data in
        let d := width data in
        let* cd := unit_ball_volume (gam E) d (1 / 2) (n_p a) in
        let* pk := psi_k (n_id a) k in
        let* pM := digamma (Z.of_nat M) in
        let* lc := np_log cd in
        let* ls := mapM (fun e => match e with None => NonFinite | Some r => np_log (2 * r) end)
                        (filter edist_pos (map qu at_)) in
        let* avg := np_div (INR d * sumR ls) (INR M) in
        to_base (n_base a) (- pk + pM + lc + avg)).

(** ** The calls: constructor and [_calculate]; [BaseKSGMIEstimator.__init__] makes the arrays two-dimensional (KSG 110, 118),
    the Renyi and Tsallis classes leave that to the entropy estimators *)
Definition p_ksg_mi (E : nenv) (a : nargs) (offset : option Z) (normalize : bool) (args : list pyarg) : prog (list R) :=
  do vs <- p_mi_init offset normalize args;
  if negb (id_ok a) then lift (Raise ValueError) else p_ksg_mi_calc E a (map v_2d vs).
Definition p_ksg_cmi (E : nenv) (a : nargs) (offset : option Z) (normalize : bool) (args : list pyarg) (cond : pyarg) : prog (list R) :=
  do vc <- p_cmi_init offset normalize args cond;
  if negb (id_ok a) then lift (Raise ValueError) else p_ksg_cmi_calc E a (map v_2d (fst vc)) (v_2d (snd vc)).
Definition p_ksg_te (E : nenv) (k : nargs) (source dest : pyarg) (a : te_args) (rnd : rand) : prog (list R) :=
  do sd <- p_te_init source dest (a_prop a) (a_offset a) (a_step a);
  if negb (id_ok k) then lift (Raise ValueError) else p_ksg_te_calc E k a rnd sd.
Definition p_ksg_cte (E : nenv) (k : nargs) (source dest cond : pyarg) (a : te_args) : prog (list R) :=
  do sdc <- p_cte_init source dest cond (a_prop a) (a_offset a);
  if negb (id_ok k) then lift (Raise ValueError) else p_ksg_cte_calc E k a sdc.
Definition p_fam_mi (f : family) (E : nenv) (a : eargs) (noise : R) (offset : option Z) (normalize : bool) (args : list pyarg) : prog R :=
  do vs <- p_mi_init offset normalize args;
  do _ <- lift (e_check a);
  p_fam_mi_calc f E a noise vs.
Definition p_fam_cmi (f : family) (E : nenv) (a : eargs) (noise : R) (isf : nd -> bool) (offset : option Z) (normalize : bool)
  (args : list pyarg) (cond : pyarg) : prog R :=
  do vc <- p_cmi_init offset normalize args cond;
  do _ <- lift (e_check a);
  p_fam_cmi_calc f E a noise isf (fst vc) (snd vc).
Definition p_fam_te (f : family) (E : nenv) (e : eargs) (noise : R) (source dest : pyarg) (a : te_args) (rnd : rand) : prog R :=
  do sd <- p_te_init source dest (a_prop a) (a_offset a) (a_step a);
  do _ <- lift (e_check e);
  p_fam_te_calc f E e noise a rnd sd.
Definition p_fam_cte (f : family) (E : nenv) (e : eargs) (noise : R) (source dest cond : pyarg) (a : te_args) : prog R :=
  do sdc <- p_cte_init source dest cond (a_prop a) (a_offset a);
  do _ <- lift (e_check e);
  p_fam_cte_calc f E e noise a sdc.
