(** Model: estimator objects, their caches and the significance tests
    (infomeasure/estimators/base.py abbreviated BASE, infomeasure/estimators/mixins.py abbreviated MIX). *)
From Coq Require Import Reals List ZArith Arith Bool.
From Verif Require Import Res RSum Spec SpecBase Ord MBase MData MEntropy MMI MTE MGeneric.
Import ListNotations.
Local Open Scope R_scope.

(** a Python float: finite, or inf/nan *)
Inductive fl : Type := Fin (x : R) | NonFin.

(** what [_calculate] may return: a number, a 1-D array, or something [calculate] rejects *)
Inductive pyval : Type := PNum (x : fl) | PArr (ls : list fl) | PBad.

(** finite values of an array, if all are *)
Fixpoint all_fin (ls : list fl) : option (list R) :=
  match ls with
  | [] => Some []
  | Fin x :: r => match all_fin r with Some xs => Some (x :: xs) | None => None end
  | NonFin :: _ => None
  end.

(** [np_mean]: nan for an empty array *)
Definition np_mean (ls : list fl) : fl :=
  match all_fin ls with
  | Some [] => NonFin
  | Some xs => Fin (mean xs)
  | None => NonFin
  end.

(** the outcome of a Python call: an exception or a value *)
Definition out (A : Type) : Type := exn + A.

(** [permute_src]/[resample_src] of a transfer entropy object (BASE 841-842, MIX 328-333) *)
Inductive flag : Type := FOff | FPermute | FResample.

(** A concrete estimator class: the kind of measure (mutual information, also conditional: [false];
    transfer entropy, also conditional: [true]), [_calculate] and [_extract_local_values].  Both see
    [self.data] ([source, dest] for transfer entropies), the flags and the state of [self.rng]
    (an index into an arbitrary stream of draws), and may advance it.  Everything fixed at
    construction (conditions, parameters, precomputed symbols) is part of the functions. *)
Record klass : Type := mkKlass {
  k_te : bool;
  k_calc : list arr -> flag -> nat -> nat * out pyval;
  k_extract : list arr -> flag -> nat -> nat * out (list fl) }.

(** mutable attributes of an estimator object; [o_calls] is a ghost counter of [_calculate] calls *)
Record obj : Type := mkObj {
  o_data : list arr; o_orig : option (list arr); o_flag : flag; o_rng : nat;
  o_glob : option fl; o_loc : option (list fl); o_calls : nat }.

(** a constructed object (BASE 67-71, MIX 69-72) *)
Definition fresh (data : list arr) (rng : nat) : obj := mkObj data None FOff rng None None 0.

Definition set_data (o : obj) d := mkObj d (o_orig o) (o_flag o) (o_rng o) (o_glob o) (o_loc o) (o_calls o).
Definition set_orig (o : obj) d := mkObj (o_data o) d (o_flag o) (o_rng o) (o_glob o) (o_loc o) (o_calls o).
Definition set_flag (o : obj) f := mkObj (o_data o) (o_orig o) f (o_rng o) (o_glob o) (o_loc o) (o_calls o).
Definition set_rng (o : obj) r := mkObj (o_data o) (o_orig o) (o_flag o) r (o_glob o) (o_loc o) (o_calls o).
Definition set_glob (o : obj) g := mkObj (o_data o) (o_orig o) (o_flag o) (o_rng o) (Some g) (o_loc o) (o_calls o).
Definition set_loc (o : obj) l := mkObj (o_data o) (o_orig o) (o_flag o) (o_rng o) (o_glob o) (Some l) (o_calls o).
Definition tick (o : obj) := mkObj (o_data o) (o_orig o) (o_flag o) (o_rng o) (o_glob o) (o_loc o) (S (o_calls o)).

(** Python statements that may raise: the state reached is kept *)
Definition M (A : Type) : Type := obj -> obj * out A.
Definition ret {A} (a : A) : M A := fun o => (o, inr a).
Definition raise {A} (e : exn) : M A := fun o => (o, inl e).
Definition mbind {A B} (m : M A) (f : A -> M B) : M B := fun o =>
  match m o with (o', inl e) => (o', inl e) | (o', inr a) => f a o' end.
Definition upd (f : obj -> obj) : M unit := fun o => (f o, inr tt).
Definition read {A} (f : obj -> A) : M A := fun o => (o, inr (f o)).
Notation "'do' x '<-' m ';' k" := (mbind m (fun x => k)) (at level 200, x pattern, m at level 100, k at level 200).

Section Object.
(** [irq n]: the user interrupts the [n]-th [_calculate] call of this object *)
Variable irq : nat -> bool.
Variable K : klass.

(** one call of [self._calculate()] *)
Definition run_calc : M pyval := fun o =>
  let o := tick o in
  if irq (pred (o_calls o)) then (o, inl KeyboardInterrupt)
  else let '(r, v) := k_calc K (o_data o) (o_flag o) (o_rng o) in (set_rng o r, v).

(** [calculate] (BASE 74-99) *)
Definition calculate : M unit :=
  do v <- run_calc;
  match v with
  | PArr ls => do _ <- upd (fun o => set_glob o (np_mean ls)); upd (fun o => set_loc o ls)
  | PNum x => upd (fun o => set_glob o x)
  | PBad => raise RuntimeError
  end.

(** [global_val] (BASE 115-128) and [result] (BASE 102-112) *)
Definition global_val : M fl :=
  do g <- read o_glob;
  match g with
  | Some x => ret x
  | None => do _ <- calculate; do g <- read o_glob;
            match g with Some x => ret x | None => raise RuntimeError end
  end.
Definition result : M fl := global_val.

(** [local_vals] (BASE 130-169); the comparison of the mean with the global value only logs *)
Definition local_vals : M (list fl) :=
  do _ <- global_val;
  do l <- read o_loc;
  match l with
  | Some ls => ret ls
  | None =>
      do r <- (fun o => let '(r, v) := k_extract K (o_data o) (o_flag o) (o_rng o) in
                        (set_rng o r, inr v));
      match r with
      | inl NotImplementedError => raise UnsupportedOperation
      | inl e => raise e
      | inr ls => do _ <- upd (fun o => set_loc o ls); ret ls
      end
  end.

(** ** Significance tests *)

(** the stream of draws of [self.rng]: row orders produced by [permutation]/[shuffle] and row numbers
    drawn by [choice] for [n] rows *)
Variable perm_draw : nat -> nat -> list nat.
Variable boot_draw : nat -> nat -> list nat.

(** rows of an array in a given order *)
Definition take_rows (js : list nat) (a : arr) : arr :=
  match a with
  | A1 xs => A1 (map (fun j => nth j xs 0%Z) js)
  | A2 rs => A2 (map (fun j => nth j rs []) js)
  end.

Inductive method : Type := MPermute | MBootstrap | MUnknown.

(** [permuted_values] entry: a float as it is, otherwise [np_mean] (MIX 255-258, 338-340) *)
Definition val_of (v : pyval) : fl := match v with PNum x => x | PArr ls => np_mean ls | PBad => NonFin end.

(** [method_resample_src] (MIX 285-292): resample the first variable *)
Definition resample (m : method) (a : arr) : M arr :=
  fun o => (set_rng o (S (o_rng o)),
            inr (take_rows ((if match m with MPermute => true | _ => false end then perm_draw else boot_draw) (o_rng o) (arr_len a)) a)).

(** [_calculate_mi_with_data_selection] (MIX 243-258) *)
Definition mi_surrogate (m : method) : M fl :=
  do d <- read o_orig;
  match d with
  | Some [x; y] =>
      do x' <- resample m x;
      do _ <- upd (fun o => set_data o [x'; y]);
      do v <- run_calc;
      ret (val_of v)
  | _ => raise ValueError
  end.

Fixpoint repeatM {A} (n : nat) (m : M A) : M (list A) :=
  match n with O => ret [] | S n => do x <- m; do xs <- repeatM n m; ret (x :: xs) end.

(** [_test_mi] (MIX 260-304) *)
Definition test_mi (n : nat) (m : method) : M (list fl) :=
  do _ <- upd (fun o => set_orig o (Some (o_data o)));
  match m with
  | MUnknown => raise ValueError
  | _ =>
      do vs <- repeatM n (mi_surrogate m);
      do _ <- upd (fun o => match o_orig o with Some d => set_data o d | None => o end);
      ret vs
  end.

(** [_test_te] (MIX 306-344) *)
Definition test_te (n : nat) (m : method) : M (list fl) :=
  match m with
  | MUnknown => raise ValueError
  | _ =>
      do _ <- upd (fun o => set_flag o (match m with MPermute => FPermute | _ => FResample end));
      do vs <- repeatM n run_calc;
      do _ <- upd (fun o => set_flag o FOff);
      ret (map val_of vs)
  end.

(** [_statistical_test] (MIX 131-176); the defaults of [n_tests] and [method] are looked up in the
    configuration by the caller of this model *)
Definition statistical_test_values (n_tests : num) (m : method) : M (list fl) :=
  match pos_int n_tests with
  | None => raise ValueError
  | Some n =>
      if k_te K then test_te n m
      else do d <- read o_data;
           if Nat.eqb (length d) 2 then test_mi n m else raise UnsupportedOperation
  end.

End Object.

(** ** [_statistical_test_result] (MIX 178-241), for finite values.  [SAMPLE std] is with [ddof=1]. *)
Record test_result : Type := mkTR {
  t_p : R; t_score : option R; t_values : list R; t_observed : R; t_mean : R; t_std : R }.

Definition stat_result (observed : R) (vs : list R) : res test_result :=
  if Nat.ltb (length vs) 2 then Raise ValueError
  else
    let mu := mean vs in
    let sd := sqrt (sumR (map (fun v => (v - mu) * (v - mu)) vs) / (INR (length vs) - 1)) in
    let p := INR (length (filter (fun v => if Rlt_dec observed v then true else false) vs)) / INR (length vs) in
    Ok (mkTR p (if Rlt_dec 0 sd then Some ((observed - mu) / sd) else None) vs observed mu sd).

(** [statistical_test] (MIX 86-129): the observed value is computed after the test values *)
Definition statistical_test irq K pd bd (n_tests : num) (m : method) : M (fl * list fl) :=
  do vs <- statistical_test_values irq K pd bd n_tests m;
  do g <- global_val irq K;
  if Nat.ltb (length vs) 2 then raise ValueError else ret (g, vs).

(** [effective_val] (MIX 505-517): global value and the surrogate subtracted from it; only the transfer entropy classes
    inherit [EffectiveValueMixin] (BASE 748-750, 946-948), for the others the attribute does not exist *)
Definition effective_val irq K pd bd (m : method) : M (fl * fl) :=
  if negb (k_te K) then raise AttributeError
  else
  do vs <- statistical_test_values irq K pd bd (NInt 1) m;
  do g <- global_val irq K;
  match vs with v :: _ => ret (g, v) | [] => raise IndexError end.
(** the number it returns (MIX 517) *)
Definition fl_sub (a b : fl) : fl := match a, b with Fin x, Fin y => Fin (x - y) | _, _ => NonFin end.

(** ** Concrete classes *)

(** a model result as the outcome of [_calculate] *)
Definition of_res (r : res value) : out pyval :=
  match r with
  | Ok (VNum x) => inr (PNum (Fin x))
  | Ok (VArr ls) => inr (PArr (map Fin ls))
  | NonFinite => inr (PNum NonFin)
  | Raise e => inl e
  end.
Definition of_res_list (r : res (list R)) : out (list fl) :=
  match r with Ok ls => inr (map Fin ls) | NonFinite => inr [NonFin] | Raise e => inl e end.

(** MI and CMI classes whose [_calculate] reads [self.data]: discrete (mutual_information/discrete.py
    92-100, 127-137), Miller-Madow (miller_madow.py), and all that call [_generic_mi_from_entropy] /
    [_generic_cmi_from_entropy] (BASE 562, 711) *)
Definition klass_mi (f : list arr -> res value) (loc : list arr -> res (list R)) : klass :=
  mkKlass false (fun d _ r => (r, of_res (f d))) (fun d _ r => (r, of_res_list (loc d))).

(** the ordinal MI and CMI classes: [_calculate] uses [self.symbols], computed in the constructor
    (mutual_information/ordinal.py 119-142, 177-183, 230-240) *)
Definition klass_mi_precomputed (v : res value) (loc : res (list R)) : klass :=
  mkKlass false (fun _ _ r => (r, of_res v)) (fun _ _ r => (r, of_res_list loc)).

(** transfer entropy classes: the flags decide which rows of source history are used
    (te_slicing.py 183-204; each draw of rows advances the generator).  [rows] is the number of
    embedded rows. *)
Definition klass_te (pd bd : nat -> nat -> list nat) (rows : nat)
    (f : list arr -> rand -> res value) (loc : list arr -> rand -> res (list R)) : klass :=
  let rnd fg r := match fg with FOff => RNone | FPermute => RPermute (pd r rows) | FResample => RResample (bd r rows) end in
  let nxt fg r := match fg with FOff => r | _ => S r end in
  mkKlass true (fun d fg r => (nxt fg r, of_res (f d (rnd fg r))))
               (fun d fg r => (nxt fg r, of_res_list (loc d (rnd fg r)))).

(** conditional transfer entropy classes: none passes the flags on (transfer_entropy/discrete.py 192-205,
    miller_madow.py 214-230, ordinal.py 278-295, kernel.py, kraskov_stoegbauer_grassberger.py,
    BASE 1027-1098) *)
Definition klass_cte (f : list arr -> res value) (loc : list arr -> res (list R)) : klass :=
  mkKlass true (fun d _ r => (r, of_res (f d))) (fun d _ r => (r, of_res_list (loc d))).

(** [DiscreteMIEstimator] (mutual_information/discrete.py 79-110) and [DiscreteCMIEstimator] (113-149) *)
Definition klass_mi_discrete (b : base) : klass :=
  klass_mi (fun d => rmap VNum (mi_global b None d)) (fun d => mi_local b None d).
Definition klass_cmi_discrete (b : base) (cond : arr) : klass :=
  klass_mi (fun d => rmap VNum (cmi_global b None d cond)) (fun d => cmi_local b None d cond).

(** [DiscreteTEEstimator] (transfer_entropy/discrete.py 117-170) after the constructor's shift *)
Definition te_eval (b : base) (l k s : num) (d : list arr) (rnd : rand) : res value :=
  match d with
  | [source; dest] => let* o := te_observations source dest l k s rnd in
                      let '(sh, dh, df) := o in rmap VNum (te_form b None sh dh df)
  | _ => Raise ValueError
  end.
Definition te_eval_local (b : base) (l k s : num) (d : list arr) (rnd : rand) : res (list R) :=
  match d with
  | [source; dest] => let* o := te_observations source dest l k s rnd in
                      let '(sh, dh, df) := o in te_form_local b None sh dh df
  | _ => Raise ValueError
  end.
Definition klass_te_discrete (pd bd : nat -> nat -> list nat) (rows : nat) (b : base) (l k s : num) : klass :=
  klass_te pd bd rows (te_eval b l k s) (te_eval_local b l k s).

(** [DiscreteCTEEstimator] (transfer_entropy/discrete.py 173-226), condition reduced *)
Definition klass_cte_discrete (b : base) (l k m s : num) (cond : arr) : klass :=
  klass_cte
    (fun d => match d with
              | [source; dest] => let* o := cte_observations source dest cond l k m s RNone in
                                  let '(sh, dh, df, ch) := o in rmap VNum (cte_form b None sh dh df ch)
              | _ => Raise ValueError
              end)
    (fun d => match d with
              | [source; dest] => let* o := cte_observations source dest cond l k m s RNone in
                                  let '(sh, dh, df, ch) := o in cte_form_local b None sh dh df ch
              | _ => Raise ValueError
              end).
