(** Model: estimator objects with numeric data (kernel, metric, Renyi, Tsallis) and their significance tests
    (infomeasure/estimators/mixins.py, abbreviated MIX, on top of MObj).

    The tests only select rows of [self.data[0]], so the arrays of an object are represented by row numbers of the arrays
    it was constructed with: [row_ids n] is the original array of [n] rows, [rows_at X a] the numeric rows meant. *)
From Coq Require Import Reals List ZArith Arith Bool.
From Verif Require Import Res RSum Spec SpecBase MBase MTE MGeneric MObj MCont MKern MKnn MFam.
Import ListNotations.
Local Open Scope R_scope.

Definition row_ids (n : nat) : arr := A1 (map Z.of_nat (seq 0 n)).
Definition rows_at (X : list pt) (a : arr) : list pt :=
  match a with A1 js => map (fun j => nth (Z.to_nat j) X []) js | A2 _ => [] end.

(** the generator after [q] values have been taken from it *)
Definition after (E : nenv) (q : nat) : nenv := mkNenv (gam E) (fun i => draw E (q + i)).
(** number of normal values drawn for the noise *)
Definition noise_draws (lvl : R) (vs : list (list pt)) : nat :=
  if Req_EM_T lvl 0 then 0 else fold_right Nat.add 0%nat (map size vs).

(** An MI or CMI class with numeric data: [calc] is [_calculate] as a function of the current rows of the variables and
    the position of the generator; it returns the new position and the result. *)
Definition klass_num_mi (vars : list (list pt)) (calc : list (list pt) -> nat -> nat * res value) : klass :=
  mkKlass false
    (fun d _ q => let '(q', v) := calc (map (fun Xa => rows_at (fst Xa) (snd Xa)) (combine vars d)) q in (q', of_res v))
    (fun _ _ q => (q, inl NotImplementedError)).
(** a constructed object: class and data *)
Definition object : Type := (klass * list arr)%type.
Definition num_object (vars : list (list pt)) (calc : list (list pt) -> nat -> nat * res value) : object :=
  (klass_num_mi vars calc, map (fun X => row_ids (length X)) vars).

(** [KernelMIEstimator], [KernelCMIEstimator] (mutual_information/kernel.py 40-109, 142-254) *)
Definition kernel_mi_object (E : kenv) (a : kargs) offset normalize (vars : list farr) : res object :=
  let* vs := fmi_init offset normalize vars in
  Ok (num_object vs (fun data q => (q, rmap VArr (kernel_mi_form E a data)))).
Definition kernel_cmi_object (E : kenv) (a : kargs) (offset : option Z) normalize (vars : list farr) (cond : farr) : res object :=
  let* _ := match offset with None | Some 0%Z => Ok tt | _ => Raise ValueError end in
  let* vc := fcmi_init normalize vars cond in
  Ok (num_object (fst vc) (fun data q => (q, rmap VArr (kernel_cmi_form E a data (snd vc))))).

(** [KSGMIEstimator], [KSGCMIEstimator] (mutual_information/kraskov_stoegbauer_grassberger.py 50-118, 157-351): the noise is
    drawn anew in every evaluation; the loop of the CMI class draws one value per entry of the variables and, for each
    row, one value per entry of the condition *)
Definition ksg_mi_object (E : nenv) (a : nargs) offset normalize (vars : list farr) : res object :=
  let* vs := fmi_init offset normalize vars in
  if negb (id_ok a) then Raise ValueError
  else Ok (num_object vs (fun data q =>
         ((q + noise_draws (n_noise a) data)%nat,
          let* d := with_noise (n_noise a) (draw (after E q)) data in
          let* k := int_k a in rmap VArr (ksg_mi_form a k d)))).
Definition ksg_cmi_object (E : nenv) (a : nargs) (offset : option Z) normalize (vars : list farr) (cond : farr) : res object :=
  let* _ := match offset with None | Some 0%Z => Ok tt | _ => Raise ValueError end in
  let* vc := fcmi_init normalize vars cond in
  if negb (id_ok a) then Raise ValueError
  else Ok (num_object (fst vc) (fun data q =>
         ((q + noise_draws (n_noise a) (data ++ repeat (snd vc) (length (hd [] data))))%nat,
          let* dc := cmi_with_noise (n_noise a) (draw (after E q)) data (snd vc) in
          let* k := int_k a in rmap VArr (ksg_cmi_form a k (fst dc) (snd dc))))).

(** [RenyiMIEstimator], [TsallisMIEstimator] and the CMI classes (mutual_information/{renyi,tsallis}.py) *)
Definition fam_mi_object (f : family) (E : nenv) (a : eargs) (noise : R) offset normalize (vars : list farr) : res object :=
  let* vs := fmi_init offset normalize vars in
  let* _ := e_check a in
  Ok (num_object vs (fun data q =>
        ((q + noise_draws noise data)%nat,
         let* d := with_noise noise (draw (after E q)) data in rmap VNum (gen_mi (fam_entropy f (after E q) a) d)))).
Definition fam_cmi_object (f : family) (E : nenv) (a : eargs) (noise : R) (offset : option Z) normalize (vars : list farr) (cond : farr) : res object :=
  let* _ := match offset with None | Some 0%Z => Ok tt | _ => Raise ValueError end in
  let* vc := fcmi_init normalize vars cond in
  let* _ := e_check a in
  Ok (num_object (fst vc) (fun data q =>
        ((q + noise_draws noise (data ++ [snd vc]))%nat,
         let* d := with_noise noise (draw (after E q)) (data ++ [snd vc]) in
         rmap VNum (gen_cmi (fam_entropy f (after E q) a) (firstn (length data) d) (last d []))))).

(** A transfer entropy class with numeric data (MIX 306-344): the noise is drawn first, then the rows of the source
    history ([rows] of them) if a flag is set.  [calc q rnd]: [_calculate] with the generator at [q]. *)
Definition klass_num_te (pd bd : nat -> nat -> list nat) (rows noise : nat) (calc : nat -> rand -> res value) : klass :=
  mkKlass true
    (fun _ fg q =>
       let q1 := (q + noise)%nat in
       match fg with
       | FOff => (q1, of_res (calc q RNone))
       | FPermute => (S q1, of_res (calc q (RPermute (pd q1 rows))))
       | FResample => (S q1, of_res (calc q (RResample (bd q1 rows))))
       end)
    (fun _ _ q => (q, inl NotImplementedError)).

(** number of values in the two series after the constructor's shift *)
Definition te_noise (lvl : R) (source dest : farr) (a : te_args) : nat :=
  match fte_init (rows2d source) (rows2d dest) (a_prop a) (a_offset a) (a_step a) with
  | Ok sd => noise_draws lvl [fst sd; snd sd]
  | _ => 0
  end.
(** number of embedded rows, i.e. of source histories (TES 183-204) *)
Definition source_rows (source dest : farr) (a : te_args) : nat :=
  match fte_init (rows2d source) (rows2d dest) (a_prop a) (a_offset a) (a_step a), pos_int (a_src a), pos_int (a_dest a), pos_int (a_step a) with
  | Ok sd, Some l, Some k, Some s => length (arange (Nat.max k l * s) (length (snd sd)) s)
  | _, _, _, _ => 0%nat
  end.
(** [KernelTEEstimator], [KSGTEEstimator], [RenyiTEEstimator], [TsallisTEEstimator] (transfer_entropy) *)
Definition kernel_te_klass pd bd (E : kenv) (k : kargs) (source dest : farr) (a : te_args) : klass :=
  klass_num_te pd bd (source_rows source dest a) 0 (fun _ rnd => rmap VArr (kernel_te_local E k source dest a rnd)).
Definition ksg_te_klass pd bd (E : nenv) (k : nargs) (source dest : farr) (a : te_args) : klass :=
  klass_num_te pd bd (source_rows source dest a) (te_noise (n_noise k) source dest a) (fun q rnd => rmap VArr (ksg_te_local (after E q) k source dest a rnd)).
Definition fam_te_klass pd bd (f : family) (E : nenv) (e : eargs) (noise : R) (source dest : farr) (a : te_args) : klass :=
  klass_num_te pd bd (source_rows source dest a) (te_noise noise source dest a) (fun q rnd => rmap VNum (fam_te f (after E q) e noise source dest a rnd)).

(** the conditional classes ignore the flags (transfer_entropy/kernel.py 274-285,
    kraskov_stoegbauer_grassberger.py 330-353, BASE 1064-1077) *)
Definition klass_num_cte (noise : nat) (calc : nat -> res value) : klass :=
  mkKlass true (fun _ _ q => ((q + noise)%nat, of_res (calc q))) (fun _ _ q => (q, inl NotImplementedError)).
Definition kernel_cte_klass (E : kenv) (k : kargs) (source dest cond : farr) (a : te_args) : klass :=
  klass_num_cte 0 (fun _ => rmap VArr (kernel_cte_local E k source dest cond a)).
Definition ksg_cte_klass (E : nenv) (k : nargs) (source dest cond : farr) (a : te_args) : klass :=
  klass_num_cte (noise_draws (n_noise k) [rows2d dest; rows2d source; rows2d cond]) (fun q => rmap VArr (ksg_cte_local (after E q) k source dest cond a)).
Definition fam_cte_klass (f : family) (E : nenv) (e : eargs) (noise : R) (source dest cond : farr) (a : te_args) : klass :=
  klass_num_cte (noise_draws noise [rows2d source; rows2d dest; rows2d cond]) (fun q => rmap VNum (fam_cte f (after E q) e noise source dest cond a)).
