(** Model: Renyi and Tsallis mutual information and transfer entropy, and the combination of entropies of numeric
    variables they are computed with (infomeasure/estimators/base.py, abbreviated BASE;
    mutual_information/{renyi,tsallis}.py abbreviated MR, transfer_entropy/{renyi,tsallis}.py abbreviated TR;
    line numbers of the Renyi files).  Floats are exact reals. *)
From Coq Require Import Reals List ZArith Arith Bool.
From Verif Require Import Res RSum Spec SpecBase MBase MTE MCont MKnn.
Import ListNotations.
Local Open Scope R_scope.

(** the entropy estimators named in [_calculate] *)
Inductive family : Type := Renyi | Tsallis.
Definition fam_entropy (f : family) : nenv -> eargs -> finput -> res R :=
  match f with Renyi => renyi_entropy | Tsallis => tsallis_entropy end.

(** [estimator(...)]: the constructor looks at the lengths of the parts of a joint variable (BASE 325-338) *)
Definition construct (i : finput) : res unit := let* _ := make_rows i in Ok tt.

(** [_generic_mi_from_entropy] (BASE 570-583) with an entropy estimator [H] that has no local values ([local_vals]
    raises UnsupportedOperation, so that global values are combined) *)
Definition gen_mi (H : finput -> res R) (data : list (list pt)) : res R :=
  let* _ := mapM construct (map (fun v => FArr (F2 v)) data ++ [FTuple (map F2 data)]) in
  let* hs := mapM (fun v => H (FArr (F2 v))) data in
  let* hj := H (FTuple (map F2 data)) in
  Ok (sumR hs - hj).
(** [_generic_cmi_from_entropy] (BASE 726-743) *)
Definition gen_cmi (H : finput -> res R) (data : list (list pt)) (cond : list pt) : res R :=
  let* _ := mapM construct (map (fun v => FTuple [F2 v; F2 cond]) data ++ [FTuple (map F2 (data ++ [cond])); FArr (F2 cond)]) in
  let* hs := mapM (fun v => H (FTuple [F2 v; F2 cond])) data in
  let* hj := H (FTuple (map F2 (data ++ [cond]))) in
  let* hz := H (FArr (F2 cond)) in
  Ok (sumR hs - hj - hz).
(** [_generic_te_from_entropy] (BASE 924-943) and [_generic_cte_from_entropy] (BASE 1079-1098) after the embedding: joint
    space, destination past, marginal 1 and marginal 2 *)
Definition gen_te (H : finput -> res R) (joint dpast m1 m2 : list pt) : res R :=
  let* h2 := H (FArr (F2 m2)) in
  let* h1 := H (FArr (F2 m1)) in
  let* hj := H (FArr (F2 joint)) in
  let* hd := H (FArr (F2 dpast)) in
  Ok (h2 + h1 - hj - hd).

(** [RenyiMIEstimator] (MR 44-160): parent constructor, parameter checks, noise on the variables in their order
    (BASE 562-568) *)
Definition fam_mi (f : family) (E : nenv) (a : eargs) (noise : R) (offset : option Z) (normalize : bool) (vars : list farr) : res R :=
  let* vs := fmi_init offset normalize vars in
  let* _ := e_check a in
  let* data := with_noise noise (draw E) vs in
  gen_mi (fam_entropy f E a) data.
(** [RenyiCMIEstimator] (MR 163-210): noise on the variables and then on the condition (BASE 701-714) *)
Definition fam_cmi (f : family) (E : nenv) (a : eargs) (noise : R) (offset : option Z) (normalize : bool) (vars : list farr) (cond : farr) : res R :=
  let* _ := match offset with None | Some 0%Z => Ok tt | _ => Raise ValueError end in
  let* vc := fcmi_init normalize vars cond in
  let* _ := e_check a in
  let* data := with_noise noise (draw E) (fst vc ++ [snd vc]) in
  gen_cmi (fam_entropy f E a) (firstn (length (fst vc)) data) (last data []).
(** [RenyiTEEstimator] (TR 59-196): noise on the source and then on the destination (BASE 892-907) *)
Definition fam_te (f : family) (E : nenv) (e : eargs) (noise : R) (source dest : farr) (a : te_args) (rnd : rand) : res R :=
  let* sd := fte_init (rows2d source) (rows2d dest) (a_prop a) (a_offset a) (a_step a) in
  let* _ := e_check e in
  let* ds := with_noise noise (draw E) [fst sd; snd sd] in
  let* sp := fte_spaces (nth 0 ds []) (nth 1 ds []) (a_src a) (a_dest a) (a_step a) rnd in
  let '(j, dp, m1, m2) := sp in
  gen_te (fam_entropy f E e) j dp m1 m2.
(** [RenyiCTEEstimator] (TR 199-247; noise BASE 1050-1062) *)
Definition fam_cte (f : family) (E : nenv) (e : eargs) (noise : R) (source dest cond : farr) (a : te_args) : res R :=
  let* _ := fcte_init (rows2d source) (rows2d dest) (rows2d cond) (a_prop a) (a_offset a) in
  let* _ := e_check e in
  let* ds := with_noise noise (draw E) [rows2d source; rows2d dest; rows2d cond] in
  let* sp := fcte_spaces (nth 0 ds []) (nth 1 ds []) (nth 2 ds []) (a_src a) (a_dest a) (a_cond a) (a_step a) in
  let '(j, dp, m1, m2) := sp in
  gen_te (fam_entropy f E e) j dp m1 m2.
