(** Model: the measures of the approaches "ansb" and "nsb" with their extra parameter checks. *)
From Coq Require Import Reals List ZArith Arith Bool.
From Verif Require Import Res RSum Spec SpecBase MBase MData MEntropy MMI MTE MGeneric MEst MNsb.
Import ListNotations.
Local Open Scope R_scope.

(** [undersampled] must not be negative for MI / CMI (mutual_information/ansb.py 64-77, 111-123, 159-170) and TE / CTE
    (transfer_entropy/ansb.py 88-117, 157-203); the entropy class does not check it and only uses it for a warning
    (entropy/ansb.py 67-96).  The check follows the constructor of the parent class. *)
Definition ansb_mi (und : R) (b : base) (offset : option Z) (vars : list arr) : res value :=
  let* _ := mi_init offset vars in
  if Rlt_dec und 0 then Raise ValueError else gen_mi (est_ansb None) b offset vars.
Definition ansb_cmi (und : R) (b : base) (vars : list arr) (cond : arr) : res value :=
  let* _ := cmi_init vars (arr_len cond) in
  if Rlt_dec und 0 then Raise ValueError else gen_cmi (est_ansb None) b vars cond.
Definition ansb_te (und : R) (b : base) (source dest : arr) (a : te_args) (rnd : rand) : res value :=
  let* _ := te_init source dest (a_prop a) (a_offset a) (a_step a) in
  if Rlt_dec und 0 then Raise ValueError else gen_te (est_ansb None) b source dest a rnd.
Definition ansb_cte (und : R) (b : base) (source dest cond : arr) (a : te_args) : res value :=
  let* _ := cte_init source dest cond (a_prop a) (a_offset a) in
  if Rlt_dec und 0 then Raise ValueError else gen_cte (est_ansb None) b source dest cond a.

(** K must be None or positive (mutual_information/nsb.py 62-75, 155-166; transfer_entropy/nsb.py 85-114, 153-198) *)
Section NSB.
Context (E : nsb_env).
Definition nsb_cmi (Kg : option Z) (b : base) (vars : list arr) (cond : arr) : res value :=
  let* _ := cmi_init vars (arr_len cond) in
  if nsb_K_ok Kg then gen_cmi (est_nsb E Kg) b vars cond else Raise ValueError.
Definition nsb_te (Kg : option Z) (b : base) (source dest : arr) (a : te_args) (rnd : rand) : res value :=
  let* _ := te_init source dest (a_prop a) (a_offset a) (a_step a) in
  if nsb_K_ok Kg then gen_te (est_nsb E Kg) b source dest a rnd else Raise ValueError.
Definition nsb_cte (Kg : option Z) (b : base) (source dest cond : arr) (a : te_args) : res value :=
  let* _ := cte_init source dest cond (a_prop a) (a_offset a) in
  if nsb_K_ok Kg then gen_cte (est_nsb E Kg) b source dest cond a else Raise ValueError.
End NSB.
