(** Model: the bias-corrected discrete entropy estimators
    (infomeasure/estimators/entropy/{shrink,bayes,zhang,chao_shen,chao_wang_jost,ansb,bonachela,grassberger}.py),
    as estimator objects (MGeneric).  Floats are modelled by reals; integer array arithmetic is exact. *)
From Coq Require Import Reals List ZArith Arith Bool String Ascii.
From Verif Require Import Res RSum Spec SpecBase SpecGamma Ord MBase MData MEntropy MMI MTE MGeneric.
Import ListNotations.
Local Open Scope R_scope.

(** [scipy.special.digamma] at an integer: the model takes psi(n) = H_(n-1) - gamma for n >= 1 (trusted
    semantics of the library function); [-inf]/[nan] at the poles 0, -1, -2, ... *)
Definition digamma (n : Z) : res R := if (n <=? 0)%Z then NonFinite else Ok (psi (Z.to_nat n)).

(** ** Shrinkage (entropy/shrink.py) *)

(** [_calculate_lambda_shrink] (shrink.py 54-87) *)
Definition shrink_lambda (N : Z) (u : list R) (t : R) : res R :=
  let* varu := mapM (fun x => np_div (x * (1 - x)) (IZR N - 1)) u in
  let msp := sumR (map (fun x => (x - t) * (x - t)) u) in
  if Req_EM_T msp 0 then Ok 1
  else let* l := np_div (sumR varu) msp in
       if Rlt_dec 1 l then Ok 1 else if Rlt_dec l 0 then Ok 0 else Ok l.

(** [_shrink_probs] (shrink.py 113-128) *)
Definition shrink_probs (d : ddata) : res (list R) :=
  let* t := np_div 1 (INR (dd_K d)) in
  let* l := if (dd_N d =? 0)%Z || (dd_N d =? 1)%Z then Ok 1 else shrink_lambda (dd_N d) (probabilities d) t in
  Ok (map (fun p => l * t + (1 - l) * p) (probabilities d)).

(** [_simple_entropy] (shrink.py 39-52) *)
Definition shrink_simple (b : base) (d : ddata) : res R := let* p := shrink_probs d in plogp b p.

(** [_extract_local_values] (shrink.py 89-104, dist_dict 106-111) *)
Definition shrink_local (b : base) (d : ddata) : res (list R) :=
  let* p := shrink_probs d in
  let* q := lookup_data (combine (dd_uniq d) p) d in
  let* ls := mapM (log_base b) q in Ok (map Ropp ls).

Definition est_shrink : est := mkEst (fun b d => rmap VNum (shrink_simple b d)) shrink_local.

(** ** Bayes (entropy/bayes.py) *)

(** the [alpha] argument: a number, a string, or something else *)
Inductive alpha_arg : Type := AlphaNum (a : R) | AlphaStr (s : string) | AlphaOther.

(** [str.lower()] on ASCII characters.  (No non-ASCII character lower-cases into one of the names
    compared with below, so this is exact for these comparisons.) *)
Definition lower_char (c : ascii) : ascii :=
  let n := nat_of_ascii c in if (65 <=? n)%nat && (n <=? 90)%nat then ascii_of_nat (n + 32) else c.
Fixpoint lower (s : string) : string :=
  match s with EmptyString => EmptyString | String c r => String (lower_char c) (lower r) end.

(** [_get_alpha] (bayes.py 120-147).  [1 / K] and [N**0.5 / K] are Python number divisions:
    ZeroDivisionError for [K = 0]. *)
Definition get_alpha (a : alpha_arg) (K N : Z) : res R :=
  match a with
  | AlphaNum x => Ok x
  | AlphaOther => Raise ValueError
  | AlphaStr s =>
      if negb (existsb (String.eqb (lower s)) ["jeffrey"; "laplace"; "sch-grass"; "min-max"]%string) then Raise ValueError
      else if String.eqb (lower s) "jeffrey" then Ok (1 / 2)
      else if String.eqb (lower s) "laplace" then Ok 1
      else if String.eqb (lower s) "sch-grass" then
        if (K =? 0)%Z then Raise ZeroDivisionError else Ok (1 / IZR K)
      else if String.eqb s "min-max" then
        if (K =? 0)%Z then Raise ZeroDivisionError else Ok (sqrt (IZR N) / IZR K)
      else Raise ValueError
  end.

(** [K = self.K_param if self.K_param is not None else self.data[0].K] (bayes.py 107) *)
Definition bayes_K (Kp : option Z) (d : ddata) : Z :=
  match Kp with Some k => k | None => Z.of_nat (dd_K d) end.

(** [bayes_probs] (bayes.py 105-113).  The property stores the resolved number back into
    [self.alpha] (line 109); reading it again gives the same number. *)
Definition bayes_probs (a : alpha_arg) (Kp : option Z) (d : ddata) : res (list R) :=
  let K := bayes_K Kp d in
  let* al := get_alpha a K (dd_N d) in
  mapM (fun c => np_div (IZR c + al) (IZR (dd_N d) + IZR K * al)) (dd_counts d).

(** [_simple_entropy] (bayes.py 92-103) *)
Definition bayes_simple (a : alpha_arg) (Kp : option Z) (b : base) (d : ddata) : res R :=
  let* p := bayes_probs a Kp d in plogp b p.

(** local values are not implemented (base.py 182-197) *)
Definition no_local (b : base) (d : ddata) : res (list R) := Raise NotImplementedError.

Definition est_bayes (a : alpha_arg) (Kp : option Z) : est :=
  mkEst (fun b d => rmap VNum (bayes_simple a Kp b d)) no_local.

(** [_cross_entropy] (bayes.py 149-187) *)
Definition bayes_cross (a : alpha_arg) (Kp : option Z) (b : base) (p q : ddata) : res R :=
  let Kp' := bayes_K Kp p in let Kq' := bayes_K Kp q in
  let* ap := get_alpha a Kp' (dd_N p) in
  let* aq := get_alpha a Kq' (dd_N q) in
  let* dp := mapM (fun c => np_div (IZR c + ap) (IZR (dd_N p) + IZR Kp' * ap)) (dd_counts p) in
  let* dq := mapM (fun c => np_div (IZR c + aq) (IZR (dd_N q) + IZR Kq' * aq)) (dd_counts q) in
  match common (dd_uniq p) (dd_uniq q) with
  | [] => Ok 0
  | _ => cross_sum b (dd_uniq p) (dd_uniq q) (combine (dd_uniq p) dp) (combine (dd_uniq q) dq)
  end.

(** ** Zhang (entropy/zhang.py) *)

(** one entry of the masked factor matrix (zhang.py 31-37): column [k], count [c] *)
Definition zhang_factor (N c k : Z) : res R :=
  if (k <=? N - c)%Z then rmap (fun x => 1 - x) (np_div (IZR c - 1) (IZR (N - k))) else Ok 1.

(** [cumprod] (zhang.py 40) *)
Fixpoint cumprod (acc : R) (l : list R) : list R :=
  match l with [] => [] | x :: r => acc * x :: cumprod (acc * x) r end.

(** [arange(1, m + 1)] *)
Definition arange1 (m : Z) : list Z := map Z.of_nat (seq 1 (Z.to_nat m)).

(** row of [t2_values] for one count (zhang.py 8-48) *)
Definition zhang_t2 (N max_k c : Z) : res R :=
  let ks := arange1 max_k in
  let* fs := mapM (zhang_factor N c) ks in
  let t1 := cumprod 1 fs in
  let masked := map (fun kt => if (fst kt <=? N - c)%Z then snd kt else 0) (combine ks t1) in
  Ok (sumR (map (fun km => snd km * (1 / IZR (fst km))) (combine ks masked))).

(** smallest element of a non-empty list *)
Definition minZ (l : list Z) : Z := match l with [] => 0%Z | x :: r => fold_left Z.min r x end.

Definition zhang_valid (N c : Z) : bool := (0 <? c)%Z && (c <? N)%Z.

(** [_simple_entropy] (zhang.py 74-114) *)
Definition zhang_simple (b : base) (d : ddata) : res R :=
  let N := dd_N d in
  let vc := filter (zhang_valid N) (dd_counts d) in
  match vc with
  | [] => Ok 0
  | _ =>
      let max_k := (N - minZ vc)%Z in
      if (max_k <=? 0)%Z then Ok 0
      else let* t2 := mapM (zhang_t2 N max_k) vc in
           let ent := sumR (map (fun tc => fst tc * (IZR (snd tc) / IZR N)) (combine t2 vc)) in
           to_base b ent
  end.

(** [_extract_local_values] (zhang.py 116-167) *)
Definition zhang_local (b : base) (d : ddata) : res (list R) :=
  let N := dd_N d in
  let uc := combine (dd_uniq d) (dd_counts d) in
  let invalid := map (fun p => (fst p, 0)) (filter (fun p => (snd p =? 0)%Z || (N <=? snd p)%Z) uc) in
  let vuc := filter (fun p => zhang_valid N (snd p)) uc in
  let vc := map snd vuc in
  let* contrib :=
    match vc with
    | [] => Ok invalid
    | _ =>
        let max_k := (N - minZ vc)%Z in
        if (max_k <=? 0)%Z then Ok (invalid ++ map (fun p => (fst p, 0)) vuc)
        else let* t2 := mapM (zhang_t2 N max_k) vc in Ok (invalid ++ combine (map fst vuc) t2)
    end in
  let* vals := lookup_data contrib d in
  mapM (to_base b) vals.

Definition est_zhang : est := mkEst (fun b d => rmap VNum (zhang_simple b d)) zhang_local.

(** ** Chao-Shen (entropy/chao_shen.py) *)

(** [np_sum(counts == v)] *)
Definition count_of (v : Z) (cs : list Z) : Z := Z.of_nat (List.length (filter (Z.eqb v) cs)).

(** [_simple_entropy] (chao_shen.py 36-63); there are no local values *)
Definition chao_shen_simple (b : base) (d : ddata) : res R :=
  let N := dd_N d in
  let f1 := count_of 1 (dd_counts d) in
  let f1 := if (f1 =? N)%Z then (f1 - 1)%Z else f1 in
  let* r := np_div (IZR f1) (IZR N) in
  let C := 1 - r in
  let pa := map (fun p => C * p) (probabilities d) in
  let* terms := mapM (fun p => let* lp := np_log p in np_div (p * lp) (1 - (1 - p) ^ Z.to_nat N)) pa in
  to_base b (- sumR terms).

Definition est_chao_shen : est := mkEst (fun b d => rmap VNum (chao_shen_simple b d)) no_local.

(** ** Chao-Wang-Jost (entropy/chao_wang_jost.py) *)

(** the parameter A (chao_wang_jost.py 107-124) *)
Definition cwj_A (N f1 f2 : Z) : res R :=
  if (0 <? f2)%Z then np_div (2 * IZR f2) ((IZR N - 1) * IZR f1 + 2 * IZR f2)
  else if (0 <? f1)%Z then np_div 2 ((IZR N - 1) * (IZR f1 - 1) + 2)
  else Ok 1.

(** [_simple_entropy] (chao_wang_jost.py 96-142) *)
Definition cwj_simple (b : base) (d : ddata) : res R :=
  let N := dd_N d in
  let f1 := count_of 1 (dd_counts d) in
  let f2 := count_of 2 (dd_counts d) in
  let* A := cwj_A N f1 f2 in
  let* psiN := digamma N in
  let* terms := mapM (fun c => let* pc := digamma c in Ok (IZR c * (psiN - pc)))
                     (filter (fun c => (1 <=? c)%Z) (dd_counts d)) in
  let* first := np_div (sumR terms) (IZR N) in
  let* corr :=
    if Req_EM_T A 1 then Ok 0
    else if (0 <? f1)%Z then
      let p2 := sumR (map (fun r => 1 / INR r * (1 - A) ^ r) (seq 1 (Z.to_nat N - 1))) in
      let* lA := np_log A in
      Ok (IZR f1 / IZR N * powerRZ (1 - A) (1 - N) * (- lA - p2))
    else Ok 0 in
  to_base b (first + corr).

(** local values raise TheoreticalInconsistencyError (chao_wang_jost.py 144-159, ansb.py 114-126,
    bonachela.py 78-89) *)
Definition inconsistent_local (b : base) (d : ddata) : res (list R) := Raise TheoreticalInconsistencyError.

Definition est_cwj : est := mkEst (fun b d => rmap VNum (cwj_simple b d)) inconsistent_local.

(** ** ANSB (entropy/ansb.py 79-112); the warnings are not modelled.  [K] is the optional argument. *)
Definition ansb_simple (K : option Z) (b : base) (d : ddata) : res R :=
  let N := dd_N d in
  let K := match K with Some k => k | None => Z.of_nat (dd_K d) end in
  let coincidences := (N - K)%Z in
  if (coincidences =? 0)%Z then NonFinite
  else let* lN := np_log (IZR N) in
       let* dg := digamma coincidences in
       to_base b ((euler_gamma - ln 2) + 2 * lN - dg).

Definition est_ansb (K : option Z) : est := mkEst (fun b d => rmap VNum (ansb_simple K b d)) inconsistent_local.

(** ** Bonachela (entropy/bonachela.py 33-76) *)
Definition bonachela_simple (b : base) (d : ddata) : res R :=
  let N := dd_N d in
  let js := map Z.of_nat (seq 2 (Z.to_nat (N + 1))) in
  let inner (ni : Z) := sumR (map (fun j => (if (ni <? j)%Z then 1 else 0) * (1 / IZR j)) js) in
  let acc := sumR (map (fun c => IZR (c + 1) * inner (c + 1)%Z) (dd_counts d)) in
  let* ent := np_div acc (IZR N + 2) in
  to_base b ent.

Definition est_bonachela : est := mkEst (fun b d => rmap VNum (bonachela_simple b d)) inconsistent_local.

(** ** Grassberger (entropy/grassberger.py 29-49): returns an array of local values *)
Definition grassberger_calc (b : base) (d : ddata) : res value :=
  let* ns := lookup_data (combine (dd_uniq d) (dd_counts d)) d in
  let* lN := np_log (IZR (dd_N d)) in
  let* ls := mapM (fun n => let* dg := digamma n in
                            Ok (lN - dg - (-1) ^ Z.to_nat n / IZR (n + 1))) ns in
  rmap VArr (mapM (to_base b) ls).

Definition est_grassberger : est := mkEst grassberger_calc no_local.

(** ** Cross-entropy availability: [_cross_entropy] of shrink (130-145), zhang (169-183), chao_shen (65-82),
    chao_wang_jost (161-178), ansb (128-141), bonachela (91-103) and grassberger (51-66) always raises. *)
Definition no_cross (b : base) (p q : ddata) : res R := Raise TheoreticalInconsistencyError.

(** the public call [entropy(x, approach=...)] for one (joint) variable *)
Definition entropy_shrink := entropy_of est_shrink.
Definition entropy_bayes (a : alpha_arg) (K : option Z) := entropy_of (est_bayes a K).
Definition entropy_zhang := entropy_of est_zhang.
Definition entropy_chao_shen := entropy_of est_chao_shen.
Definition entropy_cwj := entropy_of est_cwj.
Definition entropy_ansb (K : option Z) := entropy_of (est_ansb K).
Definition entropy_bonachela := entropy_of est_bonachela.
Definition entropy_grassberger := entropy_of est_grassberger.
