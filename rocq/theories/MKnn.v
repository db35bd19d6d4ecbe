(** Model: nearest-neighbour estimators (Kozachenko-Leonenko, Kraskov-Stoegbauer-Grassberger, Renyi, Tsallis).
    Floats are exact reals. *)
From Coq Require Import Reals List ZArith Arith Bool.
From Verif Require Import Res RSum Spec SpecBase SpecGamma MBase MTE MPct MNorm MEst MCont.
Import ListNotations.
Local Open Scope R_scope.

(** what the estimators take from outside this model: [gam] is [scipy.special.gamma] and [draw i] the i-th value the
    random generator of the estimator delivers for a standard normal distribution *)
Record nenv : Type := mkNenv { gam : R -> R; draw : nat -> R }.

(** [unit_ball_volume(d, r, p)] (infomeasure/estimators/utils/unit_ball_volume.py 34-46) *)
Definition unit_ball_volume (G : R -> R) (d : nat) (r : R) (p : mink) : res R :=
  match p with
  | MInf => Ok ((2 * r) ^ d)
  | MP p =>
      if Req_EM_T p 2 then
        match d with
        | 1%nat => Ok (2 * r)
        | 2%nat => Ok (PI * r ^ 2)
        | 3%nat => Ok (4 / 3 * PI * r ^ 3)
        | _ => np_div (Rpower PI (INR d / 2) * r ^ d) (G (1 + INR d / 2))
        end
      else np_div ((2 * r) ^ d * G (1 + 1 / p) ^ d) (G (1 + INR d / p))
  end.

(** [self.rng.normal(0, level, shape)] added to an array: one draw per entry, row by row; [pos] is the number of
    values drawn before.  numpy rejects a negative level. *)
Fixpoint noise_row (lvl : R) (z : nat -> R) (pos : nat) (p : pt) : pt :=
  match p with [] => [] | x :: p => (x + lvl * z pos) :: noise_row lvl z (S pos) p end.
Fixpoint noise_rows (lvl : R) (z : nat -> R) (pos : nat) (v : list pt) : list pt :=
  match v with [] => [] | p :: v => noise_row lvl z pos p :: noise_rows lvl z (pos + length p) v end.
Definition size (v : list pt) : nat := fold_right Nat.add 0%nat (map (@length R) v).
Fixpoint noise_vars (lvl : R) (z : nat -> R) (pos : nat) (vs : list (list pt)) : list (list pt) :=
  match vs with [] => [] | v :: vs => noise_rows lvl z pos v :: noise_vars lvl z (pos + size v) vs end.
Definition with_noise (lvl : R) (z : nat -> R) (vs : list (list pt)) : res (list (list pt)) :=
  if Req_EM_T lvl 0 then Ok vs else if Rlt_dec lvl 0 then Raise ValueError else Ok (noise_vars lvl z 0 vs).

(** keyword arguments: [n_k] the number of neighbours (the metric estimators of MI and TE are modelled for integers
    only), [n_id] the variant, [n_noise] the noise level, [n_p] the Minkowski parameter *)
Record nargs : Type := mkNargs { n_k : num; n_id : Z; n_noise : R; n_p : mink; n_base : base }.

(** [KDTree.query] accepts 1 <= p <= inf only *)
Definition mink_ok (m : mink) : bool := match m with MInf => true | MP p => if Rle_dec 1 p then true else false end.
Definition id_ok (a : nargs) : bool := Z.eqb (n_id a) 1 || Z.eqb (n_id a) 2.

(** [tree.query(x, K)[0][:, -1]] for an integer K: ValueError for K < 1, and for K = 1 the result has one dimension
    only, so that the indexing is an IndexError *)
Definition kth_query (m : mink) (tree : list pt) (K : Z) : res (pt -> edist) :=
  if negb (mink_ok m) then Raise ValueError
  else if Z.ltb K 1 then Raise ValueError
  else if Z.eqb K 1 then Raise IndexError
  else Ok (query m tree (Z.to_nat K)).

(** ** Kozachenko-Leonenko entropy (infomeasure/estimators/entropy/kozachenko_leonenko.py) *)

(** [__init__] (127-170) *)
Definition kl_check (a : nargs) : res Z :=
  match n_k a with
  | NInt k => if Z.leb k 0 then Raise ValueError
              else if Rlt_dec (n_noise a) 0 then Raise ValueError
              else if negb (mink_ok (n_p a)) then Raise ValueError
              else if negb (id_ok a) then Raise ValueError
              else Ok k
  | NFloat => Raise ValueError
  end.
(** psi(k), less 1/k for variant 2 (202-204, 257-259) *)
Definition psi_k (id k : Z) : res R :=
  let* v := digamma k in Ok (if Z.eqb id 2 then v - 1 / IZR k else v).

(** [_simple_entropy] and [_joint_entropy] (172-223): zero distances become nan and their local value 0 *)
Definition kl_entropy_local (E : nenv) (a : nargs) (i : finput) : res (list R) :=
  let* k := kl_check a in
  let* rows := make_rows i in
  let* vs := with_noise (n_noise a) (draw E) [rows] in
  let data := hd [] vs in
  let* q := kth_query (n_p a) data (k + 1) in
  let* cd := unit_ball_volume (gam E) (width rows) (1 / 2) (n_p a) in
  let* pk := psi_k (n_id a) k in
  let* pN := digamma (Z.of_nat (length rows)) in
  let* lc := np_log cd in
  mapM (fun x => match q x with
                 | None => NonFinite
                 | Some r => if Req_EM_T r 0 then to_base (n_base a) 0
                             else let* l := np_log (2 * r) in
                                  to_base (n_base a) (- pk + pN + lc + INR (width rows) * l)
                 end) data.
Definition kl_entropy (E : nenv) (a : nargs) (i : finput) : res R :=
  let* ls := kl_entropy_local E a i in mean_res ls.

(** [_cross_entropy] (225-268): [p] the samples, [q] the reference *)
Definition kl_cross_entropy (E : nenv) (a : nargs) (p q : farr) : res R :=
  let* k := kl_check a in
  let* vs := with_noise (n_noise a) (draw E) [rows2d p; rows2d q] in
  let at_ := nth 0 vs [] in
  let data := nth 1 vs [] in
  if negb (Nat.eqb (width at_) (width data)) then Raise ValueError
  else
  let* qu := kth_query (n_p a) data k in
  let M := length data in
  let d := width data in
  let* cd := unit_ball_volume (gam E) d (1 / 2) (n_p a) in
  let* pk := psi_k (n_id a) k in
  let* pM := digamma (Z.of_nat M) in
  let* lc := np_log cd in
  let* ls := mapM (fun e => match e with None => NonFinite | Some r => np_log (2 * r) end)
                  (filter edist_pos (map qu at_)) in
  let* avg := np_div (INR d * sumR ls) (INR M) in
  to_base (n_base a) (- pk + pM + lc + avg).
(** [kullback_leiber_divergence(p, q, approach="metric")] (infomeasure/composite_measures/kld.py 43-49) *)
Definition kl_kld (E : nenv) (a : nargs) (p q : farr) : res R :=
  let* hqp := kl_cross_entropy E a p q in
  let* hp := kl_entropy E a (FArr p) in
  Ok (hqp - hp).

(** ** Kraskov-Stoegbauer-Grassberger mutual information
    (infomeasure/estimators/mutual_information/kraskov_stoegbauer_grassberger.py, abbreviated KSG) *)

(** the digamma term of one marginal space for one point [x] and the joint-space distance [e]: variant 1 counts the
    points closer than [e], without the point itself if [e] > 0; variant 2 the points not farther than [e]
    (KSG 190-236).  Simplified: for a zero distance the code asks for the radius [nextafter(0, -inf)]; the maximum norm
    and p = 1 find no point, as here, but for other integer p scipy raises this radius to the power p, gets 0 by
    underflow and also counts the points that coincide with [x]. *)
Definition ksg_psi (id : Z) (m : mink) (tree : list pt) (x : pt) (e : edist) : res R :=
  if Z.eqb id 1
  then digamma (Z.of_nat (ball_lt m tree x e) - (if edist_pos e then 1 else 0) + 1)
  else digamma (Z.of_nat (ball_le m tree x e)).

Definition int_k (a : nargs) : res Z := match n_k a with NInt k => Ok k | NFloat => Raise TypeError end.

(** [KSGMIEstimator._calculate] (KSG 157-238) *)
Definition ksg_mi_form (a : nargs) (k : Z) (data : list (list pt)) : res (list R) :=
  let* joint := cstack data in
  let* q := kth_query (n_p a) joint (k + 1) in
  let* pk := psi_k (n_id a) k in
  let N := length (hd [] data) in
  mapM (fun t =>
          let e := q (nth t joint []) in
          let* ps := mapM (fun v => ksg_psi (n_id a) (n_p a) v (nth t v []) e) data in
          let* pN := digamma (Z.of_nat N) in
          to_base (n_base a) (pk - sumR ps + (INR (length data) - 1) * pN))
       (seq 0 (length joint)).
(** [BaseKSGMIEstimator.__init__] (KSG 50-118) and [_calculate] *)
Definition ksg_mi_local (E : nenv) (a : nargs) (offset : option Z) (normalize : bool) (vars : list farr) : res (list R) :=
  let* vs := fmi_init offset normalize vars in
  if negb (id_ok a) then Raise ValueError
  else let* data := with_noise (n_noise a) (draw E) vs in
       let* k := int_k a in
       ksg_mi_form a k data.
Definition ksg_mi (E : nenv) (a : nargs) (offset : option Z) (normalize : bool) (vars : list farr) : res R :=
  let* ls := ksg_mi_local E a offset normalize vars in mean_res ls.

(** [KSGCMIEstimator._calculate] (KSG 269-351), without the noise *)
Definition ksg_cmi_form (a : nargs) (k : Z) (data : list (list pt)) (cond : list pt) : res (list R) :=
  let* joint := cstack (data ++ [cond]) in
  let* q := kth_query (n_p a) joint (k + 1) in
  let* marg := mapM (fun v => cstack [v; cond]) data in
  let* pk := psi_k (n_id a) k in
  mapM (fun t =>
          let e := q (nth t joint []) in
          let* pz := ksg_psi (n_id a) (n_p a) cond (nth t cond []) e in
          let* ps := mapM (fun v => ksg_psi (n_id a) (n_p a) v (nth t v []) e) marg in
          to_base (n_base a) (pk + pz - sumR ps))
       (seq 0 (length joint)).
(** the noise loop of [KSGCMIEstimator] (KSG 281-286): for every row, noise for that row of each variable, and then
    noise for all rows of the condition *)
Fixpoint upd {A} (j : nat) (f : A -> A) (l : list A) : list A :=
  match l, j with [], _ => [] | x :: l, O => f x :: l | x :: l, S j => x :: upd j f l end.
Fixpoint noise_row_vars (lvl : R) (z : nat -> R) (j pos : nat) (data : list (list pt)) : list (list pt) * nat :=
  match data with
  | [] => ([], pos)
  | v :: vs => let v' := upd j (noise_row lvl z pos) v in
               let '(vs', pos') := noise_row_vars lvl z j (pos + length (nth j v [])) vs in
               (v' :: vs', pos')
  end.
Fixpoint cmi_noise (lvl : R) (z : nat -> R) (js : list nat) (pos : nat) (data : list (list pt)) (cond : list pt)
  : list (list pt) * list pt :=
  match js with
  | [] => (data, cond)
  | j :: js =>
      let '(data', pos') := noise_row_vars lvl z j pos data in
      cmi_noise lvl z js (pos' + size cond) data' (noise_rows lvl z pos' cond)
  end.
Definition cmi_with_noise (lvl : R) (z : nat -> R) (data : list (list pt)) (cond : list pt) : res (list (list pt) * list pt) :=
  if Req_EM_T lvl 0 then Ok (data, cond)
  else if Rlt_dec lvl 0 then Raise ValueError
  else if existsb (fun v => Nat.ltb (length v) (length (hd [] data))) data then Raise IndexError
  else Ok (cmi_noise lvl z (seq 0 (length (hd [] data))) 0 data cond).
Definition ksg_cmi_local (E : nenv) (a : nargs) (offset : option Z) (normalize : bool) (vars : list farr) (cond : farr)
  : res (list R) :=
  let* _ := match offset with None | Some 0%Z => Ok tt | _ => Raise ValueError end in
  let* vc := fcmi_init normalize vars cond in
  if negb (id_ok a) then Raise ValueError
  else let* dc := cmi_with_noise (n_noise a) (draw E) (fst vc) (snd vc) in
       let* k := int_k a in
       ksg_cmi_form a k (fst dc) (snd dc).
Definition ksg_cmi (E : nenv) (a : nargs) (offset : option Z) (normalize : bool) (vars : list farr) (cond : farr) : res R :=
  let* ls := ksg_cmi_local E a offset normalize vars cond in mean_res ls.

(** ** KSG transfer entropy (infomeasure/estimators/transfer_entropy/kraskov_stoegbauer_grassberger.py) *)

(** [_calculate] after the embedding (208-279, 355-432): joint space, destination past, marginal 1 and marginal 2 *)
Definition ksg_te_form (a : nargs) (k : Z) (joint dpast m1 m2 : list pt) : res (list R) :=
  let* q := kth_query (n_p a) joint (k + 1) in
  let* pk := psi_k (n_id a) k in
  mapM (fun t =>
          let e := q (nth t joint []) in
          let* p2 := ksg_psi (n_id a) (n_p a) m2 (nth t m2 []) e in
          let* p1 := ksg_psi (n_id a) (n_p a) m1 (nth t m1 []) e in
          let* pd := ksg_psi (n_id a) (n_p a) dpast (nth t dpast []) e in
          to_base (n_base a) (pk - p2 - p1 + pd))
       (seq 0 (length joint)).
(** [KSGTEEstimator] (56-139, 175-279): the destination receives its noise first *)
Definition ksg_te_local (E : nenv) (k : nargs) (source dest : farr) (a : te_args) (rnd : rand) : res (list R) :=
  let* sd := fte_init (rows2d source) (rows2d dest) (a_prop a) (a_offset a) (a_step a) in
  if negb (id_ok k) then Raise ValueError
  else
  let* ds := with_noise (n_noise k) (draw E) [snd sd; fst sd] in
  let* sp := fte_spaces (nth 1 ds []) (nth 0 ds []) (a_src a) (a_dest a) (a_step a) rnd in
  let '(j, dp, m1, m2) := sp in
  let* kk := int_k k in
  ksg_te_form k kk j dp m1 m2.
Definition ksg_te (E : nenv) (k : nargs) (source dest : farr) (a : te_args) (rnd : rand) : res R :=
  let* ls := ksg_te_local E k source dest a rnd in mean_res ls.
(** [KSGCTEEstimator] (282-432) *)
Definition ksg_cte_local (E : nenv) (k : nargs) (source dest cond : farr) (a : te_args) : res (list R) :=
  let* _ := fcte_init (rows2d source) (rows2d dest) (rows2d cond) (a_prop a) (a_offset a) in
  if negb (id_ok k) then Raise ValueError
  else
  let* ds := with_noise (n_noise k) (draw E) [rows2d dest; rows2d source; rows2d cond] in
  let* sp := fcte_spaces (nth 1 ds []) (nth 0 ds []) (nth 2 ds []) (a_src a) (a_dest a) (a_cond a) (a_step a) in
  let '(j, dp, m1, m2) := sp in
  let* kk := int_k k in
  ksg_te_form k kk j dp m1 m2.
Definition ksg_cte (E : nenv) (k : nargs) (source dest cond : farr) (a : te_args) : res R :=
  let* ls := ksg_cte_local E k source dest cond a in mean_res ls.

(** ** Renyi and Tsallis entropy (infomeasure/estimators/entropy/renyi.py, tsallis.py) *)

(** the order [alpha] or [q]: an int or float, or something else *)
Inductive order : Type := ONum (q : R) | OOther.
Record eargs : Type := mkEargs { e_k : num; e_q : order; e_base : base }.
Definition e_check (a : eargs) : res (Z * R) :=
  match e_q a with
  | OOther => Raise ValueError
  | ONum q =>
      if Rle_dec q 0 then Raise ValueError
      else match e_k a with
           | NInt k => if Z.leb k 0 then Raise ValueError else Ok (k, q)
           | NFloat => Raise ValueError
           end
  end.

(** [calculate_common_entropy_components] (infomeasure/estimators/utils/exponential_family.py, abbreviated EXF, 13-65):
    unit ball volume, distances, number of samples and dimension; KDTree uses Euclidean distances by default *)
Definition components (G : R -> R) (data : list pt) (k : Z) (at_ : option (list pt)) : res (R * list edist * nat * nat) :=
  let N := length data in
  let m := width data in
  let* ak := match at_ with
             | None => Ok (data, (k + 1)%Z)
             | Some q => if Nat.eqb (width q) m then Ok (q, k) else Raise ValueError
             end in
  let '(q, K) := ak in
  if Z.ltb (Z.of_nat N) K then Raise ValueError
  else let* vm := np_div (Rpower PI (INR m / 2)) (G (INR m / 2 + 1)) in
       let* qu := kth_query (MP 2) data K in
       Ok (vm, map qu q, N, m).
(** the distances are finite because k <= N *)
Definition finite_dists (l : list edist) : res (list R) :=
  mapM (fun e => match e with Some r => Ok r | None => NonFinite end) l.

(** [x ** y] for floats: nan for a negative base (integer exponents of negative bases are not modelled) *)
Definition np_pow (x y : R) : res R :=
  if Rlt_dec 0 x then Ok (Rpower x y)
  else if Req_EM_T x 0 then (if Rlt_dec 0 y then Ok 0 else if Req_EM_T y 0 then Ok 1 else NonFinite)
  else NonFinite.

(** [exponential_family_iq] (EXF 68-101) *)
Definition exp_iq (G : R -> R) (k : Z) (q vm : R) (rho : list R) (n m : nat) : res R :=
  if Req_EM_T q (IZR k + 1) then Ok 0
  else
  let* ratio := np_div (G (IZR k)) (G (IZR k + 1 - q)) in
  let* ck := np_pow ratio (1 / (1 - q)) in
  let* f := np_pow (INR n * ck * vm) (1 - q) in
  let* ts := mapM (fun r => np_pow (r ^ m) (1 - q)) (filter (fun r => if Rlt_dec 0 r then true else false) rho) in
  np_div (f * sumR ts) (INR (length rho)).
(** [exponential_family_i1] (EXF 104-132) *)
Definition exp_i1 (k : Z) (vm : R) (rho : list R) (n m : nat) (b : base) : res R :=
  let* pk := digamma k in
  let zeta := map (fun r => INR n * exp (- pk) * vm * r ^ m) rho in
  let* ls := mapM (log_base b) (filter (fun z => if Rlt_dec 0 z then true else false) zeta) in
  np_div (sumR ls) (INR (length zeta)).

(** [RenyiEntropyEstimator._simple_entropy], [_joint_entropy], [_cross_entropy] (renyi.py 75-129) *)
Definition renyi_of (b : base) (q : R) (G : R -> R) (k : Z) (vm : R) (rho : list R) (n m : nat) : res R :=
  if Req_EM_T q 1 then exp_i1 k vm rho n m b
  else let* iq := exp_iq G k q vm rho n m in
       if Req_EM_T iq 0 then Ok 0
       else let* l := log_base b iq in np_div l (1 - q).
(** [TsallisEntropyEstimator] likewise (tsallis.py 73-127) *)
Definition tsallis_of (b : base) (q : R) (G : R -> R) (k : Z) (vm : R) (rho : list R) (n m : nat) : res R :=
  if Req_EM_T q 1 then exp_i1 k vm rho n m b
  else let* iq := exp_iq G k q vm rho n m in
       if Req_EM_T iq 0 then Ok 0 else np_div (1 - iq) (q - 1).
Definition expfam (of : base -> R -> (R -> R) -> Z -> R -> list R -> nat -> nat -> res R)
  (E : nenv) (a : eargs) (i : finput) : res R :=
  let* rows := make_rows i in
  let* kq := e_check a in
  let* c := components (gam E) rows (fst kq) None in
  let '(vm, rho, N, m) := c in
  let* rho := finite_dists rho in
  of (e_base a) (snd kq) (gam E) (fst kq) vm rho (N - 1)%nat m.
Definition expfam_cross (of : base -> R -> (R -> R) -> Z -> R -> list R -> nat -> nat -> res R)
  (E : nenv) (a : eargs) (p q : farr) : res R :=
  let* kq := e_check a in
  let* c := components (gam E) (rows2d q) (fst kq) (Some (rows2d p)) in
  let '(vm, rho, N, m) := c in
  let* rho := finite_dists rho in
  of (e_base a) (snd kq) (gam E) (fst kq) vm rho N m.
Definition renyi_entropy := expfam renyi_of.
Definition tsallis_entropy := expfam tsallis_of.
Definition renyi_cross_entropy := expfam_cross renyi_of.
Definition tsallis_cross_entropy := expfam_cross tsallis_of.
