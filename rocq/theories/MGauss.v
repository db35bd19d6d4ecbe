(** Model: the Gaussian kernel for data of two or more dimensions (infomeasure/estimators/utils/kde.py 104-162 and the
    parts of scipy.stats.gaussian_kde it calls).  Floats are exact reals; matrices are functions of row and column.
    [numpy.linalg.eig] is a parameter: the theorems assume of it that it returns eigenpairs of the covariance matrix (SpecMvg.eigen_of). *)
From Coq Require Import Reals List ZArith Arith Bool.
From Verif Require Import Res RSum Spec SpecBase MBase MTE MPct MNorm MCont MKern.
Import ListNotations.
Local Open Scope R_scope.

Notation vec := (nat -> R).
Notation mat := (nat -> nat -> R).

(** [numpy.cov(data)] (kde.py 135; gaussian_kde._compute_covariance) *)
Definition np_cov (data : list pt) : mat := fun i j =>
  let mu k := mean (map (fun r => nth k r 0) data) in
  sumf (fun r => (nth i r 0 - mu i) * (nth j r 0 - mu j)) data / (INR (length data) - 1).

(** [scipy.linalg.cholesky(A, lower=True)]: column by column, the diagonal entry and the entries below it;
    LinAlgError (a ValueError) if the matrix is not positive definite *)
Fixpoint cholesky (d : nat) (A : mat) : res (list (R * vec)) :=
  match d with
  | O => Ok []
  | S d' =>
      if Rlt_dec 0 (A 0%nat 0%nat) then
        let l := sqrt (A 0%nat 0%nat) in
        let c := fun i => A (S i) 0%nat / l in
        let* rest := cholesky d' (fun i j => A (S i) (S j) - c i * c j) in
        Ok ((l, c) :: rest)
      else Raise ValueError
  end.
(** [scipy.linalg.solve_triangular(L, z, lower=True)] *)
Fixpoint solve_triangular (L : list (R * vec)) (z : vec) : list R :=
  match L with
  | [] => []
  | (l, c) :: rest => let y := z 0%nat / l in y :: solve_triangular rest (fun i => z (S i) - c i * y)
  end.

(** [scipy.stats.gaussian_kde(data, bw_method=h)] and [evaluate]: data and query points are whitened with the Cholesky
    factor of the scaled covariance *)
Definition gaussian_kde (d : nat) (data : list pt) (h : R) : res (pt -> R) :=
  if Nat.leb (d * length data) 1 then Raise ValueError
  else if Nat.leb (length data) 1 then Raise ValueError
  else
    let* L := cholesky d (fun i j => np_cov data i j * h ^ 2) in
    let norm := / (sqrt (2 * PI) ^ d * fold_right Rmult 1 (map fst L)) in
    let white := fun p : pt => solve_triangular L (fun i => nth i p 0) in
    Ok (fun q => sumf (fun x => exp (- sumR (map (fun ab => (fst ab - snd ab) ^ 2) (combine (white q) (white x))) / 2)
                                * / INR (length data) * norm) data).

(** descending order of eigenvalues ([argsort(values)[::-1]], kde.py 138-140) *)
Fixpoint insert_desc (x : R * vec) (l : list (R * vec)) : list (R * vec) :=
  match l with
  | [] => [x]
  | y :: r => if Rle_dec (fst y) (fst x) then x :: l else y :: insert_desc x r
  end.
Definition sort_desc (l : list (R * vec)) : list (R * vec) := fold_right insert_desc [] l.

Definition eigen_threshold : R := / 10 ^ 10.

(** [gaussian_kernel_densities] (kde.py 132-162): if an eigenvalue of the covariance is at most 1e-10, data and query
    points are projected on the eigenvectors of the others; the covariance of a single sample is nan, which
    [eig] rejects with LinAlgError (a ValueError) *)
Definition mv_gauss (eig : nat -> mat -> list (R * vec)) (data : list pt) (h : R) : res (pt -> R) :=
  if Nat.leb (length data) 1 then Raise ValueError
  else
    let d := width data in
    let pairs := sort_desc (eig d (np_cov data)) in
    let k := length (filter (fun lv => if Rlt_dec eigen_threshold (fst lv) then true else false) pairs) in
    if Nat.ltb k d then
      let comps := firstn k pairs in
      let proj := fun p : pt => map (fun lv => sumf (fun i => nth i p 0 * snd lv i) (seq 0 d)) comps in
      let* f := gaussian_kde k (map proj data) h in
      Ok (fun q => f (proj q))
    else gaussian_kde d data h.

(** the environment of the kernel estimators with this model in place of the oracle of MKern *)
Definition genv (processors : Z) (eig : nat -> mat -> list (R * vec)) : kenv := mkKenv processors (mv_gauss eig).
