(** Independent specification of multi-dimensional Gaussian kernel density estimates.  Vectors and matrices are
    functions of the coordinate numbers 0 .. d-1; data are lists of points (lists of coordinates). *)
From Coq Require Import Reals List Arith.
From Verif Require Import RSum Spec SpecBase SpecGauss.
Import ListNotations.
Local Open Scope R_scope.

Definition inner (d : nat) (u v : nat -> R) : R := sumf (fun i => u i * v i) (seq 0 d).
Definition nonzero (d : nat) (u : nat -> R) : Prop := exists i, (i < d)%nat /\ u i <> 0.
Definition coords (p : list R) : nat -> R := fun i => nth i p 0.

(** sample variance (denominator N - 1) of numbers, and sample covariance of two coordinates *)
Definition variance (xs : list R) : R := sumf (fun x => (x - mean xs) ^ 2) xs / (INR (length xs) - 1).
Definition column (data : list (list R)) (i : nat) : list R := map (fun p => nth i p 0) data.
Definition covar (data : list (list R)) (i j : nat) : R :=
  sumf (fun p => (nth i p 0 - mean (column data i)) * (nth j p 0 - mean (column data j))) data / (INR (length data) - 1).

(** Gaussian elimination of coordinate 0 *)
Definition schur (C : nat -> nat -> R) : nat -> nat -> R :=
  fun i j => C (S i) (S j) - C (S i) 0%nat * C 0%nat (S j) / C 0%nat 0%nat.
(** determinant of a d x d matrix, by elimination *)
Fixpoint gdet (d : nat) (C : nat -> nat -> R) : R :=
  match d with O => 1 | S d' => C 0%nat 0%nat * gdet d' (schur C) end.
(** the squared Mahalanobis length z^T C^-1 z, by elimination *)
Fixpoint gquad (d : nat) (C : nat -> nat -> R) (z : nat -> R) : R :=
  match d with
  | O => 0
  | S d' => z 0%nat ^ 2 / C 0%nat 0%nat + gquad d' (schur C) (fun i => z (S i) - C (S i) 0%nat * z 0%nat / C 0%nat 0%nat)
  end.

(** the multivariate normal density with mean 0 and covariance s^2 C *)
Definition mvnormal (s : R) (d : nat) (C : nat -> nat -> R) (z : nat -> R) : R :=
  exp (- gquad d C z / (2 * s ^ 2)) / sqrt ((2 * PI * s ^ 2) ^ d * gdet d C).
(** the kernel density estimate: the average of normal densities around the samples whose covariance is the squared
    bandwidth factor times the covariance of the data *)
Definition mvdensity (h : R) (d : nat) (data : list (list R)) (q : list R) : R :=
  mean (map (fun x => mvnormal h d (covar data) (fun i => nth i q 0 - nth i x 0)) data).
(** the entropy estimate: the mean of - ln density over the samples *)
Definition MvH (h : R) (d : nat) (data : list (list R)) : R := mean (map (fun q => - ln (mvdensity h d data q)) data).

(** the variance of the data in every direction exceeds [t] (per squared length of the direction vector) *)
Definition spread (t : R) (d : nat) (data : list (list R)) : Prop :=
  forall u, nonzero d u -> t * inner d u u < variance (map (fun p => inner d u (coords p)) data).
(** the sum of the variances of all coordinates *)
Definition total_variance (d : nat) (data : list (list R)) : R := sumf (fun i => variance (column data i)) (seq 0 d).

(** [pairs] are d eigenpairs (value and vector) of the d x d matrix C *)
Definition eigen_of (d : nat) (C : nat -> nat -> R) (pairs : list (R * (nat -> R))) : Prop :=
  length pairs = d /\
  Forall (fun lv => nonzero d (snd lv) /\ forall i, (i < d)%nat -> inner d (C i) (snd lv) = fst lv * snd lv i) pairs.

(** data a Gaussian kernel can be put on: numbers that are not all equal, or points of two or more coordinates whose
    variance in every direction exceeds 1e-10 (the code's threshold for eigenvalues) *)
Definition regular (d : nat) (data : list (list R)) : Prop :=
  (d = 1%nat /\ varied (column data 0)) \/ ((2 <= d)%nat /\ spread (/ 10 ^ 10) d data).
(** ... and the eigenvalue routine [eig] returns eigenpairs of the covariance matrix of these data *)
Definition ready (eig : nat -> (nat -> nat -> R) -> list (R * (nat -> R))) (d : nat) (data : list (list R)) : Prop :=
  regular d data /\ ((2 <= d)%nat -> eigen_of d (covar data) (eig d (covar data))).
(** another unit and origin for every coordinate *)
Definition affine (d : nat) (a c : nat -> R) (p : list R) : list R := map (fun i => a i * nth i p 0 + c i) (seq 0 d).
(** the coordinates in another order *)
Definition pick (pi : list nat) (p : list R) : list R := map (fun i => nth i p 0) pi.
(** the joint variable: the coordinates of all variables at each of the n times *)
Definition joint (n : nat) (vars : list (list (list R))) : list (list R) :=
  map (fun t => concat (map (fun v => nth t v []) vars)) (seq 0 n).
(** the eigenvectors have length one and are perpendicular to each other *)
Definition orthonormal (d : nat) (pairs : list (R * (nat -> R))) : Prop :=
  forall i j, (i < length pairs)%nat -> (j < length pairs)%nat ->
    inner d (snd (nth i pairs (0, fun _ => 0))) (snd (nth j pairs (0, fun _ => 0))) = if Nat.eqb i j then 1 else 0.
