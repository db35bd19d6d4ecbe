(** Independent specification: ball volumes, and nearest-neighbour entropies. *)
From Coq Require Import Reals List ZArith Arith Bool.
From Verif Require Import RSum SpecBase SpecGamma SpecKnn.
Import ListNotations.
Local Open Scope R_scope.

(** the properties of the gamma function used here *)
Definition is_gamma (G : R -> R) : Prop :=
  (forall x, 0 < x -> 0 < G x) /\ G 1 = 1 /\ G (1 / 2) = sqrt PI /\ (forall x, 0 < x -> G (x + 1) = x * G x).

(** the volume of the ball of radius r in d dimensions, by the recursion V(d+2) = 2 pi r^2 / (d+2) V(d) *)
Fixpoint euclidean_ball (d : nat) (r : R) : R :=
  match d with
  | 0%nat => 1
  | 1%nat => 2 * r
  | S (S d as e) => 2 * PI * r ^ 2 / INR (S e) * euclidean_ball d r
  end.
(** for the Minkowski norm with parameter p (Dirichlet); [None]: the cube of the maximum norm *)
Definition lp_ball (G : R -> R) (p : option R) (d : nat) (r : R) : R :=
  (2 * r) ^ d * match p with None => 1 | Some p => G (1 + 1 / p) ^ d / G (1 + INR d / p) end.

(** entropy from the distances [es t] to the k-th nearest other sample (Kozachenko and Leonenko):
    psi(N) - psi(k) [+ 1/k] + ln of the volume of the ball of radius [es t] *)
Definition kl_value (G : R -> R) (w : variant) (p : option R) (n d k : nat) (e : R) : R :=
  psi n - psi k + corr w k + ln (lp_ball G p d e).

(** [e] is the distance from the point [x] to the k-th nearest of the points [ref] *)
Definition kth_point (p : option R) (ref : list (list R)) (k : nat) (x : list R) (e : R) : Prop :=
  (exists y, In y ref /\ e = dst p x y) /\
  (length (filter (fun y => if Rlt_dec (dst p x y) e then true else false) ref) < k)%nat /\
  (k <= length (filter (fun y => if Rle_dec (dst p x y) e then true else false) ref))%nat.

(** Renyi and Tsallis entropies from nearest neighbours (Leonenko, Pronzato and Savani): the estimate of the integral of
    the density to the power q, from the distances [e] of N samples to their k-th nearest reference point, of which there
    are [c] besides the sample *)
Definition lps_integral (G : R -> R) (c d k : nat) (q : R) (es : list R) : R :=
  G (INR k) / G (INR k + 1 - q) * mean (map (fun e => Rpower (INR c * euclidean_ball d e) (1 - q)) es).
(** order 1 *)
Definition lps_shannon (c d k : nat) (es : list R) : R :=
  mean (map (fun e => ln (INR c * euclidean_ball d e) - psi k) es).
