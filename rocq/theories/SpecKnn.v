(** Independent specification of nearest-neighbour information measures.  A variable is a list of sample points, a
    point a list of coordinates; nothing here refers to the code model. *)
From Coq Require Import Reals List ZArith Arith Bool.
From Verif Require Import RSum SpecBase SpecGamma.
Import ListNotations.
Local Open Scope R_scope.

(** x to the power p for x >= 0 and p > 0 *)
Definition powr (x p : R) : R := if Req_EM_T x 0 then 0 else Rpower x p.
(** the Minkowski norm of a vector: [Some p] is the p-norm, [None] the maximum norm *)
Definition norm (p : option R) (v : list R) : R :=
  match p with
  | None => fold_right (fun a m => Rmax (Rabs a) m) 0 v
  | Some p => powr (sumR (map (fun a => powr (Rabs a) p) v)) (/ p)
  end.
Definition vsub (x y : list R) : list R := map (fun ab => fst ab - snd ab) (combine x y).
Definition dst (p : option R) (x y : list R) : R := norm p (vsub x y).
(** the norms KD-trees support *)
Definition norm_ok (p : option R) : Prop := match p with None => True | Some p => 1 <= p end.

(** sample [t] of the joint variable, and the distance of two joint samples *)
Definition sample (vars : list (list (list R))) (t : nat) : list R := concat (map (fun v => nth t v []) vars).
Definition jdist (p : option R) (vars : list (list (list R))) (t u : nat) : R := dst p (sample vars t) (sample vars u).

(** the other samples, and how many of them are closer than [e] / not farther than [e] *)
Definition others (n t : nat) : list nat := filter (fun u => negb (Nat.eqb u t)) (seq 0 n).
Definition closer (p : option R) (n : nat) (vars : list (list (list R))) (t : nat) (e : R) : nat :=
  length (filter (fun u => if Rlt_dec (jdist p vars t u) e then true else false) (others n t)).
Definition within (p : option R) (n : nat) (vars : list (list (list R))) (t : nat) (e : R) : nat :=
  length (filter (fun u => if Rle_dec (jdist p vars t u) e then true else false) (others n t)).

(** [e] is the distance from sample [t] to its k-th nearest other sample: it is the distance of some other sample,
    fewer than k others are closer, and at least k are not farther *)
Definition kth_neighbour (p : option R) (n : nat) (vars : list (list (list R))) (k t : nat) (e : R) : Prop :=
  (exists u, (u < n)%nat /\ u <> t /\ e = jdist p vars t u) /\
  (closer p n vars t e < k)%nat /\ (k <= within p n vars t e)%nat.

(** the two variants of Kraskov, Stoegbauer and Grassberger: strict or non-strict neighbour counts *)
Inductive variant : Type := Strict | NonStrict.
Definition nbs (w : variant) p n vars t e : nat := match w with Strict => closer p n vars t e | NonStrict => within p n vars t e end.
Definition corr (w : variant) (k : nat) : R := match w with Strict => 0 | NonStrict => / INR k end.

(** local mutual information: psi(k) [- 1/k] - sum of psi(n_i + 1) + (m - 1) psi(N), where n_i is the number of other
    samples that variable i alone puts closer than (not farther than) the k-th neighbour in the joint space *)
Definition ksg_value (w : variant) p (n : nat) (vars : list (list (list R))) (k t : nat) (e : R) : R :=
  psi k - corr w k - sumR (map (fun v => psi (nbs w p n [v] t e + 1)) vars) + (INR (length vars) - 1) * psi n.
(** local conditional mutual information *)
Definition ksg_cond_value (w : variant) p (n : nat) (vars : list (list (list R))) (z : list (list R)) (k t : nat) (e : R) : R :=
  psi k - corr w k + psi (nbs w p n [z] t e + 1) - sumR (map (fun v => psi (nbs w p n [v; z] t e + 1)) vars).
(** several variables as one: sample [t] consists of all their coordinates *)
Definition joined (n : nat) (vars : list (list (list R))) : list (list R) := map (sample vars) (seq 0 n).
