(** Specification of the time-delay embedding used by transfer entropy, by time stamps. *)
From Coq Require Import List Arith.
Import ListNotations.

(** number of embedded rows of a series of length [n]: the base times are
    [d, d+s, d+2s, ...] below [n], where [d] is the longest delay *)
Definition nrows (n d s : nat) : nat := (n - d + (s - 1)) / s.
Definition base_times (n d s : nat) : list nat := map (fun r => d + r * s) (seq 0 (nrows n d s)).

(** the [len] values of the series at times [b - len*s, ..., b - 2s, b - s] (oldest first) *)
Definition past {A} (d : A) (xs : list A) (s len b : nat) : list A :=
  map (fun j => nth (b - (len - j) * s) xs d) (seq 0 len).

(** pasts and presents at a list of base times *)
Definition pasts {A} (d : A) (xs : list A) (s len : nat) (ts : list nat) : list (list A) :=
  map (past d xs s len) ts.
Definition presents {A} (d : A) (xs : list A) (ts : list nat) : list A := map (fun b => nth b xs d) ts.
