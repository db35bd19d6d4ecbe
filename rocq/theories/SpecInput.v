(** Specification vocabulary: the sample an entropy input denotes. *)
From Coq Require Import Reals List ZArith Arith.
From Verif Require Import RSum Spec MBase MData.
Import ListNotations.

(** number of sample points of an input: an array, or a tuple of arrays (one joint variable) *)
Definition input_size (i : einput) : nat :=
  match i with EArr a => arr_len a | ETuple [] => 0 | ETuple (a :: _) => arr_len a end.

(** the sample as a list of rows: 1-D arrays have one entry per row; the rows of a joint variable
    are the rows of its arrays put side by side *)
Definition sample (i : einput) : list (list Z) :=
  match i with
  | EArr a => arr_rows a
  | ETuple cols => map (fun t => concat (map (fun c => nth t (arr_rows c) []) cols)) (seq 0 (input_size i))
  end.

(** inputs the documentation allows: at least one sample point, all arrays of a tuple equally long *)
Definition usable (i : einput) : Prop :=
  (0 < input_size i)%nat /\
  match i with EArr _ => True | ETuple cols => Forall (fun a => arr_len a = input_size i) cols end.
