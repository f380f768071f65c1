(** Entries of a matrix of radii. *)
From Coq Require Import Reals List ZArith.
Import ListNotations.

(** entry at row i, column j, when there is one *)
Definition entry (m : list (list (R * R))) (i j : nat) : option (R * R) :=
  match nth_error m i with Some row => nth_error row j | None => None end.
(** (i, j) is before (i', j') in reading order *)
Definition before (i j i' j' : nat) : Prop := (i < i')%nat \/ (i = i' /\ (j < j')%nat).
