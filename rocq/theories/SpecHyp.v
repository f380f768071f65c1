(** Periods of a cycle of a hyperelliptic curve, from the integrals over the edges of the tree. *)
From Verif Require Import CBase ModelPeriod.
Local Open Scope R_scope.

(** [b] holds one row for each edge p: the integrals of x^i dx / y over the elementary cycle of p,
    that is twice over the edge.  [row] are the coordinates of a cycle. *)
Definition cycle_period (b : cmat) (row : list Z) (i : nat) : C :=
  csum (length row) (fun p => (ZC (nth p row 0%Z) * vget (nth p b []) i)%C).
(** sum of the absolute values of the coordinates *)
Definition cycle_norm (row : list Z) : R := fold_right (fun x s => Rabs (IZR x) + s) 0 row.
