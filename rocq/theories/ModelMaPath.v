(** Model of the paths in the spanning tree used by the Abel-Jacobi map of the Magma package:
    magma/se_periods/se_abel_jacobi.m:48-79 and 113-117.

    Magma's indices start from 1 and those of the model from 0.  An index out of range is
    [Fault OutOfBounds].  Complex numbers are exact. *)
From Verif Require Import CArg ModelTree ModelVec ModelPeriod ModelMaTree.

(** se_abel_jacobi.m:57-70, the edges from number j on *)
Fixpoint fill_rows (es : list tedge) (j : nat) (taken : list bool) (tm : list (list Z)) : outcome (list (list Z)) :=
  match es with
  | [] => Done tm
  | e :: es =>
      do ta <- tget taken (t_a e);
      let '(pstart, pend) := if ta : bool then (t_a e, t_b e) else (t_b e, t_a e) in
      do _ <- tget taken pend;
      do row <- tget tm pstart;
      do _ <- tget tm pend;
      do _ <- tget row j;
      fill_rows es (S j) (upd taken pend true) (upd tm pend (upd row j 1))
  end.
(** se_abel_jacobi.m:75: difference of two rows *)
Definition row_sub (r s : list Z) : list Z := map (fun p => fst p - snd p) (combine r s).
(** se_abel_jacobi.m:48-79; [base] is the attribute Basepoint.  In the loop of lines 74-76 the row that
    is subtracted is a copy, so the order does not matter *)
Definition tree_matrix (n base : nat) (es : list tedge) : outcome (list (list Z)) :=
  do e0 <- tget es 0;
  do _ <- tget (repeat false n) (t_a e0);
  do tm <- fill_rows es 0 (upd (repeat false n) (t_a e0) true) (repeat (repeat 0 (n - 1)) n);
  do p0 <- tget tm base;
  Done (map (fun r => row_sub r p0) tm).

(** se_abel_jacobi.m:113-117: for one component of the integrals, [els] are the elementary integrals *)
Definition path_integral (row : list Z) (els : vec) : C :=
  fold_left (fun v p => (v + RtoC (IZR (fst p)) * snd p)%C) (combine row els) (RtoC 0).
