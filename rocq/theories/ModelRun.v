(** Model of arb/aj_struct.c:11-182 on values: from the coefficients of the polynomial to the two
    period matrices.  Balls are exact numbers, as in the models of the stages put together here; the
    structure is a fresh one, and the branch points found at the two precisions of lines 92 and 113
    are the same ones in the same order (see C25). *)
From Coq Require Import Reals.
From Verif Require Import CArg ModelTree ModelInter ModelCurve ModelSymp ModelBasis ModelPeriod ModelVec ModelQuad ModelCache ModelEdge ModelTurn
  ModelGc ModelErr ModelExtra ModelDe ModelDeq.
Local Open Scope Z_scope.

Section Run.
(** arb_fmpz_poly_complex_roots followed by the sort (aj_struct.c:11-17); fmpz_poly_is_squarefree;
    qsort on the candidate edges and their weights; sign tests on balls; fmpz_xgcd; rounding and
    logarithm of mag_t *)
Context (branch_points : list Z -> list C) (squarefree : list Z -> bool)
  (sort : list edge -> list edge) (param : list C -> nat -> nat -> nat -> dbl) (nonpos neg : edge -> C -> bool)
  (xgcd : Z -> Z -> Z * Z * Z) (up lg : R -> R).
(** qsort on the edges of the tree *)
Context {Key : Type} (qsort : list (Key * nat) -> list (Key * nat)) (keys : list ydata -> list Key).

(** aj_struct.c:24-56, 92, 102 and 113-119: curve, branch points, tree, data of the edges, loops *)
Definition homology (m : Z) (p : list Z) : outcome (sec * list C * list edge * list ydata * list (list gamma * list gamma)) :=
  do c <- aj_init m p (squarefree p);
  let '(c, edges) := c in
  let x := branch_points p in
  do t <- spanning_tree sort (param x) (length x) (Z.to_nat edges) (Some 0) 0;
  let '(es, _, _) := t in
  do ys <- tree_ydata nonpos neg x m es;
  do inter <- intersection_of_data ys es m;
  do loops <- symplectic_basis xgcd (to_rows inter) (Z.to_nat (sec_g c)) m;
  Done (c, x, es, ys, loops).

(** integrals_gc.c:109-111 for each edge *)
Fixpoint edge_rows_gc (c : sec) (ys : list ydata) (rows : list (vec * option R)) : outcome cmat :=
  match ys, rows with
  | ye :: ys, r :: rows =>
      do v <- edge_result_gc c ye (fst r);
      do a <- edge_rows_gc c ys rows;
      Done (v :: a)
  | _, _ => Done []
  end.

(** aj_struct.c:73-157 with the Gauss-Chebychev method: both period matrices *)
Definition periods_gc (rdef rturn : bool) (fuel : nat) (p : list Z) (prec : Z) : outcome (cmat * cmat) :=
  do h <- homology 2 p;
  let '(c, x, es, ys, loops) := h in
  let intprec := intprec up lg prec x es c in
  do rows <- tree_moments_gc qsort rdef rturn fuel c ys intprec (keys ys) (repeat ([], Some 0%R) (length es));
  do ints <- edge_rows_gc c ys rows;
  do a <- period_matrix c (map fst loops) ints;
  do b <- period_matrix c (map snd loops) ints;
  Done (a, b).

(** aj_struct.c:73-157 with the double exponential method *)
Definition periods_de (rdef rprod rturn same : bool) (m : Z) (p : list Z) (prec : Z) : outcome (cmat * cmat) :=
  do h <- homology m p;
  let '(c, x, es, ys, loops) := h in
  let intprec := intprec up lg prec x es c in
  do ints <- tree_integrals_de qsort rdef rprod rturn same c ys intprec (keys ys) (repeat [] (length es));
  do a <- period_matrix c (map fst loops) ints;
  do b <- period_matrix c (map snd loops) ints;
  Done (a, b).
End Run.
