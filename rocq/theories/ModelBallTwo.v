(** Model on balls of the method for two branch points: arb/integrals_de.c:202-233 and the part of
    arb/aj_struct.c that uses it, from the coefficients of the polynomial to both period matrices, as
    sequences of calls to Arb. *)
From Coq Require Import Reals.
From Verif Require Import Base ModelTree ModelCurve ModelSymp ModelBasis ModelInter ModelBall.
Local Open Scope Z_scope.

(** two more functions of Arb; the first argument is the precision *)
Record gammas (A : arith) := {
  gm_sqrt_pi : Z -> ball A;              (* arb_const_sqrt_pi *)
  gm_gamma : Z -> Z -> Z -> ball A       (* arb_gamma_fmpq; numerator and denominator *)
}.

Section Run.
Variables (A : arith) (G : gammas A).
Notation bl := (ball A).
Notation bvec := (list (ball A)).

(** integrals_de.c:202-230; the sum j/m + 1/2 is not put in lowest terms *)
Definition b_integral_d2_raw (p : Z) (c : sec) : bvec :=
  btab A (Z.to_nat (sec_g c)) (fun k =>
    let j := sec_g c - Z.of_nat k in
    let r := b_mul A p (gm_sqrt_pi A G p) (gm_gamma A G p j (sec_m c)) in
    b_div A p r (gm_gamma A G p (2 * j + sec_m c) (2 * sec_m c))).
(** integrals_de.c:202-233 *)
Definition b_integral_d2 (p : Z) (ye : b_ydata A) (c : sec) : outcome bvec :=
  b_edge_factors A p (b_integral_d2_raw p c) (by_ba2 A ye) (by_ab A ye) (by_c A ye) c.

(** acb_branch_points at a given precision; fmpz_poly_is_squarefree; qsort on the candidate edges and
    their weights; fmpz_xgcd; the bits added by extraprec_tree *)
Variables (branch_points : Z -> list Z -> bvec) (squarefree : list Z -> bool)
  (sort : list edge -> list edge) (param : bvec -> nat -> nat -> nat -> dbl)
  (xgcd : Z -> Z -> Z * Z * Z) (extra : bvec -> list edge -> sec -> Z).

(** aj_struct.c:24-56, 72-119 and 130-157 when the flag AJ_USE_DE is absent, m > 2 and there are at most
    two branch points; the branch points are computed twice, the tree comes from the first ones *)
Definition b_periods_d2 (m : Z) (f : list Z) (prec : Z) : outcome (list bvec * list bvec) :=
  do c <- aj_init m f (squarefree f);
  let '(c, edges) := c in
  let x := branch_points 64 f in
  do t <- spanning_tree sort (param x) (length x) (Z.to_nat edges) (Some 0) 0;
  let '(es, _, _) := t in
  let intprec := prec + extra x es c in
  let cstprec := intprec + 10 in
  let x := branch_points cstprec f in
  do ys <- b_tree_ydata A cstprec x m es;
  do inter <- b_intersection A 64 ys es m;
  do loops <- symplectic_basis xgcd (to_rows inter) (Z.to_nat (sec_g c)) m;
  match es with
  | [] => Fault OutOfBounds
  | _ :: es =>
      do v <- b_integral_d2 intprec (nth 0 ys (b_no_ydata A)) c;
      let ints := v :: map (fun _ => btab A (Z.to_nat (sec_g c)) (fun _ => b_zero A)) es in
      do a <- b_period_matrix A intprec c (map fst loops) ints;
      do b <- b_period_matrix A intprec c (map snd loops) ints;
      Done (a, b)
  end.
End Run.
