(** Model of the method for two branch points, y^m = (x - a)(x - b) up to a constant: arb/integrals_de.c:202-233
    and the part of arb/aj_struct.c that uses it.  Balls are exact numbers. *)
From Coq Require Import Reals.
From Verif Require Import CArg ModelTree ModelInter ModelCurve ModelSymp ModelBasis ModelPeriod ModelVec ModelQuad ModelEdge ModelRun.
Local Open Scope Z_scope.

(** integrals_de.c:202-233; [gamma] is Arb's arb_gamma_fmpq *)
Definition integral_d2 (gamma : R -> R) (ye : ydata) (c : sec) : outcome vec :=
  integrals_edge_factors (integral_d2_raw gamma c) (y_ba2 ye) (y_ab ye) (y_c ye) c.

(** aj_struct.c:72-157 when the flag AJ_USE_DE is absent, m > 2 and there are at most two branch points
    (line 78); line 134 fills the first row of the matrix of integrals, the others stay zero *)
Definition periods_d2 (branch_points : list Z -> list C) (squarefree : list Z -> bool)
  (sort : list edge -> list edge) (param : list C -> nat -> nat -> nat -> dbl) (nonpos neg : edge -> C -> bool)
  (xgcd : Z -> Z -> Z * Z * Z) (gamma : R -> R) (m : Z) (p : list Z) : outcome (cmat * cmat) :=
  do h <- homology branch_points squarefree sort param nonpos neg xgcd m p;
  let '(c, x, es, ys, loops) := h in
  match es with
  | [] => Fault OutOfBounds
  | _ :: es =>
      do v <- integral_d2 gamma (nth 0 ys no_ydata) c;
      let ints := v :: map (fun _ => vtab (Z.to_nat (sec_g c)) (fun _ => RtoC 0)) es in
      do a <- period_matrix c (map fst loops) ints;
      do b <- period_matrix c (map snd loops) ints;
      Done (a, b)
  end.
