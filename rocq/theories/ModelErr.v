(** Model of the integration of an edge by the Gauss-Chebyshev rule, arb/integrals_gc.c:9-84 and
    95-112, with the evaluation of roots selected by the flags and the parameters of the edge.
    Balls are replaced by their exact centres; the error radius added to the moments is kept. *)
From Coq Require Import Reals.
From Verif Require Import CArg ModelTree ModelCurve ModelPeriod ModelVec ModelQuad ModelCache ModelEdge ModelTurn ModelGc.
Local Open Scope nat_scope.

(** integrals_gc.c:38-53; acb_inv of 0 is not finite; 1/0 is 0 here *)
Fixpoint gc_nodes_run (root : R -> outcome C) (g : nat) (xs : list R) (res : vec) : outcome vec :=
  match xs with
  | [] => Done res
  | x :: xs =>
      do y <- root x;
      do r <- add_geom res 0 g (/ y)%C (RtoC x);
      do y <- root (- x)%R;
      do r <- add_geom (fst r) 0 g (/ y)%C (RtoC (- x));
      gc_nodes_run root g xs (fst r)
  end.
(** integrals_gc.c:9-84 *)
Definition gc_integrals_run (rdef rturn : bool) (u : vec) (d1 d g n : nat) (xs : list R) : outcome vec :=
  do res <- gc_nodes_run (gc_root rdef rturn u d1 d) g xs (vtab g (fun _ => RtoC 0));
  do res <- (if n mod 2 =? 0 then Done res
             else
               do y <- sqrt_def u d1 d 0;
               do a <- vread res 0;
               vwrite res 0 (a + / y)%C);
  scalar_mul res 0 g (RtoC (PI / INR n)).
(** integrals_gc.c:95-108: moments, radius that is added to each of them, and number of points
    of the scheme left in [gc]; [cached] is the number of points found there *)
Definition edge_moments_gc (rdef rturn : bool) (fuel : nat) (c : sec) (cached : Z) (ye : ydata) (prec : Z)
  : outcome (vec * option R * Z) :=
  let d := Z.to_nat (sec_n c - 2) in
  let g := Z.to_nat (sec_g c) in
  do p <- gc_params fuel (firstn d (y_u ye)) g prec;
  let '(n, e, _) := p in
  do s <- gc_scheme c cached n;
  do xs <- gc_int_init (Z.to_nat s);
  do v <- gc_integrals_run rdef rturn (y_u ye) (y_n1 ye) d g (Z.to_nat s) xs;
  Done (v, e, s).
(** integrals_gc.c:109-111: the value returned when the moments are [v] *)
Definition edge_result_gc (c : sec) (ye : ydata) (v : vec) : outcome vec :=
  integrals_edge_factors v (y_ba2 ye) (y_ab ye) (y_c ye) c.
(** integrals_gc.c:120-139: moments and radii of all the edges; [keys] are the radii the edges are
    sorted by, [rows] the matrix before *)
Definition tree_moments_gc {Key : Type} (qsort : list (Key * nat) -> list (Key * nat)) (rdef rturn : bool) (fuel : nat) (c : sec)
    (ys : list ydata) (prec : Z) (keys : list Key) (rows : list (vec * option R)) : outcome (list (vec * option R)) :=
  integrals_tree 0%Z
    (fun s k => do r <- edge_moments_gc rdef rturn fuel c s (nth k ys no_ydata) prec; let '(v, e, s) := r in Done ((v, e), s))
    qsort keys rows.
