(** Quadrature rules. *)
From Coquelicot Require Export Hierarchy Derive RInt RInt_gen Continuity.
From Verif Require Import CArg.
Local Open Scope R_scope.

(** Gauss-Chebyshev nodes *)
Definition gc_node (n k : nat) : R := cos (INR (2 * k + 1) * PI / (2 * INR n)).
(** n-point Gauss-Chebyshev sum of f *)
Definition gc_rule (n : nat) (f : R -> C) : C := (RtoC (PI / INR n) * csum n (fun k => f (gc_node n k)))%C.

(** double exponential change of variable *)
Definition de_map (lambda u : R) : R := sinh (lambda * sinh u) / cosh (lambda * sinh u).
(** integrand t^i / ((1-t^2)^(1/m) y(t))^j on ]-1,1[ *)
Definition integrand (m : Z) (y : R -> C) (j i : nat) (t : R) : C :=
  (cpow (RtoC t) i / cpow (RtoC (rroot m (1 - t * t)) * y t) j)%C.
(** trapezoidal sum with step h, over |k| <= N, of f(phi(u)) phi'(u) *)
Definition de_rule (lambda h : R) (N : nat) (f : R -> C) : C :=
  (RtoC h * csum (2 * N + 1) (fun q =>
     let u := (IZR (Z.of_nat q - Z.of_nat N) * h)%R in
     f (de_map lambda u) * RtoC (Derive (de_map lambda) u)))%C.
