(** Specification for C44: ellipses with foci -1, 1 and the published bound
    (doc/sec_paper/NumericalIntegration.tex:239-336). *)
From Coq Require Import Reals.
From Verif Require Import CArg.
Local Open Scope R_scope.

(** half sum of the distances to the foci: the ellipse through z has parameter acosh of it *)
Definition half_sum (z : C) : R := (Cmod (z - RtoC 1)%C + Cmod (z + RtoC 1)%C) / 2.
(** no branch point in the closed ellipse of half sum r *)
Definition avoids (r : R) (u : list C) : Prop := Forall (fun z => r < half_sum z) u.
(** modulus of z^i / sqrt(prod (z - u_k)) *)
Definition integrand (u : list C) (i : nat) (z : C) : R :=
  Cmod z ^ i / sqrt (fold_right Rmult 1 (map (fun w => Cmod (z - w)%C) u)).
(** published error bound for an integrand bounded by M on the ellipse cosh(rho), N points *)
Definition gc_bound (M rho : R) (N : Z) : R := 2 * PI * M / (exp (2 * rho * IZR N) - 1).
(** The points are outside the segment [-1,1] and not too far from it for the precision: the
    product of the half sums is at most 4^prec r^(2d), r the smallest one. *)
Definition within_reach (d : nat) (prec : Z) (u : list C) : Prop :=
  (0 < prec)%Z /\ Forall (fun z => 1 < half_sum z /\ fold_right Rmult 1 (map half_sum u) <= Rpower 4 (IZR prec) * half_sum z ^ (2 * d)) u.
