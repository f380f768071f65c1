(** Vocabulary for the points at infinity of y^m = lc prod (x - x_i), with n points x_i, delta = gcd(m,n),
    m = M delta, n = N delta. *)
From Verif Require Import CArg ModelTree ModelVec ModelPeriod ModelMaDivisor SpecMaDivisor SpecEdge.
Local Open Scope nat_scope.

Definition on_curve (m : nat) (lc : C) (x : list C) (X Y : C) : Prop := cpow Y m = (lc * poly_at x X)%C.
(** the functions r = y^M / x^N and t = x^a' / y^b with bN - a'M = 1 on the curve, for y divided by w, w^m = lc.
    At the point k at infinity r is the k-th power of the root of unity of order delta and t is zero *)
Definition fun_r (M N : nat) (w X Y : C) : C := (cpow (Y / w) M / cpow X N)%C.
Definition fun_t (a' b : nat) (w X Y : C) : C := (cpow X a' / cpow (Y / w) b)%C.

(** sums over the points at infinity, the ramification points, the points over zero *)
Definition at_infinity (delta : nat) (v : Z) : list (point * Z) := map (fun k => (PInf (Z.of_nat k), v)) (seq 1 delta).
Definition ramified (x : list C) (v : Z) : list (point * Z) := map (fun p => (PFin p (RtoC 0), v)) x.
Definition over_zero (m : nat) (y0 : C) (v : Z) : list (point * Z) :=
  map (fun l => (PFin (RtoC 0) (root (Z.of_nat m) (Z.of_nat l) * y0)%C, v)) (seq 0 m).

(** phi, extended to divisors, is zero modulo integers on the divisors of the functions x - x_i and y *)
Definition kills_coordinates (m : nat) (x : list C) (delta M N : nat) (phi : point -> R) : Prop :=
  (forall p, In p x -> integer (extend phi ((PFin p (RtoC 0), Z.of_nat m) :: at_infinity delta (- Z.of_nat M)))) /\
  integer (extend phi (ramified x 1 ++ at_infinity delta (- Z.of_nat N))).
(** the divisor of r - r(k) - t, whose affine zeros are zs: if zero is not a branch point and y0 is a value
    of y over it, and if zero is a branch point *)
Definition line_divisor (m : nat) (x : list C) (M N b : nat) (k : nat) (y0 : C) (zs : list (C * C)) : list (point * Z) :=
  map (fun z => (PFin (fst z) (snd z), 1%Z)) zs ++ [(PInf (Z.of_nat k), 1%Z)] ++
  (if in_dec Ceq_dec (RtoC 0) x
   then ramified (remove Ceq_dec (RtoC 0) x) (- Z.of_nat b) ++ [(PFin (RtoC 0) (RtoC 0), - (Z.of_nat N * Z.of_nat m - Z.of_nat M))%Z]
   else ramified x (- Z.of_nat b) ++ over_zero m y0 (- Z.of_nat N)).
(** the same for the divisor of x, if zero is not a branch point *)
Definition kills_line (m : nat) (x : list C) (delta M N b k : nat) (y0 : C) (zs : list (C * C)) (phi : point -> R) : Prop :=
  (~ In (RtoC 0) x -> integer (extend phi (over_zero m y0 1 ++ at_infinity delta (- Z.of_nat M)))) /\
  integer (extend phi (line_divisor m x M N b k y0 zs)).
