(** Vocabulary for the points at infinity of y^m = lc prod (x - x_i) when m divides the number of points n = N m. *)
From Verif Require Import CArg ModelTree ModelVec ModelPeriod ModelMaPoint ModelMaDivisor SpecMaDivisor SpecMaInfty SpecEdge.
Local Open Scope nat_scope.

(** the points over x with y multiplied by the k-th power of the root of unity of order m *)
Definition sheet (m k : nat) (z : C * C) : point := PFin (fst z) (root (Z.of_nat m) (Z.of_nat k) * snd z)%C.
(** the divisor of y / (w x^N) - r(k), where w^m = lc and the affine zeros are on sheet k over zs *)
Definition circle_divisor (m : nat) (x : list C) (N k : nat) (y0 : C) (zs : list (C * C)) : list (point * Z) :=
  map (fun z => (sheet m k z, 1%Z)) zs ++ [(PInf (Z.of_nat k), 1%Z)] ++
  (if in_dec Ceq_dec (RtoC 0) x then [(PFin (RtoC 0) (RtoC 0), - (Z.of_nat N * Z.of_nat m - 1))%Z] else over_zero m y0 (- Z.of_nat N)).
(** phi vanishes on it, and on the divisor of x if zero is not a branch point *)
Definition kills_circle (m : nat) (x : list C) (N k : nat) (y0 : C) (zs : list (C * C)) (phi : point -> R) : Prop :=
  (~ In (RtoC 0) x -> integer (extend phi (over_zero m y0 1 ++ at_infinity m (-1)))) /\
  integer (extend phi (circle_divisor m x N k y0 zs)).
(** phi of a point is, up to integers, phi of the next branch point and the coordinates of the integral from it; on
    sheet k the differential number l is multiplied by the power -k jp_l of the root of unity *)
Definition integrals_right (integ : C -> C -> nat -> nat -> C) (c : se_curve) (d : aj_data) (jpows : list Z) (k : nat) (i : nat)
  (phi : point -> R) (zs : list (C * C)) : Prop :=
  forall z j p r, In z zs -> nth_error (sc_pts c) j = Some p -> (forall q, In q (sc_pts c) -> (Cmod (fst z - p)%C <= Cmod (fst z - q)%C)%R) -> nth_error (aj_ram d) j = Some r ->
  integer (phi (sheet (sc_m c) k z) - (r i + (if Rlt_dec (sc_error c) (Cmod (fst z - p)%C)
    then coords (sc_g c) d (fun l => root (Z.of_nat (sc_m c)) (- Z.of_nat k * nth l jpows 0%Z) * integ (fst z) (snd z) j l)%C i else 0))).
