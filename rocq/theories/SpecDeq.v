(** Integrals of x^i dx / y^j along an edge of a curve y^m = prod (x - x_k), and periods over the
    elementary cycle of the edge. *)
From Verif Require Import CArg ModelCurve ModelPeriod SpecPeriod SpecEdge SpecErr SpecTurn.
Local Open Scope R_scope.

(** Y is a continuous choice of a root y of y^m = prod (X - x_k) over the segment from a to b, with
    Y(t) / (1 - t^2)^(1/m) continuous up to the end points, where it is ya and yb *)
Definition branch_over (m : nat) (x : list C) (a b ya yb : C) (Y : R -> C) : Prop :=
  exists Z : R -> C, Z (-1) = ya /\ Z 1 = yb /\
    (forall t, -1 <= t <= 1 -> continuous (fun t => fst (Z t)) t /\ continuous (fun t => snd (Z t)) t) /\
    forall t, -1 <= t <= 1 -> Y t = (RtoC (rroot (Z.of_nat m) (1 - t * t)) * Z t)%C /\ cpow (Y t) m = poly_at x (edge_point a b (RtoC t)).
(** I is the integral from a to b of X^i dX / Y^j *)
Definition integral_over (a b : C) (Y : R -> C) (j i : nat) (I : C) : Prop :=
  is_int (fun t => (b - a) / RtoC 2 * (cpow (edge_point a b (RtoC t)) i / cpow (Y t) j))%C I.
(** w holds the integrals of the holomorphic differentials x^i dx / y^j of the curve over the
    elementary cycle: from a to b on the sheet of Y, and back on the sheet of zeta Y *)
Definition cycle_integrals (m : nat) (c : sec) (x : list C) (a b ya yb : C) (w : list C) : Prop :=
  exists Y, branch_over m x a b ya yb Y /\
    forall q i, (q < length (sec_ni c))%nat -> (Z.of_nat i < nth q (sec_ni c) 0)%Z ->
      let j := Z.to_nat (sec_j1 c + Z.of_nat q) in
      exists I1 I2, integral_over a b Y j i I1 /\ integral_over a b (fun t => root (Z.of_nat m) 1 * Y t)%C j i I2 /\
        vget w (offset (sec_ni c) q + i) = (I1 - I2)%C.
(** 2^(-p (m-j)/(m-1)): the precision p for j = 1, less for the other exponents *)
Definition de_rate (m j p : Z) : R := Rpower 2 (- (IZR p * IZR (m - j) / IZR (m - 1))).
(** no point of x but a and b lies on the segment from a to b *)
Definition free_segment (x : list C) (a b : C) : Prop :=
  forall t, -1 < t < 1 -> ~ In (edge_point a b (RtoC t)) x.
(** the evaluation of roots asked for is not the one by quadrants, or the latter is safe: the
    product of the factors is never a negative number *)
Definition safe_roots (rdef rprod rturn : bool) (prec : Z) (u : list C) (d1 : nat) : Prop :=
  rdef = true \/ rprod = true \/ (rturn = false /\ ((prec <= 1000)%Z \/ (length u <= 5)%nat)) \/
  forall t, -1 < t < 1 -> ~ negative_real (SpecTurn.cprod (factors u d1 (length u) t)).
