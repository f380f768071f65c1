(** The curve y^m = f(x) for a polynomial f given by its coefficients, lowest degree first, and the
    integrals of its differentials over an edge. *)
From Verif Require Import CArg ModelCurve ModelPeriod SpecPeriod SpecEdge SpecErr SpecDeq.
Local Open Scope R_scope.

Definition poly_value (f : list Z) (t : C) : C := fold_right (fun a v => ZC a + t * v)%C (RtoC 0) f.
Definition leading (f : list Z) : Z := nth (Z.to_nat (degree f)) f 0%Z.
(** contract of the root finder *)
Definition roots_of (f : list Z) (x : list C) : Prop :=
  degree f = Z.of_nat (length x) /\ forall t, poly_value f t = (ZC (leading f) * poly_at x t)%C.

(** Y is a continuous choice of a root y of y^m = f(X) over the segment from a to b, with
    Y(t) / (1 - t^2)^(1/m) continuous up to the end points, where it is ya and yb *)
Definition sheet_over (m : nat) (f : list Z) (a b ya yb : C) (Y : R -> C) : Prop :=
  exists Z : R -> C, Z (-1) = ya /\ Z 1 = yb /\
    (forall t, -1 <= t <= 1 -> continuous (fun t => fst (Z t)) t /\ continuous (fun t => snd (Z t)) t) /\
    forall t, -1 <= t <= 1 -> Y t = (RtoC (rroot (Z.of_nat m) (1 - t * t)) * Z t)%C /\ cpow (Y t) m = poly_value f (edge_point a b (RtoC t)).
(** w holds the integrals of the holomorphic differentials x^i dx / y^j of the curve y^m = f(x) over
    the elementary cycle: from a to b on the sheet of Y, and back on the sheet of zeta Y *)
Definition curve_integrals (m : nat) (c : sec) (f : list Z) (a b ya yb : C) (w : list C) : Prop :=
  exists Y, sheet_over m f a b ya yb Y /\
    forall q i, (q < length (sec_ni c))%nat -> (Z.of_nat i < nth q (sec_ni c) 0)%Z ->
      let j := Z.to_nat (sec_j1 c + Z.of_nat q) in
      exists I1 I2, integral_over a b Y j i I1 /\ integral_over a b (fun t => root (Z.of_nat m) 1 * Y t)%C j i I2 /\
        vget w (offset (sec_ni c) q + i) = (I1 - I2)%C.
