(** Moebius transformations and hyperelliptic curves. *)
From Verif Require Import CArg ModelTree SpecEdge.
Local Open Scope C_scope.

Definition moebius (a b c d x : C) : C := (a * x + b) / (c * x + d).
(** For y^2 = f(x) with f of degree 2e-1 or 2e, (X, Y) = ((ax+b)/(cx+d), y / (cx+d)^e) is, up to a constant
    factor of Y, on the curve with the branch points B *)
Definition carries (a b c d : C) (e : nat) (A B : list C) : Prop :=
  exists K, K <> RtoC 0 /\ forall x y, c * x + d <> RtoC 0 -> y * y = poly_at A x ->
    let X := moebius a b c d x in let Y := y / cpow (c * x + d) e in K * (Y * Y) = poly_at B X.
