(** Improper integrals over ]-1,1[ of complex functions, component by component, and integrals
    of x^i dx / y along an edge. *)
From Verif Require Import CArg SpecEdge.
From Coquelicot Require Export Hierarchy RInt RInt_gen Continuity.
Local Open Scope R_scope.

Definition is_int (f : R -> C) (I : C) : Prop :=
  is_RInt_gen (fun t => fst (f t)) (at_right (-1)) (at_left 1) (fst I) /\
  is_RInt_gen (fun t => snd (f t)) (at_right (-1)) (at_left 1) (snd I).

(** Y is a continuous choice of a root y of y^2 = prod (X - x_k) over the open segment from a to b,
    with Y(t) / sqrt(1 - t^2) continuous up to the end points, where it is ya and yb *)
Definition is_branch (x : list C) (a b ya yb : C) (Y : R -> C) : Prop :=
  exists Z : R -> C, Z (-1) = ya /\ Z 1 = yb /\
    (forall t, -1 <= t <= 1 -> continuous (fun t => fst (Z t)) t /\ continuous (fun t => snd (Z t)) t) /\
    forall t, -1 <= t <= 1 -> Y t = (RtoC (sqrt (1 - t * t)) * Z t)%C /\ (Y t * Y t)%C = poly_at x (edge_point a b (RtoC t)).
(** I is the integral from a to b of X^i dX / Y *)
Definition is_edge_integral (a b : C) (Y : R -> C) (i : nat) (I : C) : Prop :=
  is_int (fun t => (b - a) / RtoC 2 * (cpow (edge_point a b (RtoC t)) i / Y t))%C I.
(** w holds twice the integrals of X^i dX / Y, i < g, for one branch Y with the limits ya, yb *)
Definition edge_integrals (x : list C) (a b ya yb : C) (g : Z) (w : list C) : Prop :=
  exists Y, is_branch x a b ya yb Y /\
    forall i, (Z.of_nat i < g)%Z -> exists I, is_edge_integral a b Y i I /\ nth i w (RtoC 0) = (RtoC 2 * I)%C.
(** balls of radius e around the entries of v contain those of w *)
Definition within (e : R) (v w : list C) : Prop :=
  length w = length v /\ forall k, (k < length v)%nat -> Cmod (nth k v (RtoC 0) - nth k w (RtoC 0))%C <= e.
