(** Spanning trees of points of the plane, by length. *)
From Coq Require Import Permutation.
From Verif Require Import CArg ModelTree ModelPeriod ModelMaTree SpecTree SpecEdge SpecDeq SpecInter SpecCross SpecGc SpecFree ModelDeq.
Local Open Scope R_scope.

(** contract of Sort: a permutation in which no two elements are in the wrong order; for equal
    lengths the comparison has no answer (it is 1 both ways) and any order is allowed *)
Definition in_order (l : list tedge) : Prop :=
  forall i j e f, (i < j)%nat -> nth_error l i = Some e -> nth_error l j = Some f -> ~ (compare_edge e f = 1%Z /\ compare_edge f e = (-1)%Z).
Definition sort_ok (sort : list tedge -> list tedge) : Prop :=
  forall l, Permutation l (sort l) /\ in_order (sort l).

(** the tree as a list of edges *)
Definition plain (e : tedge) : edge := {| er := None; ea := t_a e; eb := t_b e |}.
Definition plains (l : list tedge) : list edge := map plain l.

(** length of an edge, of a list of edges *)
Definition edge_length (x : list C) (e : edge) : R := Cmod (vget x (eb e) - vget x (ea e))%C.
Definition total_length (x : list C) (l : list edge) : R := fold_right (fun e s => edge_length x e + s) 0 l.

(** low precision points [p] and points [x]: of two sides of a triangle the longer one is the
    longer one for both *)
Definition same_sides (p x : list C) : Prop :=
  length p = length x /\
  forall i j k, (i < length x)%nat -> (j < length x)%nat -> (k < length x)%nat ->
    Cmod (vget x k - vget x i)%C < Cmod (vget x j - vget x i)%C -> Cmod (vget p k - vget p i)%C < Cmod (vget p j - vget p i)%C.

(** how far a point is from the segment from -1 to 1: the half sum of its axes for the ellipse through
    the point with foci -1 and 1, or the height of its image in the strip *)
Definition gauge (ty : itype) : C -> R := match ty with DE => de_tau | GJ => half_sum end.
(** r is the least of 5 and of the gauges of the other points *)
Definition least_gauge (ty : itype) (p : list C) (a b : nat) (r : R) : Prop :=
  r <= 5 /\ (forall k, (k < length p)%nat -> k <> a -> k <> b -> r <= gauge ty (position p a b k)) /\
  (r = 5 \/ exists k, (k < length p)%nat /\ k <> a /\ k <> b /\ r = gauge ty (position p a b k)).
