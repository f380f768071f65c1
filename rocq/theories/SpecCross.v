(** Intersection numbers of the loops lifted over the edges of a tree, on the surface
    y^m = prod (x - x_k).  The loop of the edge from a to b on sheet u goes from a to b on the
    sheet of zeta^u Y and comes back on the sheet of zeta^(u+1) Y. *)
From Coq Require Import Reals.
From Coquelicot Require Import Complex.
From Verif Require Import CArg ModelTree ModelPeriod ModelSymp SpecSymp SpecInter SpecEdge SpecDeq.
Local Open Scope R_scope.

(** ** at a branch point, where y is a coordinate of the surface *)
Definition along (z : C) (th : R) : Prop := z <> RtoC 0 /\ z = (RtoC (Cmod z) * cis th)%C.
(** turning counterclockwise from the ray through p one meets q before r *)
Definition ccw (p q r : C) : Prop :=
  exists a b c, a < b < c /\ c < a + 2 * PI /\ along p a /\ along q b /\ along r c.
(** a path comes along the ray through [fst p] and leaves along the ray through [snd p]: on its
    right the rays met turning counterclockwise from [fst p] to [snd p], on its left the others.
    Crossings of p by q: 1 from the right to the left, -1 from the left to the right, 0 if q
    stays on one side *)
Definition crossing (p q : C * C) (n : Z) : Prop :=
  let right z := ccw (fst p) z (snd p) in let left z := ccw (snd p) z (fst p) in
  (n = 1%Z /\ right (fst q) /\ left (snd q)) \/ (n = (-1)%Z /\ left (fst q) /\ right (snd q)) \/
  (n = 0%Z /\ ((right (fst q) /\ right (snd q)) \/ (left (fst q) /\ left (snd q)))).
(** the loop of e on sheet u goes through its two ends, ya and yb giving the directions of Y *)
Definition passes (m : Z) (e : edge) (ya yb : C) (u : Z) : list (nat * (C * C)) :=
  [(ea e, (root m (u + 1) * ya, root m u * ya)%C); (eb e, (root m u * yb, root m (u + 1) * yb)%C)].
(** the same path moved to its left by a small angle *)
Definition pushed (eps : R) (p : nat * (C * C)) : nat * (C * C) :=
  (fst p, (fst (snd p) * cis (- eps), snd (snd p) * cis eps)%C).
Inductive crossings : list ((nat * (C * C)) * (nat * (C * C))) -> Z -> Prop :=
| cr_nil : crossings [] 0
| cr_other p q l n : fst p <> fst q -> crossings l n -> crossings ((p, q) :: l) n
| cr_same p q l k n : fst p = fst q -> crossing (snd p) (snd q) k -> crossings l n -> crossings ((p, q) :: l) (k + n).

(** ** at a point where two edges cross *)
Definition turn_sign (p q : C) : Z :=
  let d := fst p * snd q - snd p * fst q in if Rlt_dec 0 d then 1 else if Rlt_dec d 0 then -1 else 0.
(** the lifts that are at the same point of the surface, with the directions of the loops *)
Definition lifts (m : Z) (y y' : C) (u v : Z) : Z :=
  let same s s' := if Ceq_dec (root m s * y)%C (root m s' * y')%C then 1%Z else 0%Z in
  (same u v + same (u + 1) (v + 1) - same u (v + 1) - same (u + 1) v)%Z.
Inductive crossings_inside (m : Z) (a b : C) (Y : R -> C) (u : Z) (a' b' : C) (Y' : R -> C) (v : Z) : Z -> Prop :=
| ci_none : (forall t t', -1 < t < 1 -> -1 < t' < 1 -> edge_point a b (RtoC t) <> edge_point a' b' (RtoC t')) ->
    crossings_inside m a b Y u a' b' Y' v 0
| ci_one t t' : -1 < t < 1 -> -1 < t' < 1 -> edge_point a b (RtoC t) = edge_point a' b' (RtoC t') ->
    turn_sign (b - a)%C (b' - a')%C <> 0%Z ->
    crossings_inside m a b Y u a' b' Y' v (turn_sign (b - a)%C (b' - a')%C * lifts m (Y t) (Y' t') u v)%Z.

(** N is the intersection number of the loop of e on sheet u with that of e' on sheet v, moved to
    its left so that the two have only crossings in common *)
Definition loop_number (m : Z) (x : list C) (e : edge) (ya yb : C) (Y : R -> C) (u : Z)
    (e' : edge) (ya' yb' : C) (Y' : R -> C) (v : Z) (N : Z) : Prop :=
  exists N1 N2, N = (N1 + N2)%Z /\
    (exists e0, 0 < e0 /\ forall eps, 0 < eps < e0 ->
       crossings (list_prod (passes m e ya yb u) (map (pushed eps) (passes m e' ya' yb' v))) N1) /\
    (if ((ea e =? ea e') && (eb e =? eb e'))%nat then N2 = 0%Z
     else crossings_inside m (vget x (ea e)) (vget x (eb e)) Y u (vget x (ea e')) (vget x (eb e')) Y' v N2).

(** ** all the edges *)
(** two edges have no common point but, perhaps, an end of one of them *)
Definition edges_apart (x : list C) (es : list edge) : Prop :=
  forall k l t t', (k < l < length es)%nat -> -1 < t < 1 -> -1 < t' < 1 ->
    edge_point (vget x (ea (nth k es no_edge))) (vget x (eb (nth k es no_edge))) (RtoC t) <>
    edge_point (vget x (ea (nth l es no_edge))) (vget x (eb (nth l es no_edge))) (RtoC t').
(** Y k is a continuous root over edge k, with directions ya k and yb k at the ends *)
Definition sheets (m : nat) (x : list C) (es : list edge) (ya yb : nat -> C) (Y : nat -> R -> C) : Prop :=
  forall k, (k < length es)%nat ->
    branch_over m x (vget x (ea (nth k es no_edge))) (vget x (eb (nth k es no_edge))) (ya k) (yb k) (Y k).
(** T is the matrix of intersection numbers of the loops of the edges; loop u of edge k is row
    k(m-1)+u *)
Definition loop_matrix (m : nat) (x : list C) (es : list edge) (ya yb : nat -> C) (Y : nat -> R -> C) (T : mat) : Prop :=
  antisymmetric (length es * (m - 1))%nat T /\
  forall k l u v, (k <= l < length es)%nat -> (u < m - 1)%nat -> (v < m - 1)%nat ->
    loop_number (Z.of_nat m) x (nth k es no_edge) (ya k) (yb k) (Y k) (Z.of_nat u)
      (nth l es no_edge) (ya l) (yb l) (Y l) (Z.of_nat v) (get T (k * (m - 1) + u)%nat (l * (m - 1) + v)%nat).
