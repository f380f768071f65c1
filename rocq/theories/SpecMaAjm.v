(** Vocabulary for the integrals from a branch point to a point of the curve y^m = lc prod (x - x_k). *)
From Coquelicot Require Import Coquelicot.
From Verif Require Import CArg SpecEdge.
Local Open Scope R_scope.

(** Y is a continuous choice of y over the segment from xa to p, which ends in (p,py) *)
Definition path_to (x : list C) (m : nat) (lc xa p py : C) (Y : R -> C) : Prop :=
  (forall t, -1 <= t <= 1 -> continuous (fun t => fst (Y t)) t /\ continuous (fun t => snd (Y t)) t) /\
  (forall t, -1 <= t <= 1 -> cpow (Y t) m = (lc * poly_at x (edge_point xa p (RtoC t)))%C) /\
  Y 1 = py.

(** the differential x^i dx/y^j along this path, as a function of t *)
Definition form_along (xa p : C) (Y : R -> C) (j i : nat) (t : R) : C :=
  ((p - xa) / RtoC 2 * cpow (edge_point xa p (RtoC t)) i / cpow (Y t) j)%C.

(** no other branch point on the segment *)
Definition clear_to (x : list C) (a : nat) (p : C) : Prop :=
  forall k t, (k < length x)%nat -> k <> a -> -1 <= t <= 1 -> vget x k <> edge_point (vget x a) p (RtoC t).

(** rule with N nodes *)
Definition node_rule (N : nat) (xs ws : list R) (G : R -> C) : C := csum N (fun t => RtoC (nth t ws 0) * G (nth t xs 0))%C.
