(** Vocabulary for the sums over an edge of the Magma package. *)
From Coquelicot Require Import Coquelicot.
From Verif Require Import CArg SpecEdge.
Local Open Scope R_scope.

(** Y is a continuous choice of y over the edge from x_a to x_b *)
Definition branch_over_edge (x : list C) (a b m : nat) (Y : R -> C) : Prop :=
  (forall t, -1 < t < 1 -> continuous (fun t => fst (Y t)) t /\ continuous (fun t => snd (Y t)) t) /\
  forall t, -1 <= t <= 1 -> cpow (Y t) m = poly_at x (edge_point (vget x a) (vget x b) (RtoC t)).

(** the differential x^i dx/y^j on this branch, as a function of t *)
Definition form_on_edge (x : list C) (a b : nat) (Y : R -> C) (j i : nat) (t : R) : C :=
  ((vget x b - vget x a) / RtoC 2 * cpow (edge_point (vget x a) (vget x b) (RtoC t)) i / cpow (Y t) j)%C.

(** symmetric rule with N nodes: 0 if N is odd, and plus and minus the first N/2 of xs *)
Definition sym_rule (N : nat) (xs ws : list R) (G : R -> C) : C :=
  (csum (N / 2) (fun t => RtoC (nth t ws 0) * (G (nth t xs 0) + G (- nth t xs 0)%R)) +
   (if (N mod 2 =? 0)%nat then RtoC 0 else RtoC (nth (N / 2) ws 0) * G 0))%C.
