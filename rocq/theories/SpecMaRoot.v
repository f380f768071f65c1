(** Vocabulary for the Magma package: no other branch point lies on the segment of an edge. *)
From Verif Require Import CArg ModelTree SpecEdge.
Local Open Scope R_scope.

(** edge from a to b = x_i to x_j, points x_a + (x_b - x_a)(1 + t)/2 *)
Definition clear_edge (x : list C) (a b : nat) : Prop :=
  forall k t, (k < length x)%nat -> k <> a -> k <> b -> -1 <= t <= 1 ->
    vget x k <> edge_point (vget x a) (vget x b) (RtoC t).
