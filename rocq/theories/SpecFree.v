(** Weights of the edges of the tree, compared as exact numbers. *)
From Verif Require Import CArg ModelTree SpecEdge.
Local Open Scope R_scope.

(** position of x_k with respect to the edge from x_i, at -1, to x_j, at 1 *)
Definition position (x : list C) (i j k : nat) : C := ((RtoC 2 * vget x k - (vget x j + vget x i)) / (vget x j - vget x i))%C.
(** a test point of an edge *)
Definition triple (x : list C) (i j k : nat) : Prop := (i < length x)%nat /\ (j < length x)%nat /\ (k < length x)%nat /\ i <> j /\ k <> i /\ k <> j.
(** [param] is a number for each test point of each edge, and these numbers compare as the
    values of [f] at the positions of the points *)
Definition ordered_by (f : C -> R) (x : list C) (param : nat -> nat -> nat -> dbl) : Prop :=
  (forall i j k, exists z, param i j k = Some z /\ (0 <= z)%Z) /\
  forall i j k i' j' k', triple x i j k -> triple x i' j' k' ->
    (dlt (param i j k) (param i' j' k') = true <-> f (position x i j k) < f (position x i' j' k')).
(** the same up to an error [eps]: numbers compare as the values of [f] when these differ by more
    than [eps], as they do when [param i j k] is within [eps / 2] of [f (position x i j k)] *)
Definition ordered_within (eps : R) (f : C -> R) (x : list C) (param : nat -> nat -> nat -> dbl) : Prop :=
  (forall i j k, exists z, param i j k = Some z /\ (0 <= z)%Z) /\
  forall i j k i' j' k', triple x i j k -> triple x i' j' k' ->
    f (position x i j k) + eps < f (position x i' j' k') -> dlt (param i j k) (param i' j' k') = true.
(** x_k is inside the edge from x_i to x_j *)
Definition inside (x : list C) (i j k : nat) : Prop := exists t, -1 < t < 1 /\ position x i j k = RtoC t.
(** x_k is not on the edge from x_i to x_j *)
Definition off (x : list C) (i j k : nat) : Prop := forall t, -1 <= t <= 1 -> position x i j k <> RtoC t.
(** points inside an edge have smaller numbers than points that are not on an edge; nothing is
    said about the order of the others *)
Definition tells_apart (x : list C) (param : nat -> nat -> nat -> dbl) : Prop :=
  (forall i j k, exists z, param i j k = Some z /\ (0 <= z)%Z) /\
  forall i j k i' j' k', triple x i j k -> triple x i' j' k' -> inside x i j k -> off x i' j' k' -> dlt (param i j k) (param i' j' k') = true.
