From Coq Require Export Permutation.
(** Vocabulary for the data of an edge. *)
From Verif Require Import CArg.

Fixpoint cprod {A} (f : A -> C) (l : list A) : C :=
  match l with [] => RtoC 1 | x :: l => (f x * cprod f l)%C end.

(** the monic polynomial with the given roots *)
Definition poly_at (roots : list C) (t : C) : C := cprod (fun r => (t - r)%C) roots.

Definition distinct (roots : list C) : Prop := NoDup roots.

(** coordinate of the edge: x = (b-a)/2 t + (a+b)/2, t in [-1,1] *)
Definition edge_point (a b t : C) : C := ((b - a) / RtoC 2 * t + (a + b) / RtoC 2)%C.

(** product of principal m-th roots: of (u_k - t) for the first n1 points, (t - u_k) for
    the others *)
Definition y_tilde (m : Z) (u : list C) (n1 : nat) (t : C) : C :=
  (cprod (fun p => croot m (p - t)%C) (firstn n1 u) * cprod (fun p => croot m (t - p)%C) (skipn n1 u))%C.
