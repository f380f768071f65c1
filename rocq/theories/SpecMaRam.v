(** Vocabulary for the reduction modulo periods in the Magma package. *)
From Verif Require Import CArg ModelTree ModelVec ModelPeriod ModelMaPeriod.
Local Open Scope R_scope.

(** v is an integer combination of the 2g columns of the period matrix *)
Definition in_lattice (g : nat) (big : cmat) (v : nat -> C) : Prop :=
  exists N : nat -> Z, forall i, (i < g)%nat -> v i = csum (2 * g) (fun k => mget big i k * RtoC (IZR (N k)))%C.
(** BestApproximation: the nearest fraction with denominator at most m *)
Definition best_ok (best : nat -> R -> R) : Prop :=
  forall m v, (1 <= m)%nat -> exists (a : Z) (b : nat), (1 <= b <= m)%nat /\ best m v = IZR a / INR b /\
    forall (a' : Z) (b' : nat), (1 <= b' <= m)%nat -> Rabs (v - best m v) <= Rabs (v - IZR a' / INR b').
