(** Riemann matrices: what the small period matrix of a curve has to be. *)
From Coq Require Import Reals.
From Verif Require Import CBase ModelPeriod.
Local Open Scope R_scope.

Fixpoint rsum (n : nat) (f : nat -> R) : R := match n with O => 0 | S k => rsum k f + f k end.

(** entry (i, k) of a matrix *)
Definition entry (a : cmat) (i k : nat) : C := vget (nth i a []) k.

(** no non-trivial combination of the rows vanishes *)
Definition nonsingular (g : nat) (a : nat -> nat -> C) : Prop :=
  forall v : nat -> C, (forall k, (k < g)%nat -> csum g (fun i => (v i * a i k)%C) = RtoC 0) ->
    forall i, (i < g)%nat -> v i = RtoC 0.

(** a * x = b for g x g matrices *)
Definition solves (g : nat) (a x b : nat -> nat -> C) : Prop :=
  forall i k, (i < g)%nat -> (k < g)%nat -> csum g (fun l => (a i l * x l k)%C) = b i k.

(** symmetric with positive definite imaginary part: a point of the Siegel upper half space *)
Definition riemann_matrix (g : nat) (tau : nat -> nat -> C) : Prop :=
  (forall i k, (i < g)%nat -> (k < g)%nat -> tau i k = tau k i) /\
  (forall v : nat -> R, (exists i, (i < g)%nat /\ v i <> 0) ->
    0 < rsum g (fun i => rsum g (fun k => v i * v k * snd (tau i k)))).
