(** Coordinates modulo a lattice. *)
From Verif Require Import CArg ModelGpHc.
Local Open Scope R_scope.

(** t are the coordinates of z in the base of the columns of Om *)
Definition coordinates (g : nat) (Om : nat -> nat -> C) (t : nat -> R) (z : nat -> C) : Prop :=
  forall k, (k < g)%nat -> fst (z k) = lsum (2 * g) (fun i => t i * fst (Om k i)) /\ snd (z k) = lsum (2 * g) (fun i => t i * snd (Om k i)).
(** P is the inverse of the real matrix of the periods *)
Definition reduces (g : nat) (Om : nat -> nat -> C) (P : nat -> nat -> R) : Prop :=
  (forall i j, (i < 2 * g)%nat -> (j < 2 * g)%nat -> lsum (2 * g) (fun l => P i l * real_coords g (fun k => Om k j) l) = if (i =? j)%nat then 1 else 0).
Definition integral (m : R) : Prop := exists n : Z, m = IZR n.
(** same coordinates up to integers *)
Definition congruent (g : nat) (t u : nat -> R) : Prop := forall i, (i < 2 * g)%nat -> integral (t i - u i).
