(** What the constant M2 rests on and what it is for. *)
From Coq Require Import Reals List.
From Verif Require Import CArg ModelMag SpecMag SpecDe.
Local Open Scope R_scope.

(** f gives enclosures of the values of F, and says no when a value might not exist *)
Definition encloses_some (f : ball -> option ball) (F : R -> option R) : Prop :=
  forall t y, f t = Some y -> forall x, inb x t -> exists v, F x = Some v /\ inb v y.
(** the points u are outside the image of the strip |Im w| <= r *)
Definition outside (l r : R) (u : list C) : Prop :=
  forall p, In p u -> p <> RtoC 1 /\ p <> RtoC (-1) /\ ~ in_strip_image l r p.
(** smallest possible modulus of x on the image of the lines |Im w| = r, or 1 *)
Definition low (l r : R) : R := Rmin 1 (tan (l * sin r)).
(** every number of the ball is at most this *)
Definition upper (b : ball) : R := fst b + snd b.
