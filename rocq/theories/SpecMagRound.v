(** What is assumed of the ball sum, and the radii that exist. *)
From Coq Require Import Reals.
From Flocq Require Import Core.
From Verif Require Import Base ModelMag SpecMag.
Local Open Scope R_scope.

(** a radius: 30 bits and an exponent *)
Definition is_mag (x : R) : Prop := exists M E, (2 ^ 29 <= M < 2 ^ 30)%Z /\ x = IZR M * bpow radix2 E.

(** arb_add_arf: errors of at most 2^-40 for balls near 1 *)
Definition near_add (add : ball -> R -> ball) : Prop :=
  forall t s, Rabs (fst t) <= 2 -> Rabs s <= 1 -> 
    Rabs (fst (add t s) - (fst t + s)) <= / IZR (2 ^ 40) /\ snd (add t s) <= snd t + / IZR (2 ^ 40).

(** arb_add_arf: the radius is a mag, at least the old one, and pays for the error on the middle *)
Definition good_add (add : ball -> R -> ball) : Prop :=
  sound_add add /\ forall t s, is_mag (snd t) ->
    is_mag (snd (add t s)) /\ snd t <= snd (add t s) /\ Rabs (fst (add t s) - (fst t + s)) <= / 2 ^ 62 * (Rabs (fst t + s)).

