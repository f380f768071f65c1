(** Intersection numbers of the cycles of one edge. *)
From Coq Require Import ZArith List.
From Verif Require Import ModelSymp SpecSymp.
Local Open Scope Z_scope.

(** r cycles, each the image of the one before by (x, y) -> (x, zeta y): only neighbours meet, once *)
Definition neighbours (r : nat) (k : mat) : Prop := square r k /\
  forall a b, (a < r)%nat -> (b < r)%nat -> get k a b = (if (b =? a + 1)%nat then 1 else if (a =? b + 1)%nat then -1 else 0).
