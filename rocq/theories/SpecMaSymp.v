(** What the Magma package expects of a symplectic basis: the first g rows are the
    A-cycles, the next g the B-cycles, the others the radical. *)
From Verif Require Import Base ModelSymp SpecSymp.

(** entry (i, j) of the standard form: identity above, minus identity below *)
Definition standard (g i j : nat) : Z :=
  if ((i <? g) && (j =? i + g))%nat then 1
  else if ((j <? g) && (i =? j + g))%nat then -1 else 0.

(** the rows of st form a symplectic basis for the form k of rank 2g: their
    intersection numbers are those of the standard form, completed by zeros *)
Definition is_symplectic_basis (r g : nat) (k st : mat) : Prop :=
  exists j, congruent r st k j /\
    forall a b, (a < r)%nat -> (b < r)%nat -> get j a b = standard g a b.
