(** Euler's Gamma function on the positive reals, by the characterization of Bohr and Mollerup. *)
From Coq Require Import Reals.
Local Open Scope R_scope.

Definition is_gamma (G : R -> R) : Prop :=
  (forall s, 0 < s -> 0 < G s) /\ G 1 = 1 /\ (forall s, 0 < s -> G (s + 1) = s * G s) /\
  forall s t l, 0 < s -> 0 < t -> 0 <= l <= 1 ->
    ln (G (l * s + (1 - l) * t)) <= l * ln (G s) + (1 - l) * ln (G t).
