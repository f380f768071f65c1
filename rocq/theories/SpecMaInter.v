(** The sheets that belong to the data of the edges of the Magma package. *)
From Verif Require Import CArg ModelPeriod ModelMaRoot SpecMaRoot ModelMaInter.
Local Open Scope R_scope.

(** the product of the stored constant and of the root of the other factors, w at the point t of edge
    k, gives the sheet Y k: with the two factors of the ends and the power of 2 that the coordinate t
    takes out of the other ones.  At the ends it gives the directions ya and yb *)
Definition data_sheets (m n : nat) (ds : list se_edge) (ya yb : nat -> C) (Y : nat -> R -> C) : Prop :=
  let two := RtoC (rroot (Z.of_nat m) (/ 2 ^ n)) in
  forall k d, nth_error ds k = Some d -> exists w : R -> C,
    (forall t, -1 <= t <= 1 -> end_value t d (zetas m) m n = Done (w t) /\
       Y k t = (RtoC (rroot (Z.of_nat m) (1 - t * t)) * (two * w t))%C) /\
    ya k = (two * w (-1)%R)%C /\ yb k = (two * w 1%R)%C.
