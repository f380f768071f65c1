(** Specification for the points of a curve y^m = lc (x - p1) ... (x - pn) *)
From Verif Require Import CArg SpecEdge ModelMaPoint.
Local Open Scope R_scope.

Definition value_f (c : se_curve) (x : C) : C := (sc_lc c * poly_at (sc_pts c) x)%C.
Definition on_curve (c : se_curve) (x y : C) : Prop := cpow y (sc_m c) = value_f c x.

(** at least r away from every branch point *)
Definition away (c : se_curve) (r : R) (x : C) : Prop := forall p, In p (sc_pts c) -> r <= Cmod (x - p)%C.
Definition sensible (c : se_curve) : Prop := (2 <= sc_m c)%nat /\ sc_lc c <> RtoC 0 /\ sc_pts c <> [].
