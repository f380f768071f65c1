(** Which scheme an edge should be given. *)
From Verif Require Import CArg ModelTree ModelPeriod ModelMaTree SpecGc SpecFree SpecMaTree.
Local Open Scope R_scope.

(** parameter [q], of the schemes [lr], for an edge with number [r] *)
Definition right_scheme (ty : itype) (lr : list R) (r q : R) : Prop :=
  In q lr /\
  match ty with
  | GJ => 1 < q < r /\ forall q', In q' lr -> q' < r -> q' <= q
  | DE => 0 < q <= r /\ r < PI / 2 /\ forall q', In q' lr -> q' <= r -> q' <= q
  end.
(** no other branch point is inside the ellipse, or the image of the strip, of parameter [q] *)
Definition clear_of (ty : itype) (p : list C) (a b : nat) (q : R) : Prop :=
  forall k, (k < length p)%nat -> k <> a -> k <> b ->
    match ty with GJ => q < half_sum (position p a b k) | DE => q <= ModelDeq.de_tau (position p a b k) end.
