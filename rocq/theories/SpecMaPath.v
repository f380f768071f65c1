(** Chains of oriented edges. *)
From Verif Require Import CArg ModelTree.

Definition point (v u : nat) : Z := if (v =? u)%nat then 1 else 0.
(** the edges taken with the multiplicities of the row go from u to v: at each point what comes in
    less what goes out is 1 at v, -1 at u (0 if they are the same point), and 0 elsewhere *)
Definition flow (es : list edge) (row : list Z) (w : nat) : Z :=
  fold_right (fun p s => fst p * (point (eb (snd p)) w - point (ea (snd p)) w) + s) 0 (combine row es).
Definition goes (es : list edge) (row : list Z) (u v : nat) : Prop :=
  length row = length es /\ forall w, flow es row w = point v w - point u w.

(** a set of complex numbers closed under sums and differences, such as the periods of a differential *)
Definition lattice (L : C -> Prop) : Prop := L (RtoC 0) /\ forall z w, L z -> L w -> L (z - w)%C.
