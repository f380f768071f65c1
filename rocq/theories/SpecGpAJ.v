(** Half periods. *)
From Verif Require Import Base CBase.

(** [c r f] is the integral of the form number f along the loop number r, for r < N.  The vector x is
    half the chain with coordinates M, up to integral combinations of the loops. *)
Definition half_chain (N : nat) (c : nat -> nat -> C) (x : nat -> C) (M : nat -> Z) : Prop :=
  exists k : nat -> Z, forall f, x f = csum N (fun r => (RtoC (IZR (M r) / 2) + RtoC (IZR (k r))) * c r f)%C.

(** The vector x is a combination of the loops. *)
Definition in_lattice (N : nat) (c : nat -> nat -> C) (x : nat -> C) : Prop :=
  exists k : nat -> Z, forall f, x f = csum N (fun r => RtoC (IZR (k r)) * c r f)%C.

(** [AJ v] are the integrals of the forms from a fixed point to the Weierstrass point number v; the
    loop number i goes around the edge number i of the tree, so the integrals along this edge are half
    the integrals along this loop. *)
Definition edges_are_half_loops (N : nat) (c : nat -> nat -> C) (AJ : nat -> nat -> C) (tree : list (nat * nat)) : Prop :=
  forall i a b, nth_error tree i = Some (a, b) ->
    half_chain N c (fun f => AJ b f - AJ a f)%C (fun r => if (r =? i)%nat then 1 else 0).

(** the loops of the other basis: loop l is the combination of the loops r with coefficients P r l *)
Definition base_change (N : nat) (c : nat -> nat -> C) (P : nat -> nat -> Z) : nat -> nat -> C :=
  fun l f => csum N (fun r => RtoC (IZR (P r l)) * c r f)%C.
