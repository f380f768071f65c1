(** Vocabulary for the integrals over an edge in the Magma package. *)
From Verif Require Import CArg ModelTree.
Local Open Scope nat_scope.

(** C/2^(n/m), where C is the last of the data of the edge *)
Definition edge_const (n m : nat) (c : C) : C := (c / RtoC (Rpower 2 (INR n / INR m)))%C.

(** the row of a differential with exponent j whose integral along the edge is I: integrals over the
    loops from sheet l to sheet l+1, zeta^(-l j) I - zeta^(-(l+1) j) I, for l = 0, ..., m-2 *)
Definition row_ok (m : nat) (j : Z) (row : list C) (I : C) : Prop :=
  length row = m - 1 /\ forall l, l < m - 1 ->
    vget row l = ((root (Z.of_nat m) (- (Z.of_nat l * j)) - root (Z.of_nat m) (- ((Z.of_nat l + 1) * j))) * I)%C.
