(** Symplectic bases of integral antisymmetric forms. *)
From Verif Require Import Base ModelGpSymp.

(** the form with matrix M (entry of row a and column b: [M b a]) on vectors of n integers *)
Definition form (n : nat) (M : columns) (u v : nat -> Z) : Z :=
  zsum n (fun a => zsum n (fun b => u a * M b a * v b)).

Definition antisymmetric (n : nat) (M : columns) : Prop :=
  forall a b, (a < n)%nat -> (b < n)%nat -> M a b = - M b a.

(** the matrix of the first l rows and columns has an inverse with integral entries *)
Definition invertible_block (l : nat) (M : columns) : Prop :=
  exists Q : columns, forall a b, (a < l)%nat -> (b < l)%nat -> zsum l (fun k => M k a * Q b k) = if (a =? b)%nat then 1 else 0.

(** entry in row a and column b of [0, 1; -1, 0], with blocks of size g *)
Definition J_entry (g a b : nat) : Z := if (b =? a + g)%nat then 1 else if (a =? b + g)%nat then -1 else 0.

(** transpose(P) M P = J *)
Definition symplectic_basis (g : nat) (M P : columns) : Prop :=
  forall a b, (a < 2 * g)%nat -> (b < 2 * g)%nat -> form (2 * g) M (P a) (P b) = J_entry g a b.
