(** Meaning of periods of loops. *)
From Verif Require Import CBase ModelCurve ModelBasis ModelPeriod.

(** position of the differential (i-th one with exponent number j) in the list *)
Fixpoint offset (ni : list Z) (j : nat) : nat :=
  match j, ni with
  | O, _ => O
  | _, [] => O
  | S j, n :: ni => (Z.to_nat n + offset ni j)%nat
  end.

(** period of coeff * gamma_e^(s) on a differential x^i dx/y^j whose integral on
    gamma_e is [v]: the s-th shift multiplies by zeta^(-s j). *)
Definition term_period (m j : Z) (integral : Z -> C) (x : gamma) : C :=
  (ZC (gcoeff x) * root m (- (gshift x * j)) * integral (gindex x))%C.

(** curves as produced by the initialisation *)
Definition curve_ok (c : sec) : Prop :=
  2 <= sec_m c /\ 0 <= sec_j1 c /\ (forall n, In n (sec_ni c) -> 0 <= n) /\
  fold_right Z.add 0 (sec_ni c) = sec_g c.

Definition integrals_ok (c : sec) (edges : nat) (a : cmat) : Prop :=
  length a = edges /\ forall row, In row a -> Z.of_nat (length row) = sec_g c.

(** terms a loop may have; the last bound is that of FLINT's small integers *)
Definition loop_ok (c : sec) (edges : nat) (l : list gamma) : Prop :=
  forall x, In x l -> 0 <= gindex x < Z.of_nat edges /\ 0 <= gshift x < sec_m c /\
    -9223372036854775808 <= gcoeff x < 4611686018427387904.

(** period of the cycle whose coordinates on the shifted elementary cycles are [row] *)
Definition row_period (c : sec) (a : cmat) (row : list Z) (j : Z) (coord : nat) : C :=
  csum (length row) (fun p =>
    (ZC (nth p row 0%Z) * root (sec_m c) (- ((Z.of_nat p mod (sec_m c - 1)) * j)) *
     vget (nth (Z.to_nat (Z.of_nat p / (sec_m c - 1))) a []) coord)%C).

(** first [k] rows below FLINT's limit for small integers *)
Definition rows_small (k : nat) (p : list (list Z)) : Prop :=
  forall i x, (i < k)%nat -> In x (nth i p []) -> -9223372036854775808 <= x < 4611686018427387904.
