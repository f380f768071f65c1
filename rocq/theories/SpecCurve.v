(** Independent specification for the curve data: the holomorphic
    differentials x^(i-1) dx / y^j of the curve y^m = f(x), deg f = n
    (Proposition "holom_diff" of the paper): a finite set of pairs (i,j). *)
From Verif Require Import Base.

Definition holomorphic (m n i j : Z) : Prop :=
  1 <= i <= n - 1 /\ 1 <= j <= m - 1 /\ m * i + Z.gcd m n <= j * n.

(** Range in which the C code does not overflow a 64-bit word. *)
Definition small_curve (m n : Z) : Prop := m * n < 2 ^ 63.
