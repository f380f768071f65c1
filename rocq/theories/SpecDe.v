(** Published bounds for the double exponential rule (doc/sec_paper/NumericalIntegration.tex:
    definition of B, lemmas on truncation and discretization). *)
From Coq Require Import Reals.
From Verif Require Import CArg.
Local Open Scope R_scope.

(** exponent of the weight for the differentials x^(i-1) dx / y^j *)
Definition alpha (j m : Z) : R := 1 - IZR j / IZR m.
Definition X_r (l r : R) : R := cos r * sqrt (PI / (2 * l * sin r) - 1).
Definition B_r (l r a : R) : R :=
  2 / cos r * (X_r l r / 2 * (/ Rpower (cos (l * sin r)) (2 * a) + / Rpower (X_r l r) (2 * a))
               + / (2 * a * Rpower (sinh (X_r l r)) (2 * a))).
(** the sum runs over |k| <= N *)
Definition e_T (h l : R) (N : nat) (m1 a : R) : R :=
  Rpower 2 (2 * a) * m1 / a * exp (- (2 * a * l * sinh (INR N * h))).
Definition e_Q (h l r m2 a : R) : R := 2 * m2 * B_r l r a / (exp (2 * PI * r / h) - 1).
Definition published (h l : R) (N : nat) (r m1 m2 a : R) : R := e_T h l N m1 a + e_Q h l r m2 a.

(** weight of the rule at t *)
Definition weight (l a t : R) : R := l * cosh t / Rpower (cosh (l * sinh t)) (2 * a).
(** the terms of index N+1 .. N+K and -(N+1) .. -(N+K) of the rule applied to f *)
Fixpoint omitted (h l a : R) (N K : nat) (f : R -> C) : C :=
  match K with
  | O => RtoC 0
  | S K =>
      let t := (INR (N + S K) * h)%R in
      (omitted h l a N K f
       + RtoC (h * weight l a t) * (f (tanh (l * sinh t)) + f (- tanh (l * sinh t))%R))%C
  end.
(** value of 1/|y| at x: y is the product of the m-th roots of x - u_k *)
Definition inv_y (u : list C) (m : Z) (x : R) : R :=
  / rroot m (fold_right Rmult 1 (map (fun z => Cmod (RtoC x - z)%C) u)).

(** usable parameters *)
Definition de_ok (h l : R) (r : R) (j m : Z) : Prop :=
  0 < h /\ 1 <= l /\ 0 < r < PI / 2 /\ l * sin r < PI / 2 /\ (0 < j < m)%Z.

(** ** The image of the strip |Im z| <= r *)
Definition csinh (z : C) : C := (sinh (fst z) * cos (snd z), cosh (fst z) * sin (snd z)).
Definition ccosh (z : C) : C := (cosh (fst z) * cos (snd z), sinh (fst z) * sin (snd z)).
Definition ctanh (z : C) : C := (csinh z / ccosh z)%C.
(** the change of variable u = tanh(l sinh z) *)
Definition de_map (l : R) (z : C) : C := ctanh (RtoC l * csinh z)%C.
Definition in_strip_image (l r : R) (w : C) : Prop := exists z, Rabs (snd z) <= r /\ de_map l z = w.
(** z = asinh(atanh(w)/l) with the usual ranges of these functions: imaginary parts in
    [-pi/2, pi/2] *)
Definition principal (l : R) (w z : C) : Prop :=
  ccosh (RtoC l * csinh z)%C <> RtoC 0 /\ de_map l z = w /\
  Rabs (snd (RtoC l * csinh z)%C) <= PI / 2 /\ Rabs (snd z) <= PI / 2.
