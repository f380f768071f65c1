(** The double exponential rule. *)
From Coquelicot Require Import Coquelicot.
From Verif Require Import CArg ModelTree SpecEdge.
Local Open Scope R_scope.

Definition phi (l s : R) : R := tanh (l * sinh s).
(** trapezoidal rule of step h with 2N+1 points for the integral of F(t) over (-1, 1), t = phi(s) *)
Definition de_term (h l : R) (F : R -> C) (s : R) : C := (RtoC (h * Derive (phi l) s) * F (phi l s))%C.
Definition de_rule (h l : R) (N : nat) (F : R -> C) : C :=
  (de_term h l F 0 + csum N (fun k => de_term h l F (INR (S k) * h) + de_term h l F (- (INR (S k) * h))))%C.

(** no root but the one of number a lies on the segment from it to p *)
Definition clear_path (x : list C) (a : nat) (p : C) : Prop :=
  forall k t, (k < length x)%nat -> k <> a -> -1 <= t <= 1 -> vget x k <> edge_point (vget x a) p (RtoC t).
