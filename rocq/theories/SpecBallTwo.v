(** Contracts for the method for two branch points on balls. *)
From Coq Require Import Reals.
From Verif Require Import CArg ModelTree SpecTree ModelInter ModelCurve SpecEdge ModelBall SpecBall ModelBallTwo SpecLead.
Local Open Scope R_scope.

(** the balls contain the square root of pi and the values of Gamma at positive rationals *)
Record gsound (A : arith) (G : gammas A) (mem : ball A -> C -> Prop) (gamma : R -> R) : Prop := {
  g_sqrt_pi : forall p, mem (gm_sqrt_pi A G p) (RtoC (sqrt PI));
  g_gamma : forall p a b, (0 < a)%Z -> (0 < b)%Z -> mem (gm_gamma A G p a b) (RtoC (gamma (IZR a / IZR b)))
}.
(** at every precision, the balls contain the distinct roots of f, in some order *)
Definition finds_roots {A : arith} (mem : ball A -> C -> Prop) (branch_points : Z -> list Z -> list (ball A)) (f : list Z) : Prop :=
  forall p, exists x, roots_of f x /\ distinct x /\ mems mem (branch_points p f) x.
