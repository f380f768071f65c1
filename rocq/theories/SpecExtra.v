(** Vocabulary for the working precision. *)
From Verif Require Import CArg ModelTree.
Local Open Scope R_scope.

Definition log2 (r : R) : R := ln r / ln 2.
(** 2^p, for any real p *)
Definition two_to (p : R) : R := Rpower 2 p.

(** upward rounding of numbers >= 0 *)
Definition rounds_up (up : R -> R) : Prop := forall r, 0 <= r -> r <= up r.
(** a logarithm that is never too small by more than d *)
Definition log2_within (lg : R -> R) (d : R) : Prop := forall r, 0 < r -> log2 r - d <= lg r.

(** edges between distinct points of x *)
Definition edges_of (x : list C) (es : list edge) : Prop :=
  forall e, In e es -> (ea e < length x)%nat /\ (eb e < length x)%nat /\ vget x (ea e) <> vget x (eb e).

(** value of the polynomial with the given coefficients, lowest degree first *)
Definition poly_value (p : list Z) (z : C) : C := fold_right (fun a s => (ZC a + z * s)%C) (RtoC 0) p.
