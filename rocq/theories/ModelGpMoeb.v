(** Model of the action of Moebius transformations in gp/periods.gp: homog, moebius_matrix.

    Numbers are exact complex numbers; the matrix m is given by its entries a, b, c, d.  Indices start
    from 0 (from 1 in the code). *)
From Verif Require Import CArg ModelTree.
Local Open Scope C_scope.

(** periods.gp:1327-1330, the loop over the points: a point with denominator 0 is left out *)
Fixpoint homog_loop (a b c d : C) (pts : list C) : list C :=
  match pts with
  | [] => []
  | p :: pts =>
      let den := c * p + d in
      let rest := homog_loop a b c d pts in
      if Ceq_dec den (RtoC 0) then rest else ((a * p + b) / den) :: rest
  end.
(** periods.gp:1325-1334 *)
Definition homog (a b c d : C) (pts : list C) : list C :=
  homog_loop a b c d pts ++ (if Nat.odd (length pts) then [RtoC 0] else []).

(** product of the polynomial with coefficients q (constant term first) by a x + b *)
Fixpoint lin_mul (a b : C) (q : list C) (carry : C) : list C :=
  match q with [] => [carry] | q0 :: q => (carry + b * q0) :: lin_mul a b q (a * q0) end.
(** periods.gp:1380-1384: (a x + b)^k (c x + d)^(g-1-k); the powers and the product are taken factor by factor *)
Definition line (a b c d : C) (g k : nat) : list C :=
  Nat.iter k (fun q => lin_mul a b q (RtoC 0)) (Nat.iter (g - 1 - k) (fun q => lin_mul c d q (RtoC 0)) [RtoC 1]).
(** periods.gp:1374-1389; the entry in row k and column l *)
Definition moebius_matrix (a b c d : C) (g k l : nat) : C := (a * d - b * c) * vget (line a b c d g k) l.
