(** Model of the older calculation of the action of a Moebius transformation in gp/periods.gp: invert_mat,
    homot_mat, moebius_matrix_old.

    Numbers are exact complex numbers; sqrt is the principal square root, [binom] stands for binomial.
    Indices start from 0 (from 1 in the code).  A division by zero is [Abort]. *)
From Verif Require Import CArg ModelTree SpecVec.
Local Open Scope C_scope.

(** the product of matrices of GP *)
Definition gmul (g : nat) (M N : nat -> nat -> C) (i j : nat) : C := csum g (fun l => M i l * N l j).
(** periods.gp:1350-1352 *)
Definition invert_mat (g i j : nat) : C := if (i + j =? g - 1)%nat then RtoC (-1) else RtoC 0.
(** periods.gp:1354-1356; callers check that a is not 0 *)
Definition homot_mat (a b : C) (degree i j : nat) : C :=
  (if (j <=? i)%nat then NC (binom i j) * cpow a (S j) * cpow b (i - j) else RtoC 0) / croot 2 (cpow a degree).
(** periods.gp:1357-1372 *)
Definition moebius_matrix_old (a b c d : C) (g degree : nat) : outcome (nat -> nat -> C) :=
  if Ceq_dec c (RtoC 0) then
    if Ceq_dec d (RtoC 0) then
      if Ceq_dec (cpow a degree) (RtoC 0) then Abort else Done (homot_mat a b degree)
    else if Ceq_dec (cpow (a / d) degree) (RtoC 0) then Abort else Done (homot_mat (a / d) (b / d) degree)
  else
    let al := b - a * d / c in
    if Ceq_dec (cpow al degree) (RtoC 0) then Abort else
    if Ceq_dec (cpow c degree) (RtoC 0) then Abort else
    Done (gmul g (gmul g (homot_mat al (a / c) degree) (invert_mat g)) (homot_mat c d degree)).
