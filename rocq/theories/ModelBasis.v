(** Model of arb/symplectic_basis.c: from the base change matrix to loops. *)
From Verif Require Import Base ModelSymp.

(** abel_jacobi.h:105-111 *)
Record gamma := { gcoeff : Z; gshift : Z; gindex : Z }.

(** symplectic_basis.c:9-17 *)
Fixpoint count_coeffs (row : list Z) : nat :=
  match row with
  | [] => O
  | x :: row => if x =? 0 then count_coeffs row else S (count_coeffs row)
  end.

(** symplectic_basis.c:26, [for (; fmpz_is_zero(row + j); j++);]: value found, its
    position and what follows *)
Fixpoint next_nonzero (row : list Z) (j : Z) : outcome (Z * Z * list Z) :=
  match row with
  | [] => Fault OutOfBounds
  | x :: row => if x =? 0 then next_nonzero row (j + 1) else Done (x, j, row)
  end.

(** symplectic_basis.c:19-36; [row] is the part of the row from position j on *)
Fixpoint set_loops (n : nat) (row : list Z) (j m1 : Z) : outcome (list gamma) :=
  match n with
  | O => Done []
  | S n =>
      do r <- next_nonzero row j;
      let '(x, j, row) := r in
      if negb (is_slong x) then Abort
      else if m1 =? 0 then Fault DivByZero
      else
        do l <- set_loops n row (j + 1) m1;
        Done ({| gcoeff := x; gshift := j mod m1; gindex := j / m1 |} :: l)
  end.

(** symplectic_basis.c:67-71 (or 73-77): the loop of one row *)
Definition loop_of_row (row : list Z) (m1 : Z) : outcome (list gamma) :=
  set_loops (count_coeffs row) row 0 m1.

(** symplectic_basis.c:62-82: loops alpha[i], beta[i] for i = i0 .. g-1 *)
Fixpoint basis_loops (todo i : nat) (p : mat) (m1 : Z) : outcome (list (list gamma * list gamma)) :=
  match todo with
  | O => Done []
  | S todo =>
      if (2 * i + 1 <? nrows p)%nat then
        do a <- loop_of_row (nth (2 * i) p []) m1;
        do b <- loop_of_row (nth (2 * i + 1) p []) m1;
        do rest <- basis_loops todo (S i) p m1;
        Done ((a, b) :: rest)
      else Fault OutOfBounds
  end.

(** symplectic_basis.c:38-84, given the intersection matrix built at line 46 *)
Definition symplectic_basis (xgcd : Z -> Z -> Z * Z * Z) (inter : mat) (g : nat) (m : Z)
  : outcome (list (list gamma * list gamma)) :=
  do s <- symplectic_reduction xgcd inter g;
  basis_loops g 0 (stP s) (m - 1).

(** An slong read through an fmpz pointer (period_matrix.c:21): FLINT takes words
    whose two top bits are 01 for pointers. *)
Definition slong_as_fmpz (x : Z) : outcome Z :=
  if x / 4611686018427387904 =? 1 then Fault BadPointer else Done x.
