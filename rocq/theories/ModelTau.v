(** Model of arb/tau_matrix.c: the small period matrix.
    Coefficients: exact complex numbers, as any closed numerical field (balls are not modelled). *)
Set Warnings "-notation-overridden,-ambiguous-paths".
From mathcomp Require Import all_ssreflect all_algebra.
From Verif Require Base.
Import GRing.Theory Num.Theory.
Set Implicit Arguments.
Unset Strict Implicit.
Unset Printing Implicit Defensive.
Local Open Scope ring_scope.

Section Tau.
Variable C : numClosedFieldType.

(** whether the LU decompositions of the library find invertible pivots, for matrices of real
    (arb_mat_lu) and complex balls (acb_mat_solve); whether the ball computed for the determinant
    contains zero (acb_mat_det, acb_contains_zero) *)
Variables lu clu : forall n, 'M[C]_n -> bool.
Variable det_contains_zero : forall n, 'M[C]_n -> bool.
(** arb_mat_solve_lu_precomp (library) *)
Definition solve_lu n m (a : 'M[C]_n) (rhs : 'M[C]_(n, m)) : 'M[C]_(n, m) := invmx a *m rhs.

(** tau_matrix.c:11-45 *)
Definition mat_real n m (X : 'M[C]_(n, m)) : 'M[C]_(n, m) := \matrix_(i, j) 'Re (X i j).
Definition mat_imag n m (X : 'M[C]_(n, m)) : 'M[C]_(n, m) := \matrix_(i, j) 'Im (X i j).
Definition mat_set n m (r s : 'M[C]_(n, m)) : 'M[C]_(n, m) := \matrix_(i, j) (r i j + 'i * s i j).

(** tau_matrix.c:47-110; [None] for the result 0 (X is then left as it was), [Some X] for 1.  For
    n = 0 or m = 0 the function returns 1 without writing X, which is empty. *)
Definition solve_real n m (A : 'M[C]_n) (B : 'M[C]_(n, m)) : option 'M[C]_(n, m) :=
  if (n == 0%N) || (m == 0%N) then Some 0
  else
    let a := mat_real A in let b := mat_imag A in let c := mat_real B in let d := mat_imag B in
    if lu a then
      let d := solve_lu a d in
      let x := b *m d in
      let c := c + x in
      let t := solve_lu a b in
      let b := b *m t in
      let a := a + b in
      if lu a then
        let x := solve_lu a c in
        let re := x in
        let c := t *m x in
        let im := d - c in
        Some (mat_set re im)
      else None
    else None.

(** tau_matrix.c:121: the polynomial is divided in place by one of its own coefficients.
    [reads_first]: the division of a vector reads the divisor before writing; otherwise the first
    coefficient is already replaced by its quotient 1 when the next ones are divided. *)
Definition divide_by_const (reads_first : bool) (chi : seq C) : seq C :=
  match chi with
  | [::] => [::]
  | c0 :: rest => c0 / c0 :: map (fun c => c / (if reads_first then c0 else c0 / c0)) rest
  end.

(** tau_matrix.c:125-129, [k] from 2 *)
Fixpoint charpoly_loop n m (A : 'M[C]_n) (chi : seq C) (k : nat) (rounds : nat) (AB X : 'M[C]_(n, m)) : 'M[C]_(n, m) :=
  match rounds with
  | 0%N => X
  | S rounds =>
      let AB := A *m AB in
      charpoly_loop A chi k.+1 rounds AB (X + chi`_k *: AB)
  end.
(** tau_matrix.c:112-133; the degree is that of the characteristic polynomial *)
Definition solve_charpoly (reads_first : bool) n m (A : 'M[C]_n) (B : 'M[C]_(n, m)) : 'M[C]_(n, m) :=
  let chi := divide_by_const reads_first (char_poly A) in
  charpoly_loop A chi 2 (size chi).-2 B (chi`_1 *: B).

(** tau_matrix.c:135-179 *)
Definition solve_multi (reads_first : bool) n m (A : 'M[C]_n) (B : 'M[C]_(n, m)) : Base.outcome 'M[C]_(n, m) :=
  if clu A then Base.Done (solve_lu A B)
  else if det_contains_zero A then Base.Abort
  else if solve_real A B is Some X then Base.Done X
  else if solve_real ('i *: A) ('i *: B) is Some X then Base.Done X
  else Base.Done (solve_charpoly reads_first A B).

(** tau_matrix.c:181-184 *)
Definition tau_matrix (reads_first : bool) g (omega0 omega1 : 'M[C]_g) : Base.outcome 'M[C]_g :=
  solve_multi reads_first omega0 omega1.
End Tau.
