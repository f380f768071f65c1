(** Model of the error report: arb/utils.c:107-131.  Radii (mag_t) are nonnegative reals. *)
From Coq Require Import Reals List ZArith.
Import ListNotations.

(** radii of the real and imaginary parts of an entry *)
Definition rads := (R * R)%type.
Definition report := (R * Z * Z)%type.

(** utils.c:118-128, one entry *)
Definition error_step (i j : Z) (e : rads) (s : report) : report :=
  let '(mag, im, jm) := s in
  let t := Rmax (fst e) (snd e) in
  if Rlt_dec mag t then (t, i, j) else (mag, im, jm).
(** utils.c:117: loop on j *)
Fixpoint error_row (i j : Z) (row : list rads) (s : report) : report :=
  match row with
  | [] => s
  | e :: row => error_row i (j + 1) row (error_step i j e s)
  end.
(** utils.c:114: loop on i *)
Fixpoint error_rows (i : Z) (rows : list (list rads)) (s : report) : report :=
  match rows with
  | [] => s
  | row :: rows => error_rows (i + 1) rows (error_row i 0 row s)
  end.
(** utils.c:107-131: maximum, row and column printed *)
Definition print_error (m : list (list rads)) : report := error_rows 0 m (0%R, (-1)%Z, (-1)%Z).
