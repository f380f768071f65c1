(** Model of arb/gc_params.c: the ellipse, the number of points and the error radius of the
    Gauss-Chebyshev rule.  Balls of relative width 2^-32 and doubles are exact real numbers, but
    for the width given to the first radius (lines 190-191).  [None] is a number that is not
    finite. *)
From Coq Require Import Reals.
From Verif Require Import CArg.
Local Open Scope R_scope.

(** gc_params.c:203: the comment gives the formula *)
Definition acosh (x : R) : R := ln (x + sqrt (x * x - 1)).

(** gc_params.c:10-33 *)
Definition func_r_gc (u : C) : outcome R :=
  let r := (Cmod (u - RtoC 1)%C + Cmod (u + RtoC 1)%C) / 2 in
  if Rle_dec (r - 1) 0 then Abort else Done r.
(** gc_params.c:40-47, the values *)
Fixpoint vec_r (u : list C) : outcome (list R) :=
  match u with
  | [] => Done []
  | z :: u => do r <- func_r_gc z; do vr <- vec_r u; Done (r :: vr)
  end.
(** gc_params.c:40-47, the smallest *)
Fixpoint min_r (vr : list R) (r0 : R) : R :=
  match vr with
  | [] => r0
  | r :: vr => min_r vr (if Rlt_dec r r0 then r else r0)
  end.

(** gc_params.c:62-72: number of overlapping radii and product of the other differences; the
    ball is r +- rad *)
Fixpoint maj_prod (r rad : R) (vr : list R) (K : nat) (p : R) : nat * R :=
  match vr with
  | [] => (K, p)
  | x :: vr => if Rle_dec (Rabs (x - r)) rad then maj_prod r rad vr (S K) p
               else maj_prod r rad vr K (p * (x - r))
  end.
(** gc_params.c:51-83 *)
Definition maj_yr (m0 r rad : R) (vr : list R) : nat * option R :=
  let '(K, p) := maj_prod r rad vr 0 1 in
  (K, if Rlt_dec 0 p then Some (m0 - ln p / 2) else None).

(** gc_params.c:85-97; the logarithm of a negative number makes the radius a NaN, that of 0 makes
    eps equal to 0, and a zero denominator makes the radius infinite: in the first and third cases
    the next call of maj_yr aborts (line 58) *)
Definition choose_r (r0 : R) (m : option R) (K : nat) : outcome R :=
  match m with
  | None => Abort
  | Some M =>
      let R0 := acosh r0 in
      let A := 1 + 2 * M / INR K in
      if Rlt_dec A 0 then Abort else
      if Req_EM_T A 0 then Done (cosh R0) else
      let den := A + ln (A / R0) in
      if Req_EM_T den 0 then Abort else
      let eps := R0 / den in
      Done (cosh (R0 * (1 - eps)))
  end.
(** gc_params.c:194-201 *)
Fixpoint gc_loop (fuel : nat) (m0 r0 r rad : R) (vr : list R) : outcome (R * R) :=
  match fuel with
  | O => OutOfFuel
  | S fuel =>
      let '(K, m) := maj_yr m0 r rad vr in
      match K with
      | O => match m with Some m => Done (r, m) | None => Abort end
      | S _ => do r <- choose_r r0 m K; gc_loop fuel m0 r0 r 0 vr
      end
  end.
(** gc_params.c:144-237: number of points, error radius, and the half sum of distances chosen.
    Without points, r0 is 0 and m is not finite: line 214 aborts. *)
Definition gc_params (fuel : nat) (u : list C) (d : nat) (prec : Z) : outcome (Z * option R * R) :=
  do vr <- vec_r u;
  match vr with
  | [] => Abort
  | r1 :: vr' =>
      let r0 := min_r vr' r1 in
      let m0 := 2 * ln (sqrt (2 * PI)) + INR d * ln r0 + IZR prec * ln 2 in
      if Z.eqb prec 0 then Abort else
      do rm <- gc_loop fuel m0 r0 r0 (Rabs (2 / IZR prec)) vr;
      let '(r, m) := rm in
      let r' := acosh r in
      if Req_EM_T r' 0 then Abort else
      let n := (- Int_part (- (m / r' / 2)))%Z in
      let q := exp (r' * IZR (2 * n)) - 1 in
      let e := if Req_EM_T q 0 then None else Some (Rabs (exp m * Rpower 2 (- IZR prec) / q)) in
      Done (n, e, r)
  end.
