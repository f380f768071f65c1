(** Model of arb/de_params.c:155-331 and arb/de_params_d.c:50-89: parameters and error radius of
    the double exponential rule.  Balls and doubles are exact real numbers; the bound M2 over
    the strip is an argument (see ModelMag). *)
From Coq Require Import Reals.
From Verif Require Import CArg.
Local Open Scope R_scope.

(** de_params.c:170-182: one factor for each point; the test is that of a real part in [-1,1] *)
Fixpoint m1_product (u : list C) (p : R) : R :=
  match u with
  | [] => p
  | z :: u =>
      if Rle_dec (Rabs (fst z)) 1 then m1_product u (p * Rabs (snd z)) else m1_product u (p * Cmod z)
  end.
(** de_params.c:155-188 *)
Definition de_constant_m1 (u : list C) (m : Z) : R := / rroot m (m1_product u 1).

(** de_params.c:190-249 *)
Definition de_constant_b (l r : R) (j m : Z) : R :=
  let a2 := IZR (2 * (m - j)) / IZR m in
  let pi2 := PI / 2 in
  let cr := cos r in
  let y0 := sin r * l in
  let xr := cr * sqrt (pi2 / y0 - 1) in
  let t := / Rpower (cos y0) a2 in
  let b := (/ Rpower xr a2 + t) * xr in
  let t := 2 * / (Rpower (sinh xr) a2 * IZR (m - j) / IZR m) in
  (b + t) / cr.

(** de_params.c:251-302, the numbers M1 and M2 being given; lines 264-273 then 275-293 *)
Definition de_error (h l : R) (n : nat) (r m1 m2 : R) (j m : Z) : R :=
  let q := m2 * de_constant_b l r j m / (exp (2 * (PI * r) / h) - 1) in
  let t := sinh (h * INR n) * l - ln 2 in
  let t := exp (t * IZR (2 * (m - j)) / IZR m) * IZR (m - j) / IZR m * l in
  m1 / t + q.

(** de_params_d.c:37-48 *)
Definition de_constant_b_d (l r alpha : R) : R :=
  let a2 := 2 * alpha in
  let y0 := l * sin r in
  let cr := cos r in
  let xr := cr * sqrt (PI / 2 / y0 - 1) in
  let b := xr / 2 * (Rpower (cos y0) (- a2) + Rpower xr (- a2)) + Rpower (sinh xr) (- a2) / a2 in
  2 / cr * b.
(** de_params_d.c:65-78; [rk] lists |Im asinh(atanh(w)/lambda)| for the points w *)
Fixpoint smallest_r (rk : list R) (r : R) : outcome R :=
  match rk with
  | [] => Done r
  | x :: rk => if Rle_dec x 0 then Abort else smallest_r rk (if Rlt_dec x r then x else r)
  end.
Definition choose_r (rk : list R) : outcome R :=
  do r <- smallest_r rk (14 / 10); Done (r * (9 / 10)).
(** de_params_d.c:50-89 with r <= 0 on entry, as in de_params.c:309; h and n.  The values of
    the other exponents and of M1, M2 are not used there: M1 = M2 = 1. *)
Definition de_params_d (rk : list R) (m : Z) (prec : Z) : outcome (R * R * Z) :=
  do r <- choose_r rk;
  let lambda := PI / 2 in
  let D := IZR prec * ln 2 in
  let alpha := IZR (m - 1) / IZR m in
  let B := de_constant_b_d lambda r alpha in
  let h := 2 * PI * r / (D + ln (2 * 1 * B + 1)) in
  let x := arcsinh ((D + ln (32 * 1 / alpha)) / (2 * alpha * lambda)) / h in
  Done (r, h, (- Int_part (- x))%Z).
