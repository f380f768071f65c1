(** Model of the points of a curve in the Magma package: magma/se_periods/se_abel_jacobi.m:82-100,
    se_curve.m:375-386 and 489-497, se_help_funcs.m:53-55.

    Complex numbers are exact; Sqrt, Log and Exp are the principal ones.  An error raised by Magma is
    [Abort], an index out of range [Fault OutOfBounds].  Indices start from 0. *)
From Verif Require Import CArg ModelTree ModelVec ModelPeriod ModelTurn ModelMaRoot.
Local Open Scope R_scope.

(** se_curve.m:21-54, the attributes that are read here; [sc_f] are the coefficients of the defining
    polynomial, which is only compared with that of another curve *)
Record se_curve := {
  sc_m : nat;           (* Degree[1] *)
  sc_delta : Z;         (* Degree[3] *)
  sc_g : nat;           (* Genus *)
  sc_f : list C;        (* DefiningPolynomial *)
  sc_lc : C;            (* LeadingCoeff *)
  sc_pts : list C;      (* BranchPoints *)
  sc_prec : nat }.      (* Prec *)
(** se_curve.m:124 *)
Definition sc_error (c : se_curve) : R := / 10 ^ (sc_prec c + 1).
(** se_curve.m:426 *)
Definition point_error (c : se_curve) : R := / 10 ^ (sc_prec c / 2).

(** se_help_funcs.m:53-55: Min of a sequence, with the first position where it is attained as second
    value (line 178 of se_abel_jacobi.m uses both) *)
Fixpoint min_from (x : C) (pts : list C) (k : nat) (d : R) (i : nat) : R * nat :=
  match pts with
  | [] => (d, i)
  | p :: pts => if Rlt_dec (Cmod (x - p)%C) d then min_from x pts (S k) (Cmod (x - p)%C) k else min_from x pts (S k) d i
  end.
Definition distance (x : C) (pts : list C) : outcome (R * nat) :=
  match pts with [] => Abort | p :: pts => Done (min_from x pts 1 (Cmod (x - p)%C) 0) end.

(** se_abel_jacobi.m:84-96: with the option Principal; the logarithm of zero is an error *)
Definition principal_branch (c : se_curve) (x0 : C) : outcome C :=
  do di <- distance x0 (sc_pts c);
  if Rlt_dec (fst di) (sc_error c) then Done (RtoC 0)
  else
    let fx0 := (sc_lc c * fold_left (fun r p => r * (x0 - p)) (sc_pts c) (RtoC 1))%C in
    if Nat.eqb (sc_m c) 2 then Done (croot 2 fx0)
    else if Ceq_dec fx0 (RtoC 0) then Abort
    else Done (cexp (clog fx0 / RtoC (INR (sc_m c)))%C).

(** se_abel_jacobi.m:98 *)
Fixpoint zeta_multiples (ze : vec) (y : C) (todo k : nat) : outcome (list C) :=
  match todo with
  | O => Done []
  | S todo =>
      do z <- vread ze (2 * k);
      do r <- zeta_multiples ze y todo (S k);
      Done ((z * y)%C :: r)
  end.
(** se_abel_jacobi.m:82-100 *)
Definition se_branches (c : se_curve) (x0 : C) : outcome (list C) :=
  do y <- principal_branch c x0;
  zeta_multiples (zetas (sc_m c)) y (sc_m c) 0.

(** se_curve.m:375-386 *)
Definition is_point (c : se_curve) (x y : C) (err : R) : outcome bool :=
  do b <- principal_branch c x;
  let t := Cmod y - Cmod b in
  Done (if Rlt_dec err (Rabs t) then false else true).

(** se_curve.m:495-496, for the number x that was drawn *)
Definition random_point (c : se_curve) (x : C) : outcome (C * C) :=
  do y <- principal_branch c x; Done (x, y).
