(** Model of the Abel-Jacobi map of the points at infinity in the Magma package when m divides n:
    magma/se_periods/se_infty_points.m:49-162.

    Numbers are exact: comparisons of coefficients with Error are comparisons with zero.  Left out: the choice of
    the integration schemes, which only reorders the edges, and the increase of precision; the integrals are the
    parameter [integ] as in ModelMaDivisor.  The root zero of the polynomial is left out of its list of roots,
    where the code divides by t. *)
From Verif Require Import CArg ModelTree ModelVec ModelPeriod ModelTurn ModelMaInter ModelMaPoint ModelMaDivisor ModelMaInfty SpecEdge.
Local Open Scope nat_scope.

(** se_infty_points.m:52, as a function of t *)
Definition good_poly (x : list C) (M : nat) (t : C) : C := (cprod (fun p => RtoC 1 - p * cpow t M) x - RtoC 1)%C.
(** se_infty_points.m:49, 75-77 *)
Definition good_affine (m : nat) (lc : C) (M N : nat) (t : C) : C * C :=
  let lt := clog t in
  (cexp (- RtoC (INR M) * lt)%C, (cexp (- RtoC (INR N) * lt) * cexp (RtoC (1 / INR m) * clog lc))%C).
(** se_infty_points.m:61 and 133: Zetas[ZetaPows[j]] *)
Definition zeta_pow (m delta : nat) (a b : Z) (N : nat) (jp : Z) : C :=
  root (2 * Z.of_nat m) ((-2 * Z.of_nat m * (a + b * Z.of_nat N) * jp / Z.of_nat delta) mod (2 * Z.of_nat m)).
(** se_infty_points.m:160: Round(v) - v *)
Definition neg_off (v : R) : R := (IZR (round_near v) - v)%R.

Section Good.
Variable roots : (C -> C) -> list C.
Variable integ : C -> C -> nat -> nat -> C.

(** se_infty_points.m:129-135, 142-148: the integrals of one edge, multiplied k times *)
Definition turned (m delta : nat) (a b : Z) (N : nat) (jpows : list Z) (k : nat) (X Y : C) (i j : nat) : C :=
  (cpow (zeta_pow m delta a b N (nth j jpows 0%Z)) k * integ X Y i j)%C.
(** se_infty_points.m:82-88 *)
Definition good_rational (c : se_curve) (d : aj_data) (M N : nat) : outcome (nat -> R) :=
  if in_dec Ceq_dec (RtoC 0) (sc_pts c) then
    do di <- distance (RtoC 0) (sc_pts c);
    if Rlt_dec (fst di) (sc_error c) then
      do r <- tget (aj_ram d) (snd di);
      Done (fun i => - IZR (Z.of_nat N * Z.of_nat (sc_m c) - Z.of_nat M) * r i)%R
    else Abort
  else Done (fun _ => 0%R).
(** se_infty_points.m:49-162 for M = 1; None if Inf_Ord is not 1.  The maximum of an empty sequence (line 109)
    is an error *)
Definition good_values (c : se_curve) (d : aj_data) (a b : Z) (jpows : list Z) : outcome (option (list (nat -> R))) :=
  let x := sc_pts c in
  let m := sc_m c in
  let delta := Z.to_nat (sc_delta c) in
  let M := m / delta in
  let N := length x / delta in
  if Ceq_dec (fold_right Cplus (RtoC 0) x) (RtoC 0) then Done None
  else
    let ts := filter nonzero (roots (good_poly x M)) in
    let pts := map (fun t => let p := good_affine m (sc_lc c) M N t in (PFin (fst p) (snd p), 1%Z)) ts in
    do rat0 <- good_rational c d M N;
    do r <- sort_points (fun _ _ => 0%R) c d pts rat0 (fun _ => 0%R) [];
    let '(rat, _, edges) := r in
    match edges with
    | [] => Abort
    | _ :: _ =>
        let total k i := (rat i + lattice_reduction (sc_g c) d (edge_integrals (turned m delta a b N jpows k) edges) i)%R in
        Done (Some (map (fun k i => neg_off (total k i)) (seq 1 (delta - 1) ++ [0])))
    end.
End Good.
