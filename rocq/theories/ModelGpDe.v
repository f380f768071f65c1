(** Model of the double exponential integration of gp/periods.gp: integration_points_thsh,
    sqrt_affinereduction, make_Aprim, int_periods_affinereduction, int_AbelJacobi_affinereduction.

    Numbers are exact; sqrt is the principal square root.  Indices start from 0 (from 1 in the code).  A
    division by zero is [Abort], an index out of range a fault.  Messages and unused variables are left
    out.  sqrt_affinereduction (lines 279-309) is the same text as sqrt_affinereduction_gc: the other branch is never
    taken because of line 281. *)
From Verif Require Import CArg ModelTree ModelGpGc.

(** periods.gp:242-253, the loop; ekh and ekhi are the values before the step *)
Fixpoint thsh_loop (todo : nat) (eh ehi lambda ekh ekhi : R) : list (R * R) :=
  match todo with
  | O => []
  | S todo =>
      let ekh := (ekh * eh)%R in
      let ekhi := (ekhi * ehi)%R in
      let sh := ((ekh - ekhi) / 2)%R in
      let ch2 := (ekh + ekhi)%R in
      let esh := exp (lambda * sh) in
      let eshi := (1 / esh)%R in
      let chshi := (1 / (esh + eshi))%R in
      let shsh := (esh - eshi)%R in
      ((shsh * chshi)%R, (ch2 * chshi)%R) :: thsh_loop todo eh ehi lambda ekh ekhi
  end.
(** periods.gp:236-255 *)
Definition integration_points_thsh (h : R) (npoints : nat) (lambda : R) : R * list (R * R) :=
  ((h * lambda)%R, thsh_loop npoints (exp h) (1 / exp h)%R lambda 1 1).

(** periods.gp:344-349 and 398-403: [xp] and [xm] are decprim + x and decprim - x *)
Fixpoint add_two (res : list C) (tp tm xp xm : C) : list C :=
  match res with [] => [] | r :: res => (r + (tp + tm))%C :: add_two res (tp * xp)%C (tm * xm)%C xp xm end.
(** periods.gp:336-337 and 390-391: t, t d, t d^2, ... *)
Fixpoint geometric (g : nat) (t d : C) : list C :=
  match g with O => [] | S g => t :: geometric g (t * d)%C d end.

(** periods.gp:339-350 (aj = false) and 393-404 (aj = true, with the factors sqrt(1-x) and sqrt(x+1)) *)
Fixpoint de_loop (aj : bool) (u : list C) (dp : C) (pts : list (R * R)) (res : list C) : outcome (list C) :=
  match pts with
  | [] => Done res
  | (x, dx) :: pts =>
      let rp := sqrt_affinereduction_gc u (RtoC x) in
      let rm := sqrt_affinereduction_gc u (RtoC (- x)) in
      if Ceq_dec rp (RtoC 0) then Abort else if Ceq_dec rm (RtoC 0) then Abort else
      let tp := (RtoC dx / rp)%C in
      let tm := (RtoC dx / rm)%C in
      let tp := if aj then (tp * RtoC (sqrt (1 - x)))%C else tp in
      let tm := if aj then (tm * RtoC (sqrt (x + 1)))%C else tm in
      de_loop aj u dp pts (add_two res tp tm (dp + RtoC x)%C (dp - RtoC x)%C)
  end.
(** periods.gp:334-350 and 388-404 *)
Definition de_sums (aj : bool) (u : list C) (dp : C) (g : nat) (pts : list (R * R)) : outcome (list C) :=
  let r0 := sqrt_affinereduction_gc u (RtoC 0) in
  if Ceq_dec r0 (RtoC 0) then Abort
  else if (g =? 0)%nat then Fault OutOfBounds
  else de_loop aj u dp pts (geometric g (RtoC 1 / r0)%C dp).

(** periods.gp:318-365; (fac, pts) are C[iIntFactor] and C[iIntPoints].  make_Aprim with two roots
    (periods.gp:196-199) is the same text as ab_points_gc. *)
Definition int_periods (A : list C) (g i1 i2 : nat) (fac : R) (pts : list (R * R)) : outcome ((nat -> C) * C * C) :=
  let a := vget A i1 in let b := vget A i2 in
  if Ceq_dec (b - a)%C (RtoC 0) then Abort else
  let geom := ((b - a) / RtoC 2)%C in
  let dp := ((b + a) / (b - a))%C in
  let u := ab_points_gc A i1 i2 in
  do res <- de_sums false u dp g pts;
  let s := cpow (croot 2 geom) (length u) in
  let fact := (Ci / s)%C in
  Done (fun j => (vget res j * RtoC fac * (fact * cpow geom j))%C,
        (sqrt_affinereduction_gc u (RtoC (-1)) * s / geom)%C,
        (sqrt_affinereduction_gc u (RtoC 1) * s / geom)%C).

(** periods.gp:200-204, make_Aprim with one root and the point p *)
Definition a_points (A : list C) (ia : nat) (p : C) : list C :=
  let a := vget A ia in
  map (fun i => ((RtoC 2 * vget A i - a - p) / (p - a))%C) (filter (fun i => negb (i =? ia)%nat) (seq 0 (length A))).
(** sign of GP *)
Definition gp_sign (r : R) : R := if Rlt_dec 0 r then 1 else if Rlt_dec r 0 then -1 else 0.
(** periods.gp:376-415; the exponent #Aprim - 1 is -1 if there is only one root *)
Definition int_AbelJacobi (A : list C) (g i1 : nat) (p yp : C) (fac : R) (pts : list (R * R)) : outcome (nat -> C) :=
  let a := vget A i1 in
  if Ceq_dec (p - a)%C (RtoC 0) then Abort else
  let geom := ((p - a) / RtoC 2)%C in
  let dp := ((p + a) / (p - a))%C in
  let u := a_points A i1 p in
  do res <- de_sums true u dp g pts;
  let s := (cpow (croot 2 geom) (length u) / croot 2 geom)%C in
  let fact := (- RtoC fac / s)%C in
  let y1 := (cpow (croot 2 geom) (length A) * sqrt_affinereduction_gc u (RtoC 1))%C in
  if Ceq_dec y1 (RtoC 0) then Abort else
  let sgn := gp_sign (fst (yp / y1)%C) in
  Done (fun j => (RtoC sgn * (vget res j * (fact * cpow geom j)))%C).
