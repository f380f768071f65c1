(** C101: the points at infinity of the Magma package when m divides n. *)
From Verif Require Import CArg ModelTree ModelVec ModelPeriod ModelTurn ModelMaInter ModelMaPoint ModelMaDivisor ModelMaInfty ModelMaGood SpecMaDivisor SpecMaInfty SpecMaGood ProofMaGood SpecEdge.
Local Open Scope nat_scope.

(** The points the code integrates to are the points of the curve with y = w x^N, x not zero, w^m = lc. *)
Theorem C101_points : forall x m lc N, 0 < m -> length x = N * m -> lc <> RtoC 0 ->
  exists w, cpow w m = lc /\ w <> RtoC 0 /\
  (forall t, t <> RtoC 0 -> good_poly x 1 t = RtoC 0 ->
     let p := good_affine m lc 1 N t in on_curve m lc x (fst p) (snd p) /\ fst p = (/ t)%C /\ fun_r 1 N w (fst p) (snd p) = RtoC 1) /\
  (forall X Y, on_curve m lc x X Y -> X <> RtoC 0 -> fun_r 1 N w X Y = RtoC 1 -> good_poly x 1 (/ X)%C = RtoC 0 /\ good_affine m lc 1 N (/ X)%C = (X, Y)).
Proof. exact good_points_ok. Qed.
Print Assumptions C101_points.

(** If the change matrix is the identity, as for monic polynomials, the values stored are those of the points at
    infinity, each at its place, between -1/2 and 1/2. *)
Theorem C101_values_partial : forall integ c d a b jpows N phi p0 i roots l y0,
  let m := sc_m c in let x := sc_pts c in
  let zs := map (good_affine m (sc_lc c) 1 N) (filter nonzero (roots (good_poly x 1))) in
  0 < m -> complete c d -> sc_delta c = Z.of_nat m -> length x = N * m -> (a + b * Z.of_nat N = 1)%Z ->
  (forall j k, j < sc_g c -> k < sc_g c -> aj_dcm d j k = RtoC (if j =? k then 1 else 0)%R) ->
  In p0 x -> integer (phi (PFin p0 (RtoC 0))) -> kills_coordinates m x m 1 N phi ->
  (forall j p r, nth_error x j = Some p -> nth_error (aj_ram d) j = Some r -> integer (r i - phi (PFin p (RtoC 0)))) ->
  (forall k, 1 <= k <= m -> kills_circle m x N k y0 zs phi /\ integrals_right integ c d jpows k i phi zs) ->
  good_values roots integ c d a b jpows = Done (Some l) ->
  length l = m /\ forall k, 1 <= k <= m -> exists v, nth_error l (k - 1) = Some v /\ (Rabs (v i) <= / 2)%R /\ integer (v i - phi (PInf (Z.of_nat k))).
Proof. exact good_values_right. Qed.
Print Assumptions C101_values_partial.

(** For y^2 = 4 x (x+2) (x-3) (x-4), with the change matrix of se_curve.m:276-277 and all the other hypotheses, both
    values stored are wrong: the integrals are reduced without that matrix. *)
Theorem C101_leading_coefficient_refuted : exists integ c d a b jpows N phi p0 roots y0,
  let m := sc_m c in let x := sc_pts c in
  let zs := map (good_affine m (sc_lc c) 1 N) (filter nonzero (roots (good_poly x 1))) in
  0 < m /\ complete c d /\ sc_delta c = Z.of_nat m /\ length x = N * m /\ (a + b * Z.of_nat N = 1)%Z /\
  (forall j k, aj_dcm d j k = if j =? k then cexp (RtoC (IZR 1) * (- RtoC (1 / INR m) * clog (sc_lc c)))%C else RtoC 0) /\
  In p0 x /\ integer (phi (PFin p0 (RtoC 0))) /\ kills_coordinates m x m 1 N phi /\
  (forall j p r, nth_error x j = Some p -> nth_error (aj_ram d) j = Some r -> integer (r 0 - phi (PFin p (RtoC 0)))) /\
  (forall t, In t (roots (good_poly x 1)) <-> good_poly x 1 t = RtoC 0) /\ NoDup (roots (good_poly x 1)) /\
  (forall k, 1 <= k <= m -> kills_circle m x N k y0 zs phi /\ integrals_right integ c d jpows k 0 phi zs) /\
  exists l, good_values roots integ c d a b jpows = Done (Some l) /\
    forall k, 1 <= k <= m -> exists v, nth_error l (k - 1) = Some v /\ ~ integer (v 0 - phi (PInf (Z.of_nat k))).
Proof. exact good_refuted. Qed.
Print Assumptions C101_leading_coefficient_refuted.

(** the same curve with leading coefficient 1 *)
Example C101_nonvacuous : exists integ c d a b jpows N phi p0 roots y0 l,
  let m := sc_m c in let x := sc_pts c in
  let zs := map (good_affine m (sc_lc c) 1 N) (filter nonzero (roots (good_poly x 1))) in
  0 < m /\ complete c d /\ sc_delta c = Z.of_nat m /\ length x = N * m /\ (a + b * Z.of_nat N = 1)%Z /\
  (forall j k, j < sc_g c -> k < sc_g c -> aj_dcm d j k = RtoC (if j =? k then 1 else 0)%R) /\
  In p0 x /\ integer (phi (PFin p0 (RtoC 0))) /\ kills_coordinates m x m 1 N phi /\
  (forall j p r, nth_error x j = Some p -> nth_error (aj_ram d) j = Some r -> integer (r 0 - phi (PFin p (RtoC 0)))) /\
  (forall k, 1 <= k <= m -> kills_circle m x N k y0 zs phi /\ integrals_right integ c d jpows k 0 phi zs) /\
  good_values roots integ c d a b jpows = Done (Some l) /\ ~ integer (phi (PInf 1)).
Proof. exact good_example. Qed.
