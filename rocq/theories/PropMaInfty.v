(** C100: the Abel-Jacobi map of the points at infinity in the Magma package. *)
From Verif Require Import CArg ModelTree ModelVec ModelPeriod ModelMaInter ModelMaDivisor ModelMaRam ModelMaInfty SpecMaDivisor SpecMaInfty ProofMaInfty ProofMaInfty2 ProofMaInfty3 SpecEdge.
Local Open Scope nat_scope.

(** The search for coefficients of opposite signs ends, and keeps the relation. *)
Theorem C100_coefficients : forall m n a b delta, (0 < m)%Z -> (0 < n)%Z -> (0 < delta)%Z -> (a * m + b * n = delta)%Z ->
  exists a' b', make_negative (Z.to_nat a + 2) m n a b = Done (a', b') /\ (a' < 0 < b')%Z /\ (a' * m + b' * n = delta)%Z.
Proof. exact infty_loop. Qed.
Print Assumptions C100_coefficients.

(** The points used for the k-th point at infinity: nonzero roots t of the polynomial and points of the curve
    outside the axes on which r = r(k) + t are the same, and the code finds the point from t. *)
Theorem C100_points : forall x m lc delta M N (a b : Z) k, m = M * delta -> length x = N * delta -> 0 < delta -> 0 < M -> lc <> RtoC 0 ->
  (a < 0 < b)%Z -> (a * Z.of_nat M + b * Z.of_nat N = 1)%Z ->
  let nb := Z.to_nat b in let na := Z.to_nat (- a) in let r := root (Z.of_nat delta) (Z.of_nat k) in
  exists w, cpow w m = lc /\ w <> RtoC 0 /\
  (forall t, t <> RtoC 0 -> infty_poly x delta M nb r t = RtoC 0 ->
     let p := infty_affine m lc M N a b r t in
     on_curve m lc x (fst p) (snd p) /\ fst p <> RtoC 0 /\ snd p <> RtoC 0 /\ fun_t na nb w (fst p) (snd p) = t /\ fun_r M N w (fst p) (snd p) = (r + t)%C) /\
  (forall X Y, on_curve m lc x X Y -> X <> RtoC 0 -> Y <> RtoC 0 -> fun_r M N w X Y = (r + fun_t na nb w X Y)%C ->
     let t := fun_t na nb w X Y in
     t <> RtoC 0 /\ infty_poly x delta M nb r t = RtoC 0 /\ infty_affine m lc M N a b r t = (X, Y)).
Proof. exact infty_points_ok. Qed.
Print Assumptions C100_points.

(** The number stored as the sum of the points at infinity is that sum, whatever coefficients Xgcd returns. *)
Theorem C100_sum : forall x m delta M N phi p0 (b0 a0 : Z) ram i, In p0 x -> integer (phi (PFin p0 (RtoC 0))) -> kills_coordinates m x delta M N phi ->
  (a0 * Z.of_nat M + b0 * Z.of_nat N = 1)%Z -> Forall2 (fun v p => integer (v i - phi (PFin p (RtoC 0)))) ram x ->
  integer (sum_of_infty b0 ram i - extend phi (at_infinity delta 1)).
Proof. exact (fun x m delta M N phi p0 b0 a0 ram i H0 H1 H2 => sum_right x m delta M N phi p0 H0 H1 H2 b0 a0 ram i). Qed.
Print Assumptions C100_sum.

(** The number the first call for the k-th point at infinity stores is the image of that point less (1+b) times
    the sum of the images of all the points at infinity: right exactly if that multiple is an integer, which
    it is if M divides N + 1 *)
Theorem C100_value_partial : forall roots aj x m lc delta M N a0 b0 good sum k l l' phi p0 y0 i,
  m = M * delta -> length x = N * delta -> 2 <= delta -> 2 <= M -> 0 < N -> NoDup x ->
  (a0 * Z.of_nat m + b0 * Z.of_nat (length x) = Z.of_nat delta)%Z -> 1 <= k <= delta -> length l = delta -> nth (k - 1) l None = None -> all_defined (others k l) = false ->
  In p0 x -> integer (phi (PFin p0 (RtoC 0))) -> kills_coordinates m x delta M N phi ->
  (forall D, integer (aj D i - extend phi D)) -> integer (sum i - extend phi (at_infinity delta 1)) ->
  infty_point roots aj x m lc delta a0 b0 good sum k l = Done l' ->
  exists a b v, make_negative (Z.to_nat a0 + 2) (Z.of_nat m) (Z.of_nat (length x)) a0 b0 = Done (a, b) /\ l' = upd l (k - 1) (Some v) /\
    let r := root (Z.of_nat delta) (Z.of_nat k) in let ts := roots (infty_poly x delta M (Z.to_nat b) r) in
    (length ts = (M + Z.to_nat b) * length (remove Ceq_dec (RtoC 0) x) ->
     kills_line m x delta M N (Z.to_nat b) k y0 (map (infty_affine m lc M N a b r) (filter nonzero ts)) phi ->
     integer (v i - (phi (PInf (Z.of_nat k)) - (1 + IZR b) * extend phi (at_infinity delta 1))) /\
     (integer (v i - phi (PInf (Z.of_nat k))) <-> integer (IZR (1 + b) * extend phi (at_infinity delta 1))) /\
     ((Z.of_nat M | 1 + Z.of_nat N)%Z -> integer (v i - phi (PInf (Z.of_nat k))))).
Proof. exact infty_value. Qed.
Print Assumptions C100_value_partial.

(** For y^6 = (x-1) ... (x-8), with a map that vanishes on the divisors of x - x_i, y, x and of the function
    used, the numbers stored for the point asked for first are wrong, and they depend on which is asked for
    first.  The oracle for roots only has to return 32 roots of which one is zero. *)
Theorem C100_value_refuted : exists x m M N a0 b0 phi p0, m = M * 2 /\ length x = N * 2 /\ NoDup x /\
  (a0 * Z.of_nat m + b0 * Z.of_nat (length x) = 2)%Z /\ In p0 x /\ integer (phi (PFin p0 (RtoC 0))) /\ kills_coordinates m x 2 M N phi /\
  (forall k a b r ts, length (filter nonzero ts) = 31 -> kills_line m x 2 M N 1 k (RtoC 1) (map (infty_affine m (RtoC 1) M N a b r) (filter nonzero ts)) phi) /\
  forall roots aj sum good i,
    (forall k, 1 <= k <= 2 -> length (roots (infty_poly x 2 M 1 (root 2 (Z.of_nat k)))) = 32 /\ length (filter nonzero (roots (infty_poly x 2 M 1 (root 2 (Z.of_nat k))))) = 31) ->
    (forall D, integer (aj D i - extend phi D)) -> integer (sum i - extend phi (at_infinity 2 1)) ->
    exists v1 v2 w1 w2, twice roots aj x m (RtoC 1) a0 b0 good sum 1 2 = Done [Some v1; Some v2] /\ twice roots aj x m (RtoC 1) a0 b0 good sum 2 1 = Done [Some w1; Some w2] /\
      ~ integer (v1 i - phi (PInf 1)) /\ ~ integer (w2 i - phi (PInf 2)) /\ ~ integer (v1 i - w1 i).
Proof. exact eight_case. Qed.
Print Assumptions C100_value_refuted.

(** the point with t = 1 for y^4 = (x+1/2) (x-1/4) (x-5/2) (x-1) (x+1) (x-1/3); and an oracle as in the last
    theorem *)
Example C100_nonvacuous :
  infty_poly six 2 2 1 (root (Z.of_nat 2) (Z.of_nat 2)) (RtoC 1) = RtoC 0 /\
  (exists roots aj sum l, infty_point roots aj eight 6 (RtoC 1) 2 (-1) 1 None sum 1 [None; None] = Done l /\
    (forall D, integer (aj D 0 - extend phi3 D)) /\ integer (sum 0 - extend phi3 (at_infinity 2 1))).
Proof. exact (conj six_root eight_runs). Qed.
