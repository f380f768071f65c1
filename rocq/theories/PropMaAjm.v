(** C97: integrals from a branch point to a point of the curve, Magma package.  Statements only.
    The curve is y^m = lc prod (x - x_k), the point is (p,py), the path goes straight from x_a to p.
    [path_to], [form_along], [clear_to] and [node_rule] are in SpecMaAjm.v, [de_rule] in SpecQuad.v. *)
From Coquelicot Require Import Coquelicot.
From Verif Require Import CArg ModelTree ModelVec ModelPeriod ModelMaRoot ModelMaDiff ModelMaSum ModelMaAjm SpecPeriod SpecQuad SpecMaAjm ProofMaAjm ProofMaAjm3 SpecEdge.
Local Open Scope nat_scope.

(** Double exponential: the result is the trapezoidal sum, over the nodes |k| <= N-1, of the differentials
    x^i dx/y^j on the sheet that continuously reaches the point.  The ordinate given, py', only needs an
    argument less than pi/m away from that of py.  No run fails. *)
Theorem C97_double_exponential :
  forall x a m p lc py py' r th d,
  a < length x -> vget x a <> p -> 2 <= m -> 3 <= length x -> clear_to x a p -> lc <> RtoC 0 ->
  cpow py m = (lc * poly_at x p)%C -> py' = (py * (RtoC r * cis th))%C -> (0 < r)%R -> (Rabs th < PI / INR m)%R ->
  ma_differentials (Z.of_nat m) (Z.of_nat (length x)) = Done d ->
  forall h lam N, exists Y E, path_to x m lc (vget x a) p py Y /\
    de_to_point x m lc d a p py' h lam N = Done E /\ Z.of_nat (length E) = md_g d /\
    forall q i, q < length (md_df d) -> (Z.of_nat i < nth q (md_df d) 0)%Z ->
      vget E (offset (md_df d) q + i) = de_rule lam h (N - 1) (form_along (vget x a) p Y (Z.to_nat (md_jm d + Z.of_nat q)) i).
Proof. exact de_to_point_ok. Qed.

(** Gauss-Jacobi: sum over the N nodes of the rule of the j-th block with weight (1+t)^(-j/m). *)
Theorem C97_gauss_jacobi :
  forall x a m p lc py py' r th d,
  a < length x -> vget x a <> p -> 2 <= m -> 3 <= length x -> clear_to x a p -> lc <> RtoC 0 ->
  cpow py m = (lc * poly_at x p)%C -> py' = (py * (RtoC r * cis th))%C -> (0 < r)%R -> (Rabs th < PI / INR m)%R ->
  ma_differentials (Z.of_nat m) (Z.of_nat (length x)) = Done d ->
  forall sch N, length sch = length (md_df d) ->
  (forall s, In s sch -> N <= length (fst s) /\ N <= length (snd s) /\ forall t, t < N -> (-1 < nth t (fst s) 0 < 1)%R) ->
  exists Y E, path_to x m lc (vget x a) p py Y /\
    gj_to_point x m lc d a p py' sch N = Done E /\ Z.of_nat (length E) = md_g d /\
    forall q i s, nth_error sch q = Some s -> (Z.of_nat i < nth q (md_df d) 0)%Z ->
      let j := Z.to_nat (md_jm d + Z.of_nat q) in
      vget E (offset (md_df d) q + i) =
      node_rule N (fst s) (snd s) (fun t => cpow (RtoC (rroot (Z.of_nat m) (1 + t))) j * form_along (vget x a) p Y j i t)%C.
Proof. exact gj_to_point_ok. Qed.

(** From the nearest branch point (se_abel_jacobi.m:178) the path meets no other one. *)
Theorem C97_nearest_branch_point :
  forall x a p, a < length x -> NoDup x ->
  (forall k, k < length x -> (Cmod (p - vget x a)%C <= Cmod (p - vget x k)%C)%R) -> clear_to x a p.
Proof. exact nearest_clear. Qed.

(** the hypotheses for y^2 = 2 (x+1)(x-1)(x-5), the point (0, sqrt 10) given as 2 sqrt 10 exp(i) *)
Example C97_nonvacuous :
  let x := [RtoC (Ropp 1); RtoC 1; RtoC 5] in
  vget x 0 <> RtoC 0 /\ clear_to x 0 (RtoC 0) /\ cpow (RtoC (sqrt 10)) 2 = (RtoC 2 * poly_at x (RtoC 0))%C /\
  (0 < 2)%R /\ (Rabs 1 < PI / INR 2)%R /\ exists d, ma_differentials 2 3 = Done d /\ md_df d = [1%Z].
Proof.
  cbv zeta. split; [unfold vget; cbn [nth]; intros E; apply RtoC_inj in E; lra|]. split.
  { intros k t Hk Hka Ht E. apply (f_equal fst) in E. destruct k as [|[|[|k]]]; try lia; unfold vget, edge_point in E; cbn in E; try lra; cbn in Hk; lia. }
  split.
  { assert (S : (sqrt 10 * sqrt 10)%R = 10%R) by (apply sqrt_sqrt; lra). unfold poly_at. cbn [cpow cprod].
    unfold Cminus, Cmult, Cplus, Copp, RtoC. cbn [fst snd]. f_equal; lra. }
  split; [lra|]. split.
  { rewrite Rabs_pos_eq by lra. pose proof PI_4. pose proof (PI2_1). cbn [INR]. unfold Rdiv in *. lra. }
  eexists. split; [vm_compute; reflexivity|reflexivity].
Qed.

Print Assumptions C97_double_exponential.
Print Assumptions C97_gauss_jacobi.
Print Assumptions C97_nearest_branch_point.
