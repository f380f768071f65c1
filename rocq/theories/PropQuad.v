(** C36-C38, C42, C54: quadrature sums.  Statements only. *)
From Verif Require Import CArg ModelTree ModelCurve SpecCurve ModelPeriod SpecPeriod ModelVec ModelQuad SpecQuad ProofQuad ProofGauss ProofTrap.
Local Open Scope nat_scope.

(** C36 *)
Theorem C36_gauss_chebyshev_abscissae :
  forall n, 1 <= n -> exists c, gc_int_init n = Done c /\ length c = n / 2 /\
    forall k, k < n / 2 -> rget c k = cos (INR (2 * k + 1) * PI / (2 * INR n)).
Proof. exact gc_table. Qed.
Print Assumptions C36_gauss_chebyshev_abscissae.

(** C37: [y] is the function the roots are evaluated with; [y0] the value used for the middle
    node, computed by another routine. *)
Theorem C37_sum_over_all_nodes :
  forall (y : R -> C) y0 g n, 1 <= n -> 1 <= g -> y0 = y 0%R ->
    exists res, gc_integrals y y0 g n = Done res /\ length res = g /\
      forall l, l < g -> vget res l = gc_rule n (fun t => cpow (RtoC t) l / y t)%C.
Proof. exact gc_sums. Qed.
Print Assumptions C37_sum_over_all_nodes.

(** the hypotheses hold for y(t) = 2 + t, five nodes and three moments *)
Example C37_nonvacuous : exists res, gc_integrals (fun t => RtoC (2 + t)) (RtoC 2) 3 5 = Done res /\
  vget res 2 = gc_rule 5 (fun t => cpow (RtoC t) 2 / RtoC (2 + t))%C.
Proof.
  destruct (C37_sum_over_all_nodes (fun t => RtoC (2 + t)) (RtoC 2) 3 5) as (res & E & _ & H).
  - repeat constructor.
  - repeat constructor.
  - cbn beta. rewrite Rplus_0_r. reflexivity.
  - exists res. split; [exact E|]. apply H. repeat constructor.
Qed.

(** C38: improper integral over ]-1,1[ *)
Theorem C38_exact_on_polynomials :
  forall n p, 1 <= n -> p < 2 * n ->
    exists I, gc_rule n (fun t => cpow (RtoC t) p) = RtoC I /\
      is_RInt_gen (fun t => t ^ p / sqrt (1 - t * t))%R (at_right (-1)) (at_left 1) I.
Proof. exact gc_exact. Qed.
Print Assumptions C38_exact_on_polynomials.

(** the moments computed for a constant y, with any number of moments *)
Theorem C38_computed_moments_exact :
  forall n g, 1 <= n -> 1 <= g ->
    exists res, gc_integrals (fun _ => RtoC 1) (RtoC 1) g n = Done res /\
      forall l, l < g -> l < 2 * n -> exists I, vget res l = RtoC I /\
        is_RInt_gen (fun t => t ^ l / sqrt (1 - t * t))%R (at_right (-1)) (at_left 1) I.
Proof. exact gc_moments_exact. Qed.
Print Assumptions C38_computed_moments_exact.

(** with one node and one moment: the value is pi *)
Example C38_nonvacuous : exists res, gc_integrals (fun _ => RtoC 1) (RtoC 1) 1 1 = Done res /\ vget res 0 = RtoC PI.
Proof.
  destruct (C37_sum_over_all_nodes (fun _ => RtoC 1) (RtoC 1) 1 1) as (res & E & _ & H); try (repeat constructor).
  exists res. split; [exact E|]. rewrite H by repeat constructor. unfold gc_rule. cbn [csum cpow INR].
  replace (PI / 1)%R with PI by field. field. intros E0. injection E0. lra.
Qed.

(** C42: the double exponential sum from a table of N points is the trapezoidal sum over
    |k| <= N - 1 ... *)
Theorem C42_sum_over_nodes_partial :
  forall m n c h lambda N (y : R -> C), sec_init m n = Done c -> (1 <= n)%Z -> 1 <= N ->
    (forall t, (-1 < t < 1)%R -> y t <> RtoC 0) ->
    exists res, de_integrals_precomp y c (de_int_init h lambda N m) = Done res /\ Z.of_nat (length res) = sec_g c /\
      forall q i, q < length (sec_ni c) -> (Z.of_nat i < nth q (sec_ni c) 0)%Z ->
        vget res (offset (sec_ni c) q + i) =
        de_rule lambda h (N - 1) (integrand m y (Z.to_nat (sec_j1 c + Z.of_nat q)) i).
Proof. exact de_sums. Qed.
Print Assumptions C42_sum_over_nodes_partial.

(** ... and never the documented one over |k| <= N: for every curve, step and lambda the sums
    differ already for y = 1.  The error bound is computed with N (see C43). *)
Theorem C42_last_node_missing_refuted :
  forall m n c h lambda N, sec_init m n = Done c -> (1 <= n)%Z -> (1 <= sec_g c)%Z -> 1 <= N -> (0 < lambda)%R -> (0 < h)%R ->
    exists res, de_integrals_precomp (fun _ => RtoC 1) c (de_int_init h lambda N m) = Done res /\
      vget res 0 <> de_rule lambda h N (integrand m (fun _ => RtoC 1) (Z.to_nat (sec_j1 c)) 0).
Proof. exact last_node_missing. Qed.
Print Assumptions C42_last_node_missing_refuted.

Example C42_nonvacuous : exists c, sec_init 3 5 = Done c /\ sec_g c = 4%Z /\ sec_ni c = [1; 3]%Z /\
  (forall t : R, (-1 < t < 1)%R -> (fun t => RtoC (2 + t)) t <> RtoC 0).
Proof.
  eexists. split; [vm_compute; reflexivity|]. split; [reflexivity|]. split; [reflexivity|].
  intros t Ht E. injection E. lra.
Qed.

(** C54: two branch points: differential number q is dx/y^j, j = j1 + q, and its raw integral is
    set to sqrt(pi) Gamma(s) / Gamma(s + 1/2) with s = 1 - j/m, which is the integral of
    (1-t^2)^(-j/m) over ]-1,1[ when gamma is the Gamma function. *)
Theorem C54_two_branch_points :
  forall (gamma : R -> R) m c, sec_init m 2 = Done c ->
    Z.of_nat (length (integral_d2_raw gamma c)) = sec_g c /\
    (forall q, q < length (sec_ni c) -> nth q (sec_ni c) 0%Z = 1%Z /\ offset (sec_ni c) q = q) /\
    forall q, q < length (sec_ni c) ->
      let s := (1 - IZR (sec_j1 c + Z.of_nat q) / IZR m)%R in
      vget (integral_d2_raw gamma c) q = RtoC (sqrt PI * gamma s / gamma (s + / 2))%R.
Proof. exact d2_values. Qed.
Print Assumptions C54_two_branch_points.

Example C54_nonvacuous : exists c, sec_init 7 2 = Done c /\ sec_ni c = [1; 1; 1]%Z /\ sec_j1 c = 4%Z.
Proof. eexists. split; vm_compute; [reflexivity|]. split; reflexivity. Qed.
