(** C106: Gauss-Chebyshev integration along the edges in gp/gcperiods.gp. *)
From Coquelicot Require Import Coquelicot.
From Verif Require Import CArg ModelTree ModelGpGc SpecMaRoot SpecEdge ProofErr3 ProofGpGc.
Local Open Scope R_scope.

(** There is one branch y of the curve y^2 = f(x), continuous along the edge, such that the entry number j
    is the Gauss-Chebyshev sum with n points for the integral of x^j dx / y; the two other results are the
    limits of i y / (h^2 sqrt(1-t^2)) at the ends, where h = dx/dt = (b-a)/2. *)
Theorem C106_edge_integrals :
  forall A a b g n, (a < length A)%nat -> (b < length A)%nat -> vget A a <> vget A b -> (1 <= n)%nat -> clear_edge A a b ->
  exists res Y, let h := ((vget A b - vget A a) / RtoC 2)%C in
    let x t := edge_point (vget A a) (vget A b) (RtoC t) in
    let y t := (- Ci * h * RtoC (sqrt (1 - t * t)) * Y t)%C in
    integrals_edge_gc A g n a b = Done (res, (Y (-1) / h)%C, (Y 1 / h)%C) /\
    (forall t, continuous (fun t => fst (Y t)) t /\ continuous (fun t => snd (Y t)) t) /\
    (forall t, -1 <= t <= 1 -> (y t * y t)%C = poly_at A (x t)) /\
    forall j, (j < g)%nat ->
      res j = csum n (fun k => let t := cos ((2 * INR k + 1) * PI / (2 * INR n)) in
                RtoC (PI / INR n) * (RtoC (sqrt (1 - t * t)) * (cpow (x t) j * h / y t)))%C.
Proof.
  intros A a b g n Ha Hb Hab Hn Hc. destruct (edge_ok A a b Ha Hb Hab g n Hn Hc) as [res [E V]].
  exists res, (fun t => (cpow (croot 2 ((vget A b - vget A a) / RtoC 2)%C) (length (ab_points_gc A a b)) * sqrt_affinereduction_gc (ab_points_gc A a b) (RtoC t))%C).
  cbv zeta. split; [exact E|]. split; [intros t; apply (Y_cont A a b t)|]. split; [intros t Ht; exact (curve_ok A a b Ha Hb Hab t Ht)|].
  intros j Hj. rewrite (V j Hj). apply csum_ext. intros k Hk. fold (node n k).
  assert (ST : RtoC (sqrt (1 - node n k * node n k)) <> RtoC 0).
  { intros E0. injection E0 as E0. apply sqrt_eq_0 in E0; [|pose proof (COS_bound ((2 * INR k + 1) * PI / (2 * INR n))); unfold node; nra].
    assert (S0 : sin ((2 * INR k + 1) * PI / (2 * INR n)) = 0).
    { pose proof (sin2_cos2 ((2 * INR k + 1) * PI / (2 * INR n))) as S. unfold Rsqr in S. unfold node in E0. nra. }
    assert (0 < sin ((2 * INR k + 1) * PI / (2 * INR n))); [|lra].
    pose proof PI_RGT_0. assert (0 < INR n) by (apply lt_0_INR; lia). pose proof (pos_INR k).
    assert (INR k + 1 <= INR n) by (rewrite <- S_INR; apply le_INR; lia).
    apply sin_gt_0.
    - apply Rdiv_lt_0_compat; nra.
    - apply (Rmult_lt_reg_r (2 * INR n)); [lra|]. unfold Rdiv. rewrite Rmult_assoc, Rinv_l by lra. nra. }
  assert (HN := h_nz A a b Ha Hb Hab). assert (YN := Y_nz A a b Ha Hb Hab (node n k) Hc (COS_bound _)).
  assert (IN : INR n <> 0) by (apply not_0_INR; lia).
  assert (S3 : RtoC (INR n) <> RtoC 0) by (intros E0; injection E0 as E0; contradiction).
  assert (CN : Ci <> RtoC 0) by (intros E0; injection E0; lra).
  cbv beta in *. rewrite RtoC_div by exact IN. set (h := ((vget A b - vget A a) / RtoC 2)%C) in *.
  f_equal. set (s := RtoC (sqrt _)) in *. set (q := cpow _ j).
  set (y := (cpow (croot 2 h) (length (ab_points_gc A a b)) * sqrt_affinereduction_gc (ab_points_gc A a b) (RtoC (node n k)))%C) in *.
  assert (I2 : (Ci * Ci = - RtoC 1)%C) by (apply injective_projections; cbn; ring).
  transitivity (q * (Ci * Ci) / (Ci * y))%C; [field; repeat split; auto|]. rewrite I2. field. repeat split; auto.
  intros E0. injection E0. lra.
Qed.
Print Assumptions C106_edge_integrals.

(** The shift of the moments: polshift turns the sums of t_k x_k^j into those of t_k (x_k + c)^j. *)
Theorem C106_polshift :
  forall len n (t x : nat -> C) c v, (forall j, (j < len)%nat -> v j = csum n (fun k => t k * cpow (x k) j)%C) ->
  forall j, (j < len)%nat -> polshift len v c j = csum n (fun k => t k * cpow (x k + c) j)%C.
Proof. exact polshift_moments. Qed.
Print Assumptions C106_polshift.

Example C106_nonvacuous : let A : list C := [(0, 0); (1, 0); (-1, 0); (1, 2); (-2, -1)] in
  (0 < length A)%nat /\ (1 < length A)%nat /\ vget A 0 <> vget A 1 /\ clear_edge A 0 1.
Proof.
  cbn zeta. split; [cbn; lia|]. split; [cbn; lia|]. split; [cbn; intros E; injection E; lra|].
  intros k t Hk H0 H1 Ht E. pose proof (f_equal fst E) as E1. apply (f_equal snd) in E.
  destruct k as [|[|[|[|[|k]]]]]; try lia; [cbn in E1; lra|cbn in E; lra|cbn in E; lra|cbn in Hk; lia].
Qed.
