(** C107, C108: double exponential integration in gp/periods.gp. *)
From Coquelicot Require Import Coquelicot.
From Verif Require Import CArg ModelTree ModelGpGc ModelGpDe SpecMaRoot SpecEdge SpecGpDe ProofErr3 ProofGpGc ProofGpDe.
Local Open Scope R_scope.

(** The table of the points: tanh(l sinh(kh)) and cosh(kh) / cosh(l sinh(kh)) for k = 1, ..., N; with the
    factor, the weight times sqrt(1 - t^2) is h times the derivative of the change of variable. *)
Theorem C107_points :
  forall h l N, fst (integration_points_thsh h N l) = h * l /\ length (snd (integration_points_thsh h N l)) = N /\
  forall k, (k < N)%nat -> let s := INR (S k) * h in let p := nth k (snd (integration_points_thsh h N l)) (0, 0) in
    fst p = phi l s /\ snd p = cosh s / cosh (l * sinh s) /\
    fst (integration_points_thsh h N l) * snd p * sqrt (1 - fst p * fst p) = h * Derive (phi l) s.
Proof.
  intros h l N. rewrite points_ok. cbn [fst snd]. split; [reflexivity|]. split; [rewrite map_length; apply seq_length|].
  intros k Hk. cbv zeta.
  replace (nth k (map (fun i => (phi l (INR (S i) * h), wt l (INR (S i) * h))) (seq 0 N)) (0, 0)) with (phi l (INR (S k) * h), wt l (INR (S k) * h)).
  - cbn [fst snd]. split; [reflexivity|]. split; [reflexivity|]. rewrite phi_weight. ring.
  - rewrite (nth_indep _ (0, 0) ((fun i => (phi l (INR (S i) * h), wt l (INR (S i) * h))) O)) by (rewrite map_length, seq_length; exact Hk).
    rewrite (map_nth (fun i => (phi l (INR (S i) * h), wt l (INR (S i) * h)))), seq_nth by exact Hk. reflexivity.
Qed.
Print Assumptions C107_points.

(** There is one branch y of the curve y^2 = f(x), continuous along the edge, such that the entry number j
    is the double exponential sum with 2N+1 points for the integral of x^j dx / y over the edge; the two other
    results are the limits of i y / (d^2 sqrt(1-t^2)) at the ends, where d = dx/dt = (b-a)/2. *)
Theorem C107_period_sums :
  forall A a b g h l N, (a < length A)%nat -> (b < length A)%nat -> vget A a <> vget A b -> (1 <= g)%nat -> clear_edge A a b ->
  exists res Y, let d := ((vget A b - vget A a) / RtoC 2)%C in
    let x t := edge_point (vget A a) (vget A b) (RtoC t) in
    let y t := (- Ci * d * RtoC (sqrt (1 - t * t)) * Y t)%C in
    int_periods A g a b (fst (integration_points_thsh h N l)) (snd (integration_points_thsh h N l)) = Done (res, (Y (-1) / d)%C, (Y 1 / d)%C) /\
    (forall t, continuous (fun t => fst (Y t)) t /\ continuous (fun t => snd (Y t)) t) /\
    (forall t, -1 <= t <= 1 -> (y t * y t)%C = poly_at A (x t)) /\
    forall j, (j < g)%nat -> res j = de_rule h l N (fun t => cpow (x t) j * d / y t)%C.
Proof.
  intros A a b g h l N Ha Hb Hab Hg Hc. destruct (periods_ok A a b Ha Hb Hab g h l N Hg Hc) as [res [E V]].
  exists res, (fun t => (cpow (croot 2 ((vget A b - vget A a) / RtoC 2)%C) (length (ab_points_gc A a b)) * sqrt_affinereduction_gc (ab_points_gc A a b) (RtoC t))%C).
  cbv zeta. split; [exact E|]. split; [intros t; apply (Y_cont A a b t)|]. split; [intros t Ht; exact (curve_ok A a b Ha Hb Hab t Ht)|]. exact V.
Qed.
Print Assumptions C107_period_sums.

(** Double exponential and Gauss-Chebyshev integration take the same branch: the signs attached to an
    edge do not depend on the method. *)
Theorem C107_same_branch :
  forall A a b g h l N n, (a < length A)%nat -> (b < length A)%nat -> vget A a <> vget A b -> (1 <= g)%nat -> (1 <= n)%nat -> clear_edge A a b ->
  exists r r' vm vp, int_periods A g a b (fst (integration_points_thsh h N l)) (snd (integration_points_thsh h N l)) = Done (r, vm, vp) /\
    integrals_edge_gc A g n a b = Done (r', vm, vp).
Proof.
  intros A a b g h l N n Ha Hb Hab Hg Hn Hc. destruct (periods_ok A a b Ha Hb Hab g h l N Hg Hc) as [r [E _]].
  destruct (edge_ok A a b Ha Hb Hab g n Hn Hc) as [r' [E' _]]. exists r, r'. eexists _, _. split; [exact E|exact E'].
Qed.
Print Assumptions C107_same_branch.

(** The integral from a point P = (p, yp) of the curve to a branch point: there is one branch y,
    continuous along the segment, with value yp at p, such that the entry number j is minus the double
    exponential sum for the integral of x^j dx / y from the branch point to p. *)
Theorem C108_abel_jacobi :
  forall A a p yp g h l N, (a < length A)%nat -> p <> vget A a -> (1 <= g)%nat -> clear_path A a p -> (yp * yp)%C = poly_at A p ->
  exists res y, let x t := edge_point (vget A a) p (RtoC t) in
    int_AbelJacobi A g a p yp (fst (integration_points_thsh h N l)) (snd (integration_points_thsh h N l)) = Done res /\
    (forall t, continuous (fun t => fst (y t)) t /\ continuous (fun t => snd (y t)) t) /\
    (forall t, -1 <= t <= 1 -> (y t * y t)%C = poly_at A (x t)) /\ x 1 = p /\ y 1 = yp /\
    forall j, (j < g)%nat -> res j = (- de_rule h l N (fun t => cpow (x t) j * ((p - vget A a) / RtoC 2) / y t))%C.
Proof.
  intros A a p yp g h l N Ha Hp Hg Hc Hy. destruct (path_ok A a p Ha Hp g h l N yp Hg Hc Hy) as [res [s [Hs [E [Y1 V]]]]].
  exists res, (fun t => RtoC s * (croot 2 ((p - vget A a) / RtoC 2) * RtoC (sqrt (1 + t)) *
    (cpow (croot 2 ((p - vget A a) / RtoC 2)) (length (a_points A a p)) * sqrt_affinereduction_gc (a_points A a p) (RtoC t))))%C.
  cbv zeta. split; [exact E|]. split; [|split; [|split; [|split; [exact Y1|exact V]]]].
  - intros t. apply (ccont_mult (fun _ => RtoC s)); [apply ccont_const|apply (y_cont A a p t)].
  - intros t Ht. cbv beta. rewrite <- (y_sq A a p Ha Hp t) by lra.
    match goal with |- (RtoC s * ?q * (RtoC s * ?q))%C = _ => transitivity (RtoC s * RtoC s * (q * q))%C; [ring|] end.
    replace (RtoC s * RtoC s)%C with (RtoC 1) by (rewrite <- RtoC_mult; f_equal; destruct Hs as [-> | ->]; ring). ring.
  - unfold edge_point. rewrite ProofEdge.two. field. intros H0. injection H0. lra.
Qed.
Print Assumptions C108_abel_jacobi.

(** A point over a branch point is an error. *)
Theorem C108_branch_point_error :
  forall A a p k g yp fac pts, (k < length A)%nat -> p = vget A k -> (1 <= g)%nat -> int_AbelJacobi A g a p yp fac pts = Abort.
Proof. exact path_error. Qed.
Print Assumptions C108_branch_point_error.

Example C107_nonvacuous : let A : list C := [(0, 0); (1, 0); (-1, 0); (1, 2); (-2, -1)] in
  (0 < length A)%nat /\ (1 < length A)%nat /\ vget A 0 <> vget A 1 /\ clear_edge A 0 1.
Proof.
  cbn zeta. split; [cbn; lia|]. split; [cbn; lia|]. split; [cbn; intros E; injection E; lra|].
  intros k t Hk H0 H1 Ht E. pose proof (f_equal fst E) as E1. apply (f_equal snd) in E.
  destruct k as [|[|[|[|[|k]]]]]; try lia; [cbn in E1; lra|cbn in E; lra|cbn in E; lra|cbn in Hk; lia].
Qed.

(** y^2 = x(x-1)(x+1) = x^3 - x and the point (2, - sqrt 6) *)
Example C108_nonvacuous : let A : list C := [(0, 0); (1, 0); (-1, 0)] in let p : C := (2, 0) in let yp : C := (- sqrt 6, 0) in
  (1 < length A)%nat /\ p <> vget A 1 /\ clear_path A 1 p /\ (yp * yp)%C = poly_at A p.
Proof.
  cbn zeta. split; [cbn; lia|]. split; [cbn; intros E; injection E; lra|]. split.
  - intros k t Hk H1 Ht E. apply (f_equal fst) in E. destruct k as [|[|[|k]]]; try lia; [cbn in E; lra|cbn in E; lra|cbn in Hk; lia].
  - pose proof (sqrt_sqrt 6 ltac:(lra)) as S. apply injective_projections; cbn; nra.
Qed.
