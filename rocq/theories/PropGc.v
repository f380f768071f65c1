(** C44: the parameters of the Gauss-Chebyshev rule. *)
From Coq Require Import Reals Lra Lia.
From Coquelicot Require Import Coquelicot.
From Verif Require Import CArg ModelGc SpecGc ProofGc ProofGc2.
Local Open Scope R_scope.

(** When the ellipse chosen avoids the branch points, the error radius is at least the published
    bound, with the integrand at any point of the ellipse. *)
Theorem C44_radius_partial fuel u d prec n e r : gc_params fuel u d prec = Done (n, e, r) ->
  avoids r u -> (0 < n)%Z ->
  exists e', e = Some e' /\
  forall i z, (i <= d)%nat -> half_sum z <= r -> gc_bound (integrand u i z) (acosh r) n <= e'.
Proof. intros H1 H2. apply (gc_radius fuel u d prec); try easy. exact (gc_r_ge_1 _ _ _ _ _ _ _ H1). Qed.
Print Assumptions C44_radius_partial.

(** If the precision is large enough compared with the spread of the branch points, the loop ends, the ellipse
    avoids the branch points and the radius is at most twice the tolerance. *)
Theorem C44_tolerance_partial fuel u d prec : (2 <= fuel)%nat -> u <> [] ->
  within_reach d prec u ->
  exists n e r, gc_params fuel u d prec = Done (n, Some e, r) /\ (0 < n)%Z /\ 1 < r /\ avoids r u /\
    0 < e <= 2 * Rpower 2 (- IZR prec).
Proof. intros Hf. destruct fuel as [|[|fuel]]; [lia|lia|]. apply gc_enough. Qed.
Print Assumptions C44_tolerance_partial.
Example C44_points : within_reach 2 16 [RtoC 3; RtoC 100; RtoC (-1000)].
Proof.
  assert (E : map half_sum [RtoC 3; RtoC 100; RtoC (-1000)] = [3; 100; 1000]).
  { cbn [map]. unfold half_sum. rewrite <- !RtoC_minus, <- !RtoC_plus, !Cmod_R, !(Rabs_pos_eq (_ - _)), !(Rabs_pos_eq (_ + _)), !Rabs_left by lra.
    f_equal; [lra|]. f_equal; [lra|]. f_equal. lra. }
  split; [lia|]. rewrite E. apply (proj1 (Forall_map half_sum (fun r => 1 < r /\ _ <= _ * r ^ _) _)). rewrite E. cbn [fold_right].
  replace (IZR 16) with (INR 16) by (cbn; lra). rewrite Rpower_pow by lra.
  repeat constructor; try lra; simpl; lra.
Qed.

(** Otherwise the ellipse may contain branch points, where the integrand is not bounded. *)
Theorem C44_ellipse_refuted : exists u d prec n e r, (0 < prec)%Z /\
  gc_params 2 u d prec = Done (n, Some e, r) /\ (0 < n)%Z /\ exists z, In z u /\ half_sum z < r.
Proof.
  destruct contains as (n & e & r & H1 & H2 & H3). exists points, 2%nat, 64%Z, n, e, r.
  split; [lia|]. split; [easy|]. split; [easy|]. exists (point r0). split; [now left|easy].
Qed.
Print Assumptions C44_ellipse_refuted.
