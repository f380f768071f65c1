(** Properties C91 and C92: the points of a curve in the Magma package *)
From Verif Require Import CArg SpecEdge ModelTree ModelVec ModelPeriod ModelMaRoot ModelMaPoint SpecMaPoint ProofMaPoint.
Local Open Scope R_scope.

(** SE_Branches lists the solutions of y^m = f(x), each of them, and nothing else, m entries long; they
    are distinct unless x is a branch point. *)
Theorem C91_branches_are_the_solutions : forall c x,
  sensible c -> away c (sc_error c) x \/ In x (sc_pts c) ->
  exists l, se_branches c x = Done l /\ length l = sc_m c /\ (forall y, In y l <-> on_curve c x y) /\
    (away c (sc_error c) x -> NoDup l).
Proof. exact branches_solutions. Qed.
Print Assumptions C91_branches_are_the_solutions.

(** Closer to a branch point than the error of the curve, they are those above that branch point. *)
Theorem C91_near_a_branch_point : forall c x p,
  sensible c -> In p (sc_pts c) -> Cmod (x - p)%C < sc_error c ->
  se_branches c x = Done (repeat (RtoC 0) (sc_m c)) /\ on_curve c p (RtoC 0).
Proof. exact branches_near. Qed.
Print Assumptions C91_near_a_branch_point.

(** For every x it answers with m values and without error. *)
Theorem C91_always_answers : forall c x, sensible c -> exists l, se_branches c x = Done l /\ length l = sc_m c.
Proof. exact branches_total. Qed.
Print Assumptions C91_always_answers.

(** A random point is on the curve. *)
Theorem C91_random_point : forall c x, sensible c -> away c (sc_error c) x \/ In x (sc_pts c) ->
  exists y, random_point c x = Done (x, y) /\ on_curve c x y.
Proof. exact random_on_curve. Qed.
Print Assumptions C91_random_point.

(** y^3 = 2 x (x - 1) (x - 2) above x = 3 *)
Example C91_nonvacuous : exists c, sensible c /\ sc_m c = 3%nat /\ away c (sc_error c) (RtoC 3) /\
  value_f c (RtoC 3) = RtoC 12.
Proof.
  exists (example_curve 3 2). split; [apply example_sensible; [lia|lra]|]. split; [reflexivity|]. split; [apply example_away|].
  rewrite example_value. f_equal. lra.
Qed.

(** The test of SE_Divisor accepts (x, y) if and only if the absolute value of y is, within the error,
    that of the points of the curve above x. *)
Theorem C92_test_compares_absolute_values : forall c x y err,
  sensible c -> away c (sc_error c) x \/ In x (sc_pts c) ->
  exists b, is_point c x y err = Done b /\
    (b = true <-> forall y0, on_curve c x y0 -> Rabs (Cmod y - Cmod y0) <= err).
Proof. exact test_all. Qed.
Print Assumptions C92_test_compares_absolute_values.

(** In particular every point of the curve is accepted.  Missing: that other points are refused. *)
Theorem C92_points_accepted_partial : forall c x y err,
  sensible c -> away c (sc_error c) x \/ In x (sc_pts c) -> 0 <= err -> on_curve c x y ->
  is_point c x y err = Done true.
Proof. exact test_accepts. Qed.
Print Assumptions C92_points_accepted_partial.

(** It also accepts every point with y turned by any angle. *)
Theorem C92_turned_points_accepted : forall c x y u err,
  sensible c -> away c (sc_error c) x \/ In x (sc_pts c) -> 0 <= err -> on_curve c x y -> Cmod u = 1 ->
  is_point c x (u * y)%C err = Done true.
Proof. exact test_turned. Qed.
Print Assumptions C92_turned_points_accepted.

(** Thus a point at distance at least 1 from all the points of the curve above the same x is accepted:
    (3, i) on y^2 = x (x - 1) (x - 2) / 6 with 30 digits. *)
Theorem C92_other_points_refused_refuted : exists c x y,
  sensible c /\ away c (sc_error c) x /\ is_point c x y (point_error c) = Done true /\
  forall y0, on_curve c x y0 -> 1 <= Cmod (y - y0)%C.
Proof. exact (ex_intro _ _ (ex_intro _ _ (ex_intro _ _ wrong_point))). Qed.
Print Assumptions C92_other_points_refused_refuted.

Example C92_nonvacuous : exists c x y, sensible c /\ away c (sc_error c) x /\ on_curve c x y /\ 0 <= point_error c.
Proof.
  exists (example_curve 2 (/ 6)), (RtoC 3), (RtoC 1). split; [apply example_sensible; [lia|lra]|]. split; [apply example_away|].
  split; [|left; apply point_error_pos]. unfold on_curve. rewrite example_value, cpow_one. f_equal. lra.
Qed.
