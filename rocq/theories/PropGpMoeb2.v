(** C110: the older calculation of the action of Moebius transformations in gp/periods.gp. *)
From Verif Require Import CArg ModelTree SpecVec ModelGpMoeb ModelGpMoeb2 SpecEdge SpecGpMoeb ProofGpMoeb ProofGpMoeb2.
Local Open Scope C_scope.

(** For an invertible matrix both functions give, row by row, the same polynomial up to one constant
    factor K, which is the factor of Y for the affine maps whose composition the older one takes. *)
Theorem C110_old_and_new :
  forall a b c d g degree, a * d - b * c <> RtoC 0 ->
  let K := if Ceq_dec c (RtoC 0) then cpow d (g + 1) * croot 2 (cpow (a / d) degree)
           else croot 2 (cpow (b - a * d / c) degree) * croot 2 (cpow c degree) in
  K <> RtoC 0 /\ exists M, moebius_matrix_old a b c d g degree = Done M /\
    forall k x, (k < g)%nat -> K * csum g (fun l => M k l * cpow x l) = csum g (fun l => moebius_matrix a b c d g k l * cpow x l).
Proof. exact old_ok. Qed.
Print Assumptions C110_old_and_new.

(** For an affine map X = ax + b, with Y = sqrt(a^n) y, the matrix is exactly the one of the pull-backs of
    X^k dX / Y, and (X, Y) is on the curve with the branch points a p + b. *)
Theorem C110_affine :
  forall a b g A k x y, a <> RtoC 0 -> (k < g)%nat -> y * y = poly_at A x -> y <> RtoC 0 ->
  let X := a * x + b in let Y := croot 2 (cpow a (length A)) * y in
  exists M, moebius_matrix_old a b (RtoC 0) (RtoC 1) g (length A) = Done M /\
    csum g (fun l => M k l * (cpow x l / y)) = cpow X k * a / Y /\ Y * Y = poly_at (map (fun p => a * p + b) A) X.
Proof.
  intros a b g A k x y Ha Hk Hy Ny X Y. unfold X, Y, moebius_matrix_old.
  destruct (Ceq_dec (RtoC 0) (RtoC 0)) as [_|N]; [|contradiction]. destruct (Ceq_dec (RtoC 1) (RtoC 0)) as [E|N1]; [exfalso; injection E; lra|].
  replace (a / RtoC 1) with a by (field; exact N1). replace (b / RtoC 1) with b by (field; exact N1).
  destruct (Ceq_dec _ _) as [Z|_]; [now apply cpow_neq_0 in Z|]. eexists. split; [reflexivity|]. assert (S1 := root_pow_nz a (length A) Ha). split.
  - rewrite (csum_ext _ _ (fun l => homot_mat a b (length A) k l * cpow x l * (/ y))) by (intros l _; unfold Cdiv; ring).
    rewrite csum_scal_r. fold (rval g (homot_mat a b (length A)) k x). rewrite homot_val by exact Hk. field. split; assumption.
  - set (r := croot 2 (cpow a (length A))) in *. replace (r * y * (r * y)) with ((r * r) * (y * y)) by ring. rewrite Hy.
    replace (r * r) with (cpow a (length A)).
    2: { unfold r. pose proof (croot_pow 2 (cpow a (length A)) ltac:(lia)) as E. cbn [cpow Z.of_nat Pos.of_succ_nat Pos.succ] in E. rewrite <- E at 1. ring. }
    clear. induction A as [|p A IH]; unfold poly_at in *; cbn [map cprod length cpow]; [ring|]. rewrite <- IH. ring.
Qed.
Print Assumptions C110_affine.

(** The zero matrix is an error. *)
Theorem C110_zero_error :
  forall g degree, (1 <= degree)%nat -> moebius_matrix_old (RtoC 0) (RtoC 0) (RtoC 0) (RtoC 0) g degree = Abort.
Proof.
  intros g degree H. unfold moebius_matrix_old. destruct (Ceq_dec (RtoC 0) (RtoC 0)) as [_|N]; [|contradiction].
  destruct (Ceq_dec _ _) as [_|N]; [reflexivity|]. exfalso. apply N. destruct degree; [lia|]. cbn [cpow]. ring.
Qed.
Print Assumptions C110_zero_error.

(** the matrix H1 = [3,7;2,5] of the script, and x -> 3x + 7 on y^2 = x^2 - 1 at (2, sqrt 3) *)
Example C110_nonvacuous : RtoC 3 * RtoC 5 - RtoC 7 * RtoC 2 <> RtoC 0 /\
  exists y, y * y = poly_at [RtoC 1; RtoC (-1)] (RtoC 2) /\ y <> RtoC 0.
Proof.
  split; [intros E; injection E; lra|]. exists (RtoC (sqrt 3)). split.
  - rewrite <- RtoC_mult, sqrt_sqrt by lra. apply injective_projections; cbn; ring.
  - intros E. injection E as E. pose proof (sqrt_lt_R0 3 ltac:(lra)). lra.
Qed.
