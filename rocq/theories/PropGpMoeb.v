(** C109: Moebius transformations in gp/periods.gp. *)
From Verif Require Import CArg ModelTree ModelGpMoeb SpecEdge SpecGpMoeb ProofGpMoeb.
Local Open Scope C_scope.

(** Row k of the matrix expresses the pull-back of X^k dX / Y: with X = (ax+b)/(cx+d),
    dX/dx = (ad-bc)/(cx+d)^2 and Y = y/(cx+d)^(g+1), the sum of M[k,l] x^l / y over l is X^k (dX/dx) / Y. *)
Theorem C109_differentials :
  forall a b c d g k x y, (k < g)%nat -> c * x + d <> RtoC 0 -> y <> RtoC 0 ->
  let X := moebius a b c d x in let Y := y / cpow (c * x + d) (g + 1) in
  csum g (fun l => moebius_matrix a b c d g k l * (cpow x l / y)) = cpow X k * ((a * d - b * c) / ((c * x + d) * (c * x + d))) / Y.
Proof.
  intros a b c d g k x y Hk Hx Hy X Y. unfold X, Y, moebius.
  rewrite (csum_ext _ _ (fun l => moebius_matrix a b c d g k l * cpow x l * (/ y))) by (intros l _; unfold Cdiv; ring).
  rewrite csum_scal_r, (matrix_ok a b c d g k x Hk).
  assert (N : forall n, cpow (c * x + d) n <> RtoC 0) by (intros n; apply cpow_neq_0; exact Hx).
  assert (P : cpow ((a * x + b) / (c * x + d)) k = cpow (a * x + b) k / cpow (c * x + d) k).
  { apply (Cmult_cancel_l (cpow (c * x + d) k)); [apply N|]. rewrite <- cpow_mul. replace ((c * x + d) * ((a * x + b) / (c * x + d))) with (a * x + b) by (field; exact Hx). field. apply N. }
  assert (Q : cpow (c * x + d) (g + 1) = cpow (c * x + d) k * cpow (c * x + d) (g - 1 - k) * ((c * x + d) * (c * x + d))).
  { replace (g + 1)%nat with (k + (g - 1 - k) + 2)%nat by lia. rewrite !cpow_add. f_equal. cbn. ring. }
  rewrite P, Q. set (u := cpow _ (g - 1 - k)). set (v := cpow (c * x + d) k). assert (u <> RtoC 0) by apply N. assert (v <> RtoC 0) by apply N.
  field. repeat split; auto.
Qed.
Print Assumptions C109_differentials.

(** The derivative used above: the difference quotient of the map is (ad-bc)/((cx+d)(cz+d)). *)
Theorem C109_derivative :
  forall a b c d x z, c * x + d <> RtoC 0 -> c * z + d <> RtoC 0 ->
  moebius a b c d z - moebius a b c d x = (a * d - b * c) / ((c * x + d) * (c * z + d)) * (z - x).
Proof. intros a b c d x z Hx Hz. unfold moebius. field. split; assumption. Qed.
Print Assumptions C109_derivative.

(** For an even number 2e of branch points, homog gives the branch points of the transformed curve, also
    when one of them goes to infinity. *)
Theorem C109_even_points :
  forall a b c d e A, a * d - b * c <> RtoC 0 -> length A = (2 * e)%nat -> carries a b c d e A (homog a b c d A).
Proof. exact even_ok. Qed.
Print Assumptions C109_even_points.

(** For an odd number, infinity is a branch point; homog puts its image at 0 in place of a/c: the result is right if
    and only if a = 0. *)
Theorem C109_odd_points :
  forall a b c d e A, a * d - b * c <> RtoC 0 -> length A = (2 * e - 1)%nat -> (1 <= e)%nat ->
  (carries a b c d e A (homog a b c d A) <-> a = RtoC 0).
Proof. exact odd_ok. Qed.
Print Assumptions C109_odd_points.

(** So the translation HT = [1,1;0,1] gives the wrong branch points for y^2 = x^3 - x. *)
Theorem C109_odd_points_refuted :
  exists a b c d A, a * d - b * c <> RtoC 0 /\ length A = 3%nat /\ ~ carries a b c d 2 A (homog a b c d A).
Proof.
  exists (RtoC 1), (RtoC 1), (RtoC 0), (RtoC 1), [RtoC 0; RtoC 1; RtoC (-1)].
  assert (D : RtoC 1 * RtoC 1 - RtoC 1 * RtoC 0 <> RtoC 0) by (intros E; injection E; lra).
  split; [exact D|]. split; [reflexivity|]. intros H. apply (C109_odd_points _ _ _ _ 2 _ D) in H; [|reflexivity|lia]. injection H; lra.
Qed.
Print Assumptions C109_odd_points_refuted.

(** x -> 1/x sends the branch point 0 of y^2 = x(x-1)(x+1)(x-2) to infinity. *)
Example C109_nonvacuous : let A := [RtoC 0; RtoC 1; RtoC (-1); RtoC 2] in
  RtoC 0 * RtoC 0 - RtoC 1 * RtoC 1 <> RtoC 0 /\ length A = (2 * 2)%nat /\ length (homog (RtoC 0) (RtoC 1) (RtoC 1) (RtoC 0) A) = 3%nat /\
  carries (RtoC 0) (RtoC 1) (RtoC 1) (RtoC 0) 2 A (homog (RtoC 0) (RtoC 1) (RtoC 1) (RtoC 0) A).
Proof.
  cbn zeta. assert (D : RtoC 0 * RtoC 0 - RtoC 1 * RtoC 1 <> RtoC 0) by (intros E; injection E; lra).
  split; [exact D|]. split; [reflexivity|]. split; [|apply C109_even_points; [exact D|reflexivity]].
  unfold homog. cbn [length Nat.odd Nat.even negb app]. rewrite app_nil_r. cbn [homog_loop].
  destruct (Ceq_dec _ _) as [_|N]; [|exfalso; apply N; ring].
  do 3 (destruct (Ceq_dec _ _) as [E|_]; [exfalso; injection E; lra|]). reflexivity.
Qed.
