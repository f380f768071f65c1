(** C84: the continuation of the m-th root along an edge in the Magma package.
    Statements only.  x is the list of the branch points, f the monic polynomial with these
    roots ([poly_at x]), [edge_point a b t] the point of parameter t in [-1,1] of the edge,
    [clear_edge] says that no other branch point lies on it. *)
From Coquelicot Require Import Coquelicot.
From Verif Require Import CArg ModelTree ModelVec ModelMaRoot SpecMaRoot SpecEdge ProofMaRoot3.
Local Open Scope R_scope.

(** Along an edge the function returns the values of one continuous function, which, times
    the constant stored with the edge, is an m-th root of 2^n f / (1 - t^2). *)
Theorem C84_one_branch :
  forall x m a b, (a < length x)%nat -> (b < length x)%nat -> vget x a <> vget x b -> (2 <= m)%nat -> (3 <= length x)%nat ->
  clear_edge x a b ->
  exists e f, edge_data x (zetas m) m (length x) a b = Done e /\
    (forall t, continuous (fun t => fst (f t)) t /\ continuous (fun t => snd (f t)) t) /\
    forall t, -1 <= t <= 1 -> ac_mth_root t e (zetas m) m (length x - 2) = Done (f t) /\
      (cpow (RtoC 2) (length x) * poly_at x (edge_point (vget x a) (vget x b) (RtoC t)))%C =
      ((RtoC 1 - RtoC t * RtoC t) * cpow (vget (e_data e) (length x) * f t)%C m)%C.
Proof. exact one_branch. Qed.

(** Which branch: the product of the principal roots of the factors (as computed from a sum
    of logarithms by AC_mthRoot2), except when the first two points are real and there is no
    point of positive real part: then this product divided by exp(2 i pi/m). *)
Theorem C84_which_branch :
  forall x m a b, (a < length x)%nat -> (b < length x)%nat -> vget x a <> vget x b -> (2 <= m)%nat -> (3 <= length x)%nat ->
  clear_edge x a b ->
  exists e u up k, edge_data x (zetas m) m (length x) a b = Done e /\
    Permutation (map (fun k => (RtoC 2 * vget x k - (vget x b + vget x a)) / (vget x b - vget x a))%C
                   (filter (fun k => negb ((k =? a) || (k =? b)))%nat (seq 0 (length x)))) u /\
    (up <= length u)%nat /\
    (forall p, In p (firstn up u) -> 0 < fst p) /\ (forall p, In p (skipn up u) -> fst p <= 0) /\
    (let odd := up = 0%nat /\ exists p q r, u = p :: q :: r /\ snd p = 0 /\ snd q = 0 in
     odd /\ k = 1%Z \/ ~ odd /\ k = 0%Z) /\
    forall t, -1 <= t <= 1 ->
      ac_mth_root t e (zetas m) m (length x - 2) = Done (root (Z.of_nat m) (- k) * y_tilde (Z.of_nat m) u up (RtoC t))%C /\
      ac_mth_root2 t e m (length x - 2) = Done (y_tilde (Z.of_nat m) u up (RtoC t)).
Proof. exact branch_value. Qed.

(** So the two evaluations of the package do not always agree. *)
Theorem C84_same_as_logarithms_refuted :
  exists x m a b e t v w,
  (a < length x)%nat /\ (b < length x)%nat /\ vget x a <> vget x b /\ (2 <= m)%nat /\ (3 <= length x)%nat /\ clear_edge x a b /\
  edge_data x (zetas m) m (length x) a b = Done e /\ -1 <= t <= 1 /\
  ac_mth_root t e (zetas m) m (length x - 2) = Done v /\ ac_mth_root2 t e m (length x - 2) = Done w /\ v <> w.
Proof. exact not_principal. Qed.

(** the hypotheses for five points, two of them real and behind the edge, two complex *)
Example C84_nonvacuous :
  let x : list C := [(0, 0); (1, 0); (-1, 0); (1, 2); (-2, -1)] in
  vget x 0 <> vget x 1 /\ clear_edge x 0 1.
Proof.
  cbn zeta. split; [cbn; intros E; injection E; lra|].
  intros k t Hk H0 H1 Ht E. pose proof (f_equal fst E) as E1. apply (f_equal snd) in E.
  destruct k as [|[|[|[|[|k]]]]]; try lia; [cbn in E1; lra|cbn in E; lra|cbn in E; lra|cbn in Hk; lia].
Qed.

Print Assumptions C84_one_branch.
Print Assumptions C84_which_branch.
Print Assumptions C84_same_as_logarithms_refuted.
