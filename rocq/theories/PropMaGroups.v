(** C86: the integration schemes of the Magma package.  Statements only.  [p] are the branch points
    in low precision, [m] the exponent, [sort] is Sort. *)
From Verif Require Import CArg ModelTree ModelPeriod ModelMaTree SpecTree SpecEdge SpecDeq SpecInter SpecCross SpecMaTree ProofCross5 ProofMaTree5 ModelMaGroups SpecMaGroups ProofMaGroups.
Local Open Scope R_scope.

(** Tree and schemes are always found: no assertion fails and no list is read out of range.  Each edge
    has a scheme whose parameter is at most its number (less than it, and more than 1, for
    Gauss-Jacobi integration), the largest such parameter of the schemes; so no other branch point is
    inside the domain for which the number of points of the scheme is chosen. *)
Theorem C86_schemes :
  forall sort ty p m, sort_ok sort -> distinct p -> (3 <= length p)%nat ->
    exists t ty' lr ls, tree_params sort ty p m = Done (t, ty', (lr, ls)) /\ spanning_tree_ma sort ty p = Done (t, ty') /\
      length ls = length (s_edges t) /\
      forall i e l, nth_error (s_edges t) i = Some e -> nth_error ls i = Some l ->
        exists q a b, nth_error lr l = Some q /\ right_scheme ty' lr (t_r e) q /\ joins (plain e) a b /\ clear_of ty' p a b q.
Proof. exact schemes. Qed.
Print Assumptions C86_schemes.

(** hypotheses hold for seven points, and the six edges have schemes *)
Example C86_nonvacuous : sort_ok rsort /\ distinct x75 /\ (3 <= length x75)%nat /\
  exists t ty' lr ls, tree_params rsort GJ x75 3 = Done (t, ty', (lr, ls)) /\ length ls = 6%nat.
Proof.
  split; [exact rsort_ok|]. split; [exact x75_distinct|]. split; [cbn; lia|].
  destruct (schemes rsort GJ x75 3 rsort_ok x75_distinct ltac:(cbn; lia)) as (t & ty' & lr & ls & E & Es & L & _).
  exists t, ty', lr, ls. split; [exact E|]. rewrite L.
  destruct (ma_spanning rsort GJ x75 rsort_ok ltac:(cbn; lia)) as (t1 & ty1 & E1 & L1 & _). rewrite Es in E1. injection E1 as <- _. rewrite L1. reflexivity.
Qed.
