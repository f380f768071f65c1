(** C87: the intersection matrix of the Magma package.  Statements only.  [p] are the branch points in
    low precision, of which the tree is made; [x] are the branch points; [sort] is Sort. *)
From Verif Require Import CArg ModelTree ModelPeriod ModelMaRoot ModelMaTree ModelMaInter ModelSymp SpecSymp SpecTree SpecTurn SpecMaRoot SpecMaTree SpecInter SpecDeq SpecEdge SpecCross SpecMaInter ProofCross5 ProofMaTree4 ProofMaTree5 ProofMaInter4.
Local Open Scope R_scope.

(** For all branch points, all m and both integration types the matrix is returned, and it is the
    matrix of the intersection numbers of the loops lifted over the edges, with the sheets that the
    data of the edges give.  There is no hypothesis on crossings: the edges have none. *)
Theorem C87_intersection_matrix :
  forall sort ty p x m, sort_ok sort -> distinct x -> same_sides p x -> (3 <= length x)%nat -> (2 <= m)%nat ->
  exists t ty' ds T, spanning_tree_ma sort ty p = Done (t, ty') /\
    tree_data x (zetas m) m (length x) (s_edges t) = Done ds /\
    se_intersections x (zetas m) m (length x) (s_edges t) ds = Done T /\
    square ((length x - 1) * (m - 1))%nat T /\
    exists ya yb Y, sheets m x (plains (s_edges t)) ya yb Y /\ data_sheets m (length x) ds ya yb Y /\
      loop_matrix m x (plains (s_edges t)) ya yb Y T.
Proof. exact ma_matrix. Qed.
Print Assumptions C87_intersection_matrix.

(** hypotheses hold for the seven points for which edges of the tree of the C library cross, and m = 3:
    the matrix is then of size 12 *)
Example C87_nonvacuous : sort_ok rsort /\ distinct x75 /\ same_sides x75 x75 /\ (3 <= length x75)%nat /\
  exists t ty' ds T, spanning_tree_ma rsort GJ x75 = Done (t, ty') /\ tree_data x75 (zetas 3) 3 7 (s_edges t) = Done ds /\
    se_intersections x75 (zetas 3) 3 7 (s_edges t) ds = Done T /\ square 12 T.
Proof.
  split; [exact rsort_ok|]. split; [exact x75_distinct|]. split; [exact (same_sides_refl x75)|]. split; [cbn; lia|].
  destruct (ma_matrix rsort GJ x75 x75 3 rsort_ok x75_distinct (same_sides_refl x75)) as (t & ty' & ds & T & E & D & I & S & _); [cbn; lia|lia|].
  exists t, ty', ds, T. repeat split; try assumption; apply S.
Qed.
