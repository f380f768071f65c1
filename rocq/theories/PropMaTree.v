(** C85: the spanning tree of the Magma package.  Statements only.  [p] are the branch points in low
    precision, of which the tree is made; [sort] is Sort. *)
From Verif Require Import CArg ModelTree ModelPeriod ModelMaTree SpecTree SpecEdge SpecDeq SpecInter SpecCross SpecMaTree ProofCross5 ProofMaTree5.
Local Open Scope R_scope.

(** For all points and both integration types a tree is returned; its edges start from a point
    already reached and end at a new one, and reach all points. *)
Theorem C85_spanning_tree :
  forall sort ty p, sort_ok sort -> (2 <= length p)%nat -> exists t ty', spanning_tree_ma sort ty p = Done (t, ty') /\
    length (s_edges t) = (length p - 1)%nat /\ growing (plains (s_edges t)) /\ connected (plains (s_edges t)) /\ acyclic (plains (s_edges t)) /\
    forall v, touched (plains (s_edges t)) v <-> (v < length p)%nat.
Proof. exact ma_spanning. Qed.
Print Assumptions C85_spanning_tree.

(** No edges that connect all points have a smaller total length. *)
Theorem C85_shortest :
  forall sort ty p t ty' l, sort_ok sort -> (1 <= length p)%nat -> spanning_tree_ma sort ty p = Done (t, ty') ->
    (forall v, touched l v -> (v < length p)%nat) -> (forall u v, (u < length p)%nat -> (v < length p)%nat -> linked l u v) ->
    total_length p (plains (s_edges t)) <= total_length p l.
Proof. exact ma_shortest. Qed.
Print Assumptions C85_shortest.

(** Two edges have no common point but, perhaps, a common end, and there is no branch point inside
    an edge: for the points themselves and for any points [x] of which they are approximations good
    enough to compare the sides of triangles. *)
Theorem C85_edges_apart :
  forall sort ty p x t ty', sort_ok sort -> distinct x -> same_sides p x -> spanning_tree_ma sort ty p = Done (t, ty') ->
    (forall e, In e (s_edges t) -> free_segment x (vget x (t_a e)) (vget x (t_b e))) /\ edges_apart x (plains (s_edges t)).
Proof. exact ma_apart. Qed.
Print Assumptions C85_edges_apart.

(** The number stored with an edge is the least of 5 and of the distances of the other points to the
    edge, the numbers of the tree are the least and the largest of them, and they are such that the
    parameters exist: more than 1.003 for Gauss-Jacobi, between 0 and pi/2 for double-exponential
    integration. *)
Theorem C85_numbers :
  forall sort ty p t ty', sort_ok sort -> distinct p -> (3 <= length p)%nat -> spanning_tree_ma sort ty p = Done (t, ty') ->
    (forall e, In e (s_edges t) -> exists a b, joins (plain e) a b /\ least_gauge ty' p a b (t_r e)) /\
    (forall e, In e (s_edges t) -> s_min t <= t_r e <= s_max t) /\
    (exists e, In e (s_edges t) /\ t_r e = s_min t) /\ (exists e, In e (s_edges t) /\ t_r e = s_max t) /\
    match ty' with GJ => 1 + 3 / 1000 <= s_min t /\ s_max t <= 5 | DE => 0 < s_min t /\ s_max t < PI / 2 end.
Proof. exact ma_numbers. Qed.
Print Assumptions C85_numbers.

(** hypotheses hold for the seven points for which edges of the tree of the C library cross *)
Example C85_nonvacuous : sort_ok rsort /\ distinct x75 /\ same_sides x75 x75 /\ (3 <= length x75)%nat /\
  exists t ty', spanning_tree_ma rsort GJ x75 = Done (t, ty') /\ length (s_edges t) = 6%nat /\ edges_apart x75 (plains (s_edges t)).
Proof.
  split; [exact rsort_ok|]. split; [exact x75_distinct|]. split; [exact (ProofMaTree4.same_sides_refl x75)|]. split; [cbn; lia|].
  destruct (ma_spanning rsort GJ x75 rsort_ok ltac:(cbn; lia)) as (t & ty' & E & L & _). exists t, ty'. split; [exact E|]. split; [rewrite L; reflexivity|].
  exact (proj2 (ma_apart rsort GJ x75 x75 t ty' rsort_ok x75_distinct (ProofMaTree4.same_sides_refl x75) E)).
Qed.
