(** C88: the paths in the tree used by the Abel-Jacobi map of the Magma package.  Statements only.  [p]
    are the branch points in low precision, of which the tree is made; [sort] is Sort. *)
From Verif Require Import CArg ModelTree ModelVec ModelPeriod ModelMaTree ModelMaPath SpecTree SpecTurn SpecMaTree SpecInter SpecMaPath ProofCross5 ProofMaTree5 ProofMaPath.
Local Open Scope R_scope.

(** For all points, both integration types and every base point the matrix of paths is returned, and
    its row i is the only way to go from the base point to point i along edges of the tree. *)
Theorem C88_paths :
  forall sort ty p base, sort_ok sort -> (2 <= length p)%nat -> (base < length p)%nat ->
  exists t ty' tm, spanning_tree_ma sort ty p = Done (t, ty') /\ tree_matrix (length p) base (s_edges t) = Done tm /\ length tm = length p /\
    (forall i, (i < length p)%nat -> goes (plains (s_edges t)) (nth i tm []) base i /\
       forall row, goes (plains (s_edges t)) row base i -> row = nth i tm []).
Proof. exact matrix_paths. Qed.
Print Assumptions C88_paths.

(** If up to periods the elementary integral of each edge is the difference of the values of a function
    F at its ends, then up to periods the vector of point i is the difference of its values at i and at
    the base point. *)
Theorem C88_ramification_points :
  forall sort ty p base (L : C -> Prop) (F : nat -> C) t ty' tm els i,
    sort_ok sort -> (2 <= length p)%nat -> (base < length p)%nat -> (i < length p)%nat ->
    spanning_tree_ma sort ty p = Done (t, ty') -> tree_matrix (length p) base (s_edges t) = Done tm ->
    lattice L -> length els = length (s_edges t) ->
    (forall k e, nth_error (s_edges t) k = Some e -> L (nth k els (RtoC 0) - (F (t_b e) - F (t_a e)))%C) ->
    L (path_integral (nth i tm []) els - (F i - F base))%C.
Proof. exact ramification. Qed.
Print Assumptions C88_ramification_points.

(** hypotheses hold for seven points, the base point 0, a function that is not constant and, as
    periods, the integers *)
Definition integers (z : C) : Prop := exists k, z = RtoC (IZR k).
Example C88_nonvacuous : sort_ok rsort /\ lattice integers /\ (2 <= length x75)%nat /\
  exists t ty' tm els, spanning_tree_ma rsort GJ x75 = Done (t, ty') /\ tree_matrix (length x75) 0 (s_edges t) = Done tm /\
    length els = length (s_edges t) /\
    (forall k e, nth_error (s_edges t) k = Some e -> integers (nth k els (RtoC 0) - (RtoC (INR (t_b e) / 2) - RtoC (INR (t_a e) / 2)))%C) /\
    (nth 3 tm [] <> nth 0 tm []).
Proof.
  split; [exact rsort_ok|]. split.
  { split; [exists 0%Z; reflexivity|]. intros z w (a & ->) (b & ->). exists (a - b)%Z. rewrite minus_IZR, RtoC_minus. reflexivity. }
  split; [cbn; lia|]. destruct (matrix_paths rsort GJ x75 0 rsort_ok) as (t & ty' & tm & E & ET & _ & G); [cbn; lia|cbn; lia|].
  exists t, ty', tm, (map (fun e => (RtoC (INR (t_b e) / 2) - RtoC (INR (t_a e) / 2) + RtoC 1)%C) (s_edges t)). split; [exact E|]. split; [exact ET|].
  split; [apply map_length|]. split.
  - intros k e X. exists 1%Z. rewrite (nth_error_nth (map _ _) k (RtoC 0) (x := (RtoC (INR (t_b e) / 2) - RtoC (INR (t_a e) / 2) + RtoC 1)%C)); [ring|]. rewrite nth_error_map, X. reflexivity.
  - intro X. destruct (G 0%nat ltac:(cbn; lia)) as ((_ & G0) & _). destruct (G 3%nat ltac:(cbn; lia)) as ((_ & G3) & _). rewrite X in G3. specialize (G0 3%nat). specialize (G3 3%nat). rewrite G0 in G3. cbn in G3. lia.
Qed.
