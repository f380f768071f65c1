(** C90: the symplectic basis of the Magma package for hyperelliptic curves.  Statements only.  [p] are the
    branch points in low precision, of which the tree is made; [x] are the branch points; [sort] is Sort. *)
From Verif Require Import CArg ModelTree ModelPeriod ModelMaRoot ModelMaTree ModelMaInter ModelSymp SpecSymp SpecTree SpecTurn SpecMaRoot SpecMaTree SpecInter SpecDeq SpecEdge SpecCross SpecMaInter ModelMaSymp SpecMaSymp ProofCross5 ProofMaTree4 ProofMaTree5 ProofMaPU1 ProofMaPU3 ProofMaPU5.
Local Open Scope nat_scope.

(** For y^2 = f(x), whatever the at least three distinct branch points, the steps of the package that lead to
    the basis all return, the matrix is that of the intersection numbers of the lifted loops, and the basis is
    a base change after which the first g and the next g loops meet as in the standard form and the others
    meet none, with g = (n - 1) div 2 the genus. *)
Theorem C90_hyperelliptic_basis :
  forall sort ty p x, sort_ok sort -> distinct x -> same_sides p x -> 3 <= length x ->
  exists t ty' ds T b, spanning_tree_ma sort ty p = Done (t, ty') /\
    tree_data x (zetas 2) 2 (length x) (s_edges t) = Done ds /\
    se_intersections x (zetas 2) 2 (length x) (s_edges t) ds = Done T /\
    (exists ya yb Y, sheets 2 x (plains (s_edges t)) ya yb Y /\ data_sheets 2 (length x) ds ya yb Y /\
      loop_matrix 2 x (plains (s_edges t)) ya yb Y T) /\
    symplectic_basis T = Done b /\ square (length x - 1) b /\ unimodular (length x - 1) b /\
    is_symplectic_basis (length x - 1) ((length x - 1) / 2) T b.
Proof. exact hyper_basis. Qed.
Print Assumptions C90_hyperelliptic_basis.

(** For any number of sheets and any form: the basis is symplectic as soon as, for every set S0 of loops, either
    a nonzero combination of them meets none of them, or a combination of them whose intersection numbers with
    them are all divisible by N is itself divisible by N. *)
Theorem C90_basis_of_unimodular_parts :
  forall r k, square r k -> antisymmetric r k ->
  (forall S0, (forall i, In i S0 -> i < r) ->
     (exists x : nat -> Z, (forall i, ~ In i S0 -> x i = 0%Z) /\ (exists i, In i S0 /\ x i <> 0%Z) /\
        forall t, In t S0 -> zsum r (fun i => x i * get k i t)%Z = 0%Z) \/
     (forall N x, (forall i, ~ In i S0 -> x i = 0%Z) ->
        (forall t, In t S0 -> (N | zsum r (fun i => x i * get k i t))%Z) -> forall i, (N | x i)%Z)) ->
  exists b g, symplectic_basis k = Done b /\ square r b /\ unimodular r b /\ 2 * g <= r /\ is_symplectic_basis r g k b.
Proof. exact basis_of_parts. Qed.
Print Assumptions C90_basis_of_unimodular_parts.

(** hypotheses hold for the seven points for which edges of the tree of the C library cross: the genus is 3 *)
Example C90_nonvacuous : sort_ok rsort /\ distinct x75 /\ same_sides x75 x75 /\ 3 <= length x75 /\
  exists t ty' ds T b, spanning_tree_ma rsort GJ x75 = Done (t, ty') /\ tree_data x75 (zetas 2) 2 7 (s_edges t) = Done ds /\
    se_intersections x75 (zetas 2) 2 7 (s_edges t) ds = Done T /\ symplectic_basis T = Done b /\ is_symplectic_basis 6 3 T b.
Proof.
  split; [exact rsort_ok|]. split; [exact x75_distinct|]. split; [exact (same_sides_refl x75)|]. split; [cbn; lia|].
  destruct (hyper_basis rsort GJ x75 x75 rsort_ok x75_distinct (same_sides_refl x75)) as (t & ty' & ds & T & b & E & D & I & _ & B & _ & _ & S); [cbn; lia|].
  exists t, ty', ds, T, b. repeat split; try assumption; apply S.
Qed.
