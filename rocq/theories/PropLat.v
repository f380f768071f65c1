(** C63: the reduction of the intersection matrix of a curve.  Statements only.  [x] are the
    branch points, [sort] is qsort, [param] the weights of the edges, [nonpos] and [neg] the
    sign tests on complex balls, [xgcd] FLINT's extended gcd. *)
From Verif Require Import Base ModelTree ModelInter SpecTree SpecInter ProofTreeEx ModelCurve CArg ModelEdge SpecEdge
  ModelSymp SpecSymp ProofSymp ProofSympEx ModelBasis SpecBasis ModelPeriod SpecPeriod ProofLat9 PropTree PropEdge.
Local Open Scope Z_scope.

(** Whatever tree is built on whatever distinct points, the matrix of intersections of its
    cycles is computed and reduced without failure, the base change is unimodular, and the
    result is made of g blocks [[0,e],[-e,0]] with e = 1 or -1 followed by zeros; e = 1 in each
    block if gcd(m,n) is 1 or m. *)
Theorem C63_curve_reduces :
  forall xgcd sort param nonpos neg x m cv r0 mn es r' mn', distinct x -> (1 <= length x)%nat ->
    sec_init (Z.of_nat m) (Z.of_nat (length x)) = Done cv ->
    (forall l, Permutation l (sort l)) -> xgcd_ok xgcd ->
    let t := Z.to_nat (tree_edges cv) in let g := Z.to_nat (sec_g cv) in let r := (t * (m - 1))%nat in
    spanning_tree sort param (length x) t r0 mn = Done (es, r', mn') ->
    exists ys inter s, tree_ydata nonpos neg x (Z.of_nat m) es = Done ys /\
      intersection_of_data ys es (Z.of_nat m) = Done inter /\
      symplectic_reduction xgcd (to_rows inter) g = Done s /\
      square r (to_rows inter) /\ antisymmetric r (to_rows inter) /\
      unimodular r (stP s) /\ congruent r (stP s) (to_rows inter) (stM s) /\ block_rows r g (stM s) /\
      (forall k, (k < g)%nat -> Z.abs (get (stM s) (2 * k) (2 * k + 1)) = 1) /\
      (forall i j, (2 * g <= i < r)%nat -> (j < r)%nat -> get (stM s) i j = 0) /\
      (Z.gcd (Z.of_nat m) (Z.of_nat (length x)) = 1 \/ Z.gcd (Z.of_nat m) (Z.of_nat (length x)) = Z.of_nat m ->
       canonical r g (stM s)).
Proof. exact curve_reduces. Qed.
Print Assumptions C63_curve_reduces.

(** Hence both halves of the period matrix are computed, each column being the combination of
    the edge integrals given by a row of the base change, unless an entry of the base change
    leaves the range of machine integers; if one does, the program stops. *)
Theorem C63_curve_periods :
  forall xgcd sort param nonpos neg x m cv r0 mn es r' mn' a, distinct x -> (1 <= length x)%nat ->
    sec_init (Z.of_nat m) (Z.of_nat (length x)) = Done cv ->
    (forall l, Permutation l (sort l)) -> xgcd_ok xgcd ->
    let t := Z.to_nat (tree_edges cv) in let g := Z.to_nat (sec_g cv) in
    spanning_tree sort param (length x) t r0 mn = Done (es, r', mn') -> integrals_ok cv t a ->
    exists ys inter s, tree_ydata nonpos neg x (Z.of_nat m) es = Done ys /\
      intersection_of_data ys es (Z.of_nat m) = Done inter /\
      symplectic_reduction xgcd (to_rows inter) g = Done s /\
      (~ rows_fit (2 * g) (stP s) -> symplectic_basis xgcd (to_rows inter) g (Z.of_nat m) = Abort) /\
      (rows_small (2 * g) (stP s) -> exists loops omA omB,
        symplectic_basis xgcd (to_rows inter) g (Z.of_nat m) = Done loops /\
        period_matrix cv (map fst loops) a = Done omA /\ length omA = g /\
        period_matrix cv (map snd loops) a = Done omB /\ length omB = g /\
        forall k q i, (k < g)%nat -> (q < length (sec_ni cv))%nat -> Z.of_nat i < nth q (sec_ni cv) 0 ->
          vget (nth (offset (sec_ni cv) q + i) omA []) k =
            row_period cv a (nth (2 * k) (stP s) []) (sec_j1 cv + Z.of_nat q) (offset (sec_ni cv) q + i) /\
          vget (nth (offset (sec_ni cv) q + i) omB []) k =
            row_period cv a (nth (2 * k + 1) (stP s) []) (sec_j1 cv + Z.of_nat q) (offset (sec_ni cv) q + i)).
Proof. exact curve_periods. Qed.
Print Assumptions C63_curve_periods.

(** y^3 and y^6 = a polynomial of degree 4: genus 3 with gcd 1, genus 7 with gcd 2 (one zero row) *)
Lemma x_ex_distinct : distinct x_ex.
Proof. exact (proj1 C20_nonvacuous). Qed.
Example C63_nonvacuous : distinct x_ex /\ length x_ex = 4%nat /\
  (forall l, Permutation l (isort l)) /\ xgcd_ok egcd /\
  (exists cv es r' mn', sec_init 3 4 = Done cv /\ tree_edges cv = 3 /\ sec_g cv = 3 /\ Z.gcd 3 4 = 1 /\
    spanning_tree isort param_num 4 3 (Some 0) 0 = Done (es, r', mn')) /\
  (exists cv es r' mn', sec_init 6 4 = Done cv /\ tree_edges cv = 3 /\ sec_g cv = 7 /\ Z.gcd 6 4 = 2 /\
    spanning_tree isort param_num 4 3 (Some 0) 0 = Done (es, r', mn')).
Proof.
  conj; [exact x_ex_distinct|reflexivity|exact isort_perm|exact egcd_ok| |];
    do 4 eexists; (split; [vm_compute; reflexivity|]); do 3 (split; [reflexivity|]); vm_compute; reflexivity.
Qed.
