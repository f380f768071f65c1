(** C80: the small period matrix is a Riemann matrix.  Statements only.  The oracles are those of C78;
    [gamma] is Arb's arb_gamma_fmpq, here any function with positive values. *)
From Coq Require Import Reals Lra Lia Permutation.
From Coquelicot Require Import Coquelicot.
From Verif Require Import Base CArg ModelTree SpecTree ProofTreeEx ModelInter ModelCurve ModelSymp SpecSymp ProofSympEx ModelBasis
  ModelPeriod SpecPeriod ModelVec ModelEdge SpecEdge ModelRun SpecLead ModelTwo SpecRiem ProofRiem6.
Local Open Scope R_scope.

(** For y^m = f(x) with f of degree 2, every m >= 3: the matrices (A | B) returned have an invertible
    block A, so that A tau = B has exactly one solution, and tau is symmetric with positive definite
    imaginary part.  (What is missing: polynomials of degree 3 and more.) *)
Theorem C80_two_points_partial :
  forall branch_points squarefree sort param nonpos neg xgcd gamma m f c,
  let x := branch_points f in let g := Z.to_nat (sec_g c) in
  distinct x -> length x = 2%nat -> degree f = 2%Z -> squarefree f = true -> (3 <= m)%nat -> sec_init (Z.of_nat m) 2 = Done c ->
  (forall l, Permutation l (sort l)) -> xgcd_ok xgcd -> (forall s, 0 < s -> 0 < gamma s) ->
  exists omA omB, periods_d2 branch_points squarefree sort param nonpos neg xgcd gamma (Z.of_nat m) f = Done (omA, omB) /\
    length omA = g /\ length omB = g /\
    exists tau, solves g (entry omA) tau (entry omB) /\ riemann_matrix g tau /\
      forall tau', solves g (entry omA) tau' (entry omB) -> forall i k, (i < g)%nat -> (k < g)%nat -> tau' i k = tau i k.
Proof. exact riemann_two. Qed.
Print Assumptions C80_two_points_partial.

(** y^7 = 3x^2 - 3, of genus 3 *)
Definition f80 : list Z := [-3; 0; 3]%Z.
Definition x80 : list C := [RtoC (-1); RtoC 1].
Example C80_nonvacuous : roots_of f80 x80 /\ distinct x80 /\ length x80 = 2%nat /\ degree f80 = 2%Z /\
  (exists c, sec_init (Z.of_nat 7) 2 = Done c /\ sec_g c = 3%Z) /\
  (forall l, Permutation l (isort l)) /\ xgcd_ok egcd /\ forall s, 0 < s -> 0 < exp s.
Proof.
  assert (N : RtoC (-1) <> RtoC 1) by (intro E; injection E; lra).
  split; [|split; [|split; [|split; [|split; [|split; [|split]]]]]].
  - split; [reflexivity|]. intros t. destruct t as [p q].
    change (leading f80) with 3%Z.
    unfold poly_value, f80, poly_at, x80, ZC. cbn [fold_right SpecEdge.cprod].
    apply injective_projections; cbn; ring.
  - repeat constructor; cbn; intuition.
  - reflexivity.
  - reflexivity.
  - eexists. split; vm_compute; reflexivity.
  - exact isort_perm.
  - exact egcd_ok.
  - intros. apply exp_pos.
Qed.
