(** C96: quadrature sums over an edge of the Magma package.  Statements only.
    [branch_over_edge] and [form_on_edge] are in SpecMaSum.v, the rules in SpecQuad.v and SpecMaSum.v. *)
From Coquelicot Require Import Coquelicot.
From Verif Require Import CArg ModelTree ModelVec ModelPeriod ModelMaRoot ModelMaDiff ModelMaFactor ModelMaSum SpecPeriod SpecMaRoot SpecMaFactor SpecQuad SpecMaSum ProofMaSum2 ProofMaSum3 ProofMaSum4 SpecEdge.
Local Open Scope nat_scope.

(** Double exponential: there is one continuous branch Y of the curve over the edge such that each entry is
    the trapezoidal sum of x^i dx/Y^j over the nodes |k| <= N-1, and each row has the integrals over the
    loops.  No run fails. *)
Theorem C96_double_exponential :
  forall x a b m, a < length x -> b < length x -> vget x a <> vget x b -> 2 <= m -> 3 <= length x -> clear_edge x a b ->
  forall d, ma_differentials (Z.of_nat m) (Z.of_nat (length x)) = Done d -> forall h lam N,
  exists e Y P E, edge_data x (zetas m) m (length x) a b = Done e /\ branch_over_edge x a b m Y /\
    de_integrals_edge e m (length x) d (zetas m) h lam N = Done (P, E) /\
    Z.of_nat (length P) = md_g d /\ Z.of_nat (length E) = md_g d /\
    forall q i, q < length (md_df d) -> (Z.of_nat i < nth q (md_df d) 0)%Z ->
      let j := (md_jm d + Z.of_nat q)%Z in let ct := offset (md_df d) q + i in
      vget E ct = de_rule lam h (N - 1) (form_on_edge x a b Y (Z.to_nat j) i) /\
      exists row, nth_error P ct = Some row /\ row_ok m j row (vget E ct).
Proof. exact de_edge_ok. Qed.
Print Assumptions C96_double_exponential.

(** The scheme has the nodes |k| <= N, but the sum leaves out k = N and k = -N: on the curve
    y^2 = (x^2-1)(x-5) this changes the value for every step, lambda and N. *)
Theorem C96_last_node_missing_refuted :
  forall h lam N, (0 < h)%R -> (0 < lam)%R -> 1 <= N ->
  let x := [RtoC (Ropp 1); RtoC 1; RtoC 5] in
  exists e Y P E d, ma_differentials 2 3 = Done d /\ edge_data x (zetas 2) 2 3 0 1 = Done e /\ branch_over_edge x 0 1 2 Y /\
    de_integrals_edge e 2 3 d (zetas 2) h lam N = Done (P, E) /\ length E = 1 /\
    vget E 0 = de_rule lam h (N - 1) (form_on_edge x 0 1 Y 1 0) /\ vget E 0 <> de_rule lam h N (form_on_edge x 0 1 Y 1 0).
Proof. exact last_node_missing. Qed.
Print Assumptions C96_last_node_missing_refuted.

(** Gauss-Chebyshev, m = 2: the N-point rule for x^i dx/Y, and twice that for the loop. *)
Theorem C96_gauss_chebyshev :
  forall x a b d N, a < length x -> b < length x -> vget x a <> vget x b -> 3 <= length x -> clear_edge x a b ->
  ma_differentials 2 (Z.of_nat (length x)) = Done d -> 1 <= N ->
  exists e Y V E, edge_data x (zetas 2) 2 (length x) a b = Done e /\ branch_over_edge x a b 2 Y /\
    gc_integrals_edge e (length x) (Z.to_nat (md_g d)) (zetas 2) N = Done (V, E) /\
    Z.of_nat (length V) = md_g d /\ Z.of_nat (length E) = md_g d /\
    forall i, (Z.of_nat i < md_g d)%Z ->
      vget E i = gc_rule N (fun t => RtoC (sqrt (1 - t * t)) * form_on_edge x a b Y 1 i t)%C /\ vget V i = (RtoC 2 * vget E i)%C.
Proof. exact gc_edge_ok. Qed.
Print Assumptions C96_gauss_chebyshev.

(** Gauss-Jacobi: for any nodes in ]-1,1[ and weights, one scheme for each exponent j, the symmetric rule
    for (1-t^2)^(j/m) x^i dx/Y^j. *)
Theorem C96_gauss_jacobi :
  forall x a b m d sch N, a < length x -> b < length x -> vget x a <> vget x b -> 2 <= m -> 3 <= length x -> clear_edge x a b ->
  ma_differentials (Z.of_nat m) (Z.of_nat (length x)) = Done d -> length sch = length (md_df d) ->
  (forall s, In s sch -> N / 2 <= length (fst s) /\ (N + 1) / 2 <= length (snd s) /\ forall t, t < N / 2 -> (-1 < nth t (fst s) 0 < 1)%R) ->
  exists e Y P E, edge_data x (zetas m) m (length x) a b = Done e /\ branch_over_edge x a b m Y /\
    gj_integrals_edge e m (length x) d (zetas m) sch N = Done (P, E) /\
    Z.of_nat (length P) = md_g d /\ Z.of_nat (length E) = md_g d /\
    forall q i s, nth_error sch q = Some s -> (Z.of_nat i < nth q (md_df d) 0)%Z ->
      let j := (md_jm d + Z.of_nat q)%Z in let ct := offset (md_df d) q + i in
      vget E ct = sym_rule N (fst s) (snd s)
        (fun t => cpow (RtoC (rroot (Z.of_nat m) (1 - t * t))) (Z.to_nat j) * form_on_edge x a b Y (Z.to_nat j) i t)%C /\
      exists row, nth_error P ct = Some row /\ row_ok m j row (vget E ct).
Proof. exact gj_edge_ok. Qed.
Print Assumptions C96_gauss_jacobi.

(** hypotheses: an edge of y^2 = (x^2-1)(x-5) and of y^3 = (x^2-1)(x-5), a scheme with three nodes for each exponent *)
Example C96_nonvacuous : let x := [RtoC (Ropp 1); RtoC 1; RtoC 5] in
  vget x 0 <> vget x 1 /\ clear_edge x 0 1 /\
  (exists d, ma_differentials 2 3 = Done d /\ md_g d = 1%Z) /\
  (exists d, ma_differentials 3 3 = Done d /\ md_df d = [1%Z]) /\
  let sch := [([/ 2; 0], [/ 3; 1])]%R in
  length sch = 1 /\ forall s, In s sch -> 3 / 2 <= length (fst s) /\ (3 + 1) / 2 <= length (snd s) /\ forall t, t < 3 / 2 -> (-1 < nth t (fst s) 0 < 1)%R.
Proof.
  cbn zeta. split; [unfold vget; cbn [nth]; intros E; apply RtoC_inj in E; lra|]. split; [exact x3_clear|].
  split; [eexists; split; [vm_compute; reflexivity|reflexivity]|]. split; [eexists; split; [vm_compute; reflexivity|reflexivity]|].
  split; [reflexivity|]. intros s [<-|[]]. cbn [fst snd length]. change (3 / 2) with 1. change ((3 + 1) / 2) with 2. split; [lia|]. split; [lia|].
  intros [|t] Ht; [cbn [nth]; lra|lia].
Qed.
