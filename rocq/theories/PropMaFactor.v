(** C95: integrals over the edges and loops of the Magma package.  Statements only. *)
From Coquelicot Require Import Coquelicot.
From Verif Require Import CArg ModelTree ModelVec ModelPeriod ModelMaRoot ModelMaDiff ModelMaFactor SpecVec SpecPeriod SpecMaRoot SpecMaFactor ProofMaFactor2 ProofMaFactor3 SpecEdge.
Local Open Scope R_scope.

(** Let L q be any linear functional on polynomials (the quadrature with the weight 1/f^(jm+q)) and let the
    entries of v be its values at the powers of t.  Then the function returns, for the i-th differential of
    the q-th exponent j, the value of L q at h x(t)^i, divided by c^j, where x(t) runs through the edge,
    h = dx/dt and c is the constant of the edge that the intersection numbers use; and a row with the
    integrals over the m-1 loops. *)
Theorem C95_integrals_over_an_edge :
  forall x a b m d, (a < length x)%nat -> (b < length x)%nat -> vget x a <> vget x b -> (2 <= m)%nat -> (3 <= length x)%nat ->
  ma_differentials (Z.of_nat m) (Z.of_nat (length x)) = Done d ->
  forall (L : nat -> (C -> C) -> C) v, (forall q, linear_functional (L q)) -> Z.of_nat (length v) = md_g d ->
  (forall q, (q < length (md_df d))%nat -> moments (L q) v (offset (md_df d) q) (Z.to_nat (nth q (md_df d) 0%Z))) ->
  exists e P E, edge_data x (zetas m) m (length x) a b = Done e /\
    de_integrals_factor v e m (length x) d (zetas m) = Done (P, E) /\
    Z.of_nat (length P) = md_g d /\ Z.of_nat (length E) = md_g d /\ vget (e_data e) (length x) <> RtoC 0 /\
    forall q i, (q < length (md_df d))%nat -> (Z.of_nat i < nth q (md_df d) 0)%Z ->
      let j := (md_jm d + Z.of_nat q)%Z in let ct := (offset (md_df d) q + i)%nat in
      vget E ct = (L q (fun t => (vget x b - vget x a) / RtoC 2 * cpow (edge_point (vget x a) (vget x b) t) i)
                   / cpow (edge_const (length x) m (vget (e_data e) (length x))) (Z.to_nat j))%C /\
      exists row, nth_error P ct = Some row /\ row_ok m j row (vget E ct).
Proof. exact de_factor_ok. Qed.
Print Assumptions C95_integrals_over_an_edge.

(** c f(t) (1-t^2)^(1/m) is a continuous y(t) on the curve, f being what is computed at the nodes. *)
Theorem C95_constant_of_the_sheet :
  forall x m a b, (a < length x)%nat -> (b < length x)%nat -> vget x a <> vget x b -> (2 <= m)%nat -> (3 <= length x)%nat ->
  clear_edge x a b ->
  exists e f, edge_data x (zetas m) m (length x) a b = Done e /\
    (forall t, continuous (fun t => fst (f t)) t /\ continuous (fun t => snd (f t)) t) /\
    forall t, -1 <= t <= 1 -> ac_mth_root t e (zetas m) m (length x - 2) = Done (f t) /\
      poly_at x (edge_point (vget x a) (vget x b) (RtoC t)) =
      ((RtoC 1 - RtoC t * RtoC t) * cpow (edge_const (length x) m (vget (e_data e) (length x)) * f t)%C m)%C.
Proof. exact edge_sheet. Qed.
Print Assumptions C95_constant_of_the_sheet.

(** For m = 2 the constants of the Gauss-Chebyshev code give the very same periods and integrals. *)
Theorem C95_gauss_chebyshev_same :
  forall x a b d v, (a < length x)%nat -> (b < length x)%nat -> vget x a <> vget x b -> (3 <= length x)%nat ->
  ma_differentials 2 (Z.of_nat (length x)) = Done d -> Z.of_nat (length v) = md_g d ->
  exists e V E, edge_data x (zetas 2) 2 (length x) a b = Done e /\
    gc_integrals_factor v e (length x) (Z.to_nat (md_g d)) = Done (V, E) /\
    de_integrals_factor v e 2 (length x) d (zetas 2) = Done (gc_rows V, E).
Proof. exact gc_same. Qed.
Print Assumptions C95_gauss_chebyshev_same.

(** hypotheses: five points, m = 3 (genus 4, counts 1 and 3) and m = 2, functionals that are values at a point *)
Example C95_nonvacuous : let x : list C := [(0, 0); (1, 0); (-1, 0); (1, 2); (-2, -1)] in
  vget x 0 <> vget x 1 /\
  (exists d, ma_differentials 3 5 = Done d /\ md_df d = [1; 3]%Z /\ md_g d = 4%Z /\
     forall q, (q < length (md_df d))%nat ->
     moments (fun f => f (RtoC (/ 2))) [RtoC 1; RtoC 1; RtoC (/ 2); RtoC (/ 4)] (offset (md_df d) q) (Z.to_nat (nth q (md_df d) 0%Z))) /\
  linear_functional (fun f => f (RtoC (/ 2))) /\
  exists d, ma_differentials 2 5 = Done d /\ md_df d = [2]%Z /\ md_g d = 2%Z.
Proof.
  cbn zeta. split; [cbn; intros E; injection E; lra|]. split.
  - eexists. split; [vm_compute; reflexivity|]. split; [reflexivity|]. split; [reflexivity|]. cbn [md_df length].
    intros [|[|q]] Hq; [| |lia]; unfold moments; cbn [offset nth]; change (Z.to_nat 1) with 1%nat; change (Z.to_nat 3) with 3%nat; intros l Hl.
    + destruct l as [|l]; [|lia]. reflexivity.
    + destruct l as [|[|[|l]]]; [| | |lia]; unfold vget; cbn; apply injective_projections; cbn; lra.
  - split; [intros n a; reflexivity|]. eexists. split; [vm_compute; reflexivity|]. split; reflexivity.
Qed.
