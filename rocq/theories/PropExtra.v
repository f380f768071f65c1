(** C59, C60: the working precision.  Statements only; proofs in ProofExtra.v. *)
From Verif Require Import CArg ModelTree ModelCurve ModelVec SpecPeriod SpecVec ModelEdge SpecEdge ProofEdge ModelExtra SpecExtra ProofExtra.
Local Open Scope R_scope.

(** C59: each coefficient of the rescaling of each edge of the tree is below 2^extra ... *)
Theorem C59_extra_precision :
  forall up lg d m n c x es e nonpos neg y q i l,
    rounds_up up -> 0 <= d -> log2_within lg d -> sec_init m n = Done c -> (1 <= n)%Z -> Z.of_nat (length x) = n ->
    edges_of x es -> In e es -> ydata_init_edge nonpos neg x (ea e) (eb e) m = Done y ->
    (q < length (sec_ni c))%nat -> (Z.of_nat i < nth q (sec_ni c) 0)%Z -> (l <= i)%nat ->
    Cmod (NC (binom i l) * cpow (y_ab y) (i - l) * (y_ba2 y * cpow (y_ba2 y) i) / cpow (y_c y) (Z.to_nat (sec_j1 c + Z.of_nat q)))%C
      <= two_to (IZR (extraprec_tree up lg x es c) + d).
Proof. exact coefficient_bound. Qed.
Print Assumptions C59_extra_precision.

(** ... so that moments known to the working precision give integrals known to the precision
    asked for, up to the factor 2 (i+1) for the differential with x^i. *)
Theorem C59_precision_of_integrals :
  forall up lg d prec m n c x es e nonpos neg y v w kappa,
    rounds_up up -> 0 <= d -> log2_within lg d -> sec_init m n = Done c -> (1 <= n)%Z -> Z.of_nat (length x) = n ->
    edges_of x es -> In e es -> ydata_init_edge nonpos neg x (ea e) (eb e) m = Done y ->
    Z.of_nat (length v) = sec_g c -> Z.of_nat (length w) = sec_g c -> 0 <= kappa ->
    (forall k, Cmod (vget v k - vget w k)%C <= kappa * two_to (- IZR (intprec up lg prec x es c))) ->
    exists v' w', integrals_edge_factors v (y_ba2 y) (y_ab y) (y_c y) c = Done v' /\
      integrals_edge_factors w (y_ba2 y) (y_ab y) (y_c y) c = Done w' /\
      forall q i, (q < length (sec_ni c))%nat -> (Z.of_nat i < nth q (sec_ni c) 0)%Z ->
        Cmod (vget v' (offset (sec_ni c) q + i) - vget w' (offset (sec_ni c) q + i))%C
          <= 2 * INR (S i) * kappa * two_to (d - IZR prec).
Proof. exact precision_final. Qed.
Print Assumptions C59_precision_of_integrals.

(** y^2 = x (x-4) (x+1), the tree with edges (0, 4) and (0, -1) *)
Example C59_nonvacuous :
  let x := [RtoC 0; RtoC 4; RtoC (-1)] in
  let es := [{| er := Some 0%Z; ea := 0; eb := 1 |}; {| er := Some 0%Z; ea := 0; eb := 2 |}] in
  rounds_up (fun r => r) /\ log2_within log2 0 /\ edges_of x es /\
  exists c y, sec_init 2 3 = Done c /\ sec_g c = 1%Z /\ sec_ni c = [1%Z] /\
    ydata_init_edge (fun _ => true) (fun _ => false) x 0 1 2 = Done y.
Proof.
  cbv zeta. split; [intros r _; lra|]. split; [intros r _; lra|].
  assert (H : forall a b, a <> b -> RtoC a <> RtoC b) by (intros a b Hab E; injection E; exact Hab). split.
  - intros e [<-|[<-|[]]]; cbn [ea eb length vget nth]; (split; [lia|split; [lia|apply H; lra]]).
  - destruct (init_spec (fun _ => true) (fun _ => false) [RtoC 0; RtoC 4; RtoC (-1)] 0 1 2) as (y & Ey & _);
      [cbn; lia|cbn; lia|cbn [vget nth]; apply H; lra|lia|].
    exists c23, y. split; [reflexivity|]. split; [reflexivity|]. split; [reflexivity|exact Ey].
Qed.

(** C60 fails: for large roots the precision used for the roots is not positive. *)
Theorem C60_working_precision_refuted :
  forall prec, (0 <= prec)%Z -> exists p x c t,
    aj_init 2 p true = Done (c, t) /\ distinct x /\ (forall z, poly_at x z = poly_value p z) /\
    forall es, edges_of x es -> es <> [] -> (cstprec (fun r => r) log2 prec x es c <= 0)%Z.
Proof. exact large_roots_final. Qed.
Print Assumptions C60_working_precision_refuted.

(** It holds when an edge of the tree has length at most 2. *)
Theorem C60_short_edge_partial :
  forall up lg prec m n c x es e,
    rounds_up up -> log2_within lg 0 -> sec_init m n = Done c -> (1 <= n)%Z -> (1 <= sec_g c)%Z -> Z.of_nat (length x) = n ->
    edges_of x es -> In e es -> Cmod (vget x (eb e) - vget x (ea e))%C <= 2 ->
    (prec < intprec up lg prec x es c)%Z /\ (prec + 10 < cstprec up lg prec x es c)%Z.
Proof. exact short_edge_final. Qed.
Print Assumptions C60_short_edge_partial.

(** The second edge of the tree above. *)
Example C60_nonvacuous :
  let x := [RtoC 0; RtoC 4; RtoC (-1)] in Cmod (vget x 2 - vget x 0)%C <= 2.
Proof. cbv zeta. cbn [vget nth]. rewrite <- RtoC_minus, Cmod_R, Rabs_left; lra. Qed.
