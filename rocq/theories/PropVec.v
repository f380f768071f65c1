(** C28-C30: moments of an edge.  Statements only; proofs in ProofVec.v. *)
From Verif Require Import CArg ModelTree ModelCurve SpecCurve ModelPeriod SpecPeriod ModelVec SpecVec SpecEdge ProofVec.
Local Open Scope nat_scope.

(** C28: the shift on any slice of any vector: closed form ... *)
Theorem C28_polynomial_shift :
  forall v off len c, off + len <= length v ->
    exists v', polynomial_shift v off len c = Done v' /\
      replaced v v' off len (fun l => csum (S l) (fun i => NC (binom l i) * cpow c (l - i) * vget v (off + i)%nat)%C).
Proof. exact shift_spec. Qed.
Print Assumptions C28_polynomial_shift.

(** ... effect on moments ... *)
Theorem C28_shift_of_moments :
  forall L v off len c, linear_functional L -> off + len <= length v -> moments L v off len ->
    exists v', polynomial_shift v off len c = Done v' /\ replaced v v' off len (fun l => L (fun t => cpow (t + c)%C l)).
Proof. exact shift_functional. Qed.
Print Assumptions C28_shift_of_moments.

(** ... and inverse. *)
Theorem C28_shift_back :
  forall v off len c, off + len <= length v ->
    exists v', polynomial_shift v off len c = Done v' /\ polynomial_shift v' off len (- c)%C = Done v.
Proof. exact shift_back. Qed.
Print Assumptions C28_shift_back.

(** moments exist: any finite sum of values *)
Example C28_nonvacuous :
  let L := (fun f : C -> C => clsum (fun t => RtoC 3 * f t)%C [RtoC 5; RtoC 7]) in
  let v := [RtoC 9; RtoC 3 * RtoC 1 + (RtoC 3 * RtoC 1 + RtoC 0); RtoC 3 * (RtoC 5 * RtoC 1) + (RtoC 3 * (RtoC 7 * RtoC 1) + RtoC 0)]%C in
  linear_functional L /\ 1 + 2 <= length v /\ moments L v 1 2.
Proof.
  cbn zeta. split; [apply (sum_functional (fun _ => RtoC 3) (fun t => t))|]. split; [cbn; lia|].
  intros [|[|l]] Hl; [unfold clsum, vget; cbn [fold_right nth cpow Nat.add offset Z.to_nat Pos.to_nat Pos.iter_op]; ring|unfold clsum, vget; cbn [fold_right nth cpow Nat.add offset Z.to_nat Pos.to_nat Pos.iter_op]; ring|lia].
Qed.

(** C29: the three helpers, with the final value of the running factor. *)
Theorem C29_multiply_by_geometric :
  forall v off len c0 c, 1 <= len -> off + len <= length v ->
    exists v', mul_geom v off len c0 c = Done (v', (c0 * cpow c (len - 1))%C) /\
      replaced v v' off len (fun k => vget v (off + k)%nat * (c0 * cpow c k))%C.
Proof. exact (geom_spec (fun a c0 _ => (a * c0)%C)). Qed.
Print Assumptions C29_multiply_by_geometric.
Theorem C29_add_geometric :
  forall v off len c0 c, 1 <= len -> off + len <= length v ->
    exists v', add_geom v off len c0 c = Done (v', (c0 * cpow c (len - 1))%C) /\
      replaced v v' off len (fun k => vget v (off + k)%nat + c0 * cpow c k)%C.
Proof. exact (geom_spec (fun a c0 _ => (a + c0)%C)). Qed.
Print Assumptions C29_add_geometric.
Theorem C29_add_alternating_geometric :
  forall v off len c0 c, 1 <= len -> off + len <= length v ->
    exists v', sub_geom v off len c0 c = Done (v', (c0 * cpow c (len - 1))%C) /\
      replaced v v' off len (fun k => vget v (off + k)%nat + c0 * cpow (- c) k)%C.
Proof. exact sub_geom_spec. Qed.
Print Assumptions C29_add_alternating_geometric.

(** two entries of a vector of three *)
Example C29_nonvacuous :
  exists v', sub_geom [RtoC 9; RtoC 4; RtoC 7] 1 2 (RtoC 5) (RtoC 3) = Done (v', (RtoC 5 * cpow (RtoC 3) 1)%C) /\
    v' = [RtoC 9; RtoC 9; RtoC (-8)].
Proof.
  destruct (C29_add_alternating_geometric [RtoC 9; RtoC 4; RtoC 7] 1 2 (RtoC 5) (RtoC 3)) as (v' & E & HL & H1 & H2); [lia|cbn; lia|].
  exists v'. split; [exact E|].
  destruct v' as [|a [|b [|c [|]]]]; cbn [length] in HL; try lia.
  pose proof (H2 0%nat ltac:(lia)) as A. pose proof (H1 0%nat ltac:(lia)) as B. pose proof (H1 1%nat ltac:(lia)) as D.
  unfold vget in A, B, D. cbn [nth Nat.add cpow] in A, B, D. subst.
  f_equal; f_equal; [|f_equal]; apply injective_projections; cbn; lra.
Qed.

(** The bound 1 <= len is needed: an empty slice has its first entry modified. *)
Theorem C29_empty_slice_refuted :
  exists v off c0 c v', off <= length v /\ mul_geom v off 0 c0 c = Done (v', c0) /\ v' <> v.
Proof. exact geom_empty_changes. Qed.
Print Assumptions C29_empty_slice_refuted.

(** C30: block q of the list of differentials is x^i dx/y^j with j = j1 + q. *)
Theorem C30_rescaled_to_the_edge :
  forall m n c a b cab (L : nat -> (C -> C) -> C) v,
    sec_init m n = Done c -> (1 <= n)%Z -> a <> b -> cab <> RtoC 0 ->
    (forall q, linear_functional (L q)) -> Z.of_nat (length v) = sec_g c ->
    (forall q, q < length (sec_ni c) -> moments (L q) v (offset (sec_ni c) q) (Z.to_nat (nth q (sec_ni c) 0%Z))) ->
    exists v', integrals_edge_factors v ((b - a) / RtoC 2)%C ((a + b) / (b - a))%C cab c = Done v' /\ length v' = length v /\
      forall q i, q < length (sec_ni c) -> (Z.of_nat i < nth q (sec_ni c) 0)%Z ->
        vget v' (offset (sec_ni c) q + i) =
        ((RtoC 1 - root m (- (sec_j1 c + Z.of_nat q))) / cpow cab (Z.to_nat (sec_j1 c + Z.of_nat q))
          * L q (fun t => (b - a) / RtoC 2 * cpow (edge_point a b t) i))%C.
Proof. exact edge_factors_final. Qed.
Print Assumptions C30_rescaled_to_the_edge.

(** y^3 = quartic with the functionals f |-> (q+1) f(5) *)
Ltac entry :=
  match goal with |- vget ?v ?k = _ => let k' := eval compute in k in replace k with k' by reflexivity end;
  unfold clsum, vget; cbn [fold_right nth cpow Nat.add]; ring.
Example C30_nonvacuous :
  let L := (fun (q : nat) (f : C -> C) => clsum (fun t => NC (q + 1) * f t)%C [RtoC 5]) in
  let v := [NC 1 * RtoC 1 + RtoC 0; NC 2 * RtoC 1 + RtoC 0; NC 2 * (RtoC 5 * RtoC 1) + RtoC 0]%C in
  exists c, sec_init 3 4 = Done c /\ sec_ni c = [1; 2]%Z /\ (forall q, linear_functional (L q)) /\
    Z.of_nat (length v) = sec_g c /\
    (forall q, q < length (sec_ni c) -> moments (L q) v (offset (sec_ni c) q) (Z.to_nat (nth q (sec_ni c) 0%Z))).
Proof.
  cbn zeta. eexists. split; [vm_compute; reflexivity|]. split; [reflexivity|]. split.
  { intros q. apply (sum_functional (fun _ => NC (q + 1)) (fun t => t)). }
  split; [reflexivity|]. cbn [sec_ni length]. intros [|[|q]] Hq; [| |lia].
  - intros [|l] Hl; [entry|]. cbn in Hl. lia.
  - intros [|[|l]] Hl; [entry|entry|]. cbn in Hl. lia.
Qed.
