(** C111: the Abel-Jacobi map of gp/periods.gp. *)
From Verif Require Import CArg ModelGpHc SpecEdge SpecGpHc ProofGpHc.
Local Open Scope R_scope.

(** hcModABlattice gives coordinates in [0,1) that differ from those of z by integers; vectors that differ by
    a period give the same result. *)
Theorem C111_mod_lattice :
  forall g Om P t z, reduces g Om P -> coordinates g Om t z ->
  (forall i, (i < 2 * g)%nat -> 0 <= hcModABlattice g P z i < 1 /\ integral (t i - hcModABlattice g P z i)) /\
  (forall t' z', coordinates g Om t' z' -> congruent g t' t -> forall i, (i < 2 * g)%nat -> hcModABlattice g P z' i = hcModABlattice g P z i).
Proof.
  intros g Om P t z R0 H. split; [exact (mod_ok g Om P t z R0 H)|]. intros t' z' H' Hc i Hi.
  unfold hcModABlattice. rewrite (coords_ok g Om P t z i R0 H Hi), (coords_ok g Om P t' z' i R0 H' Hi).
  apply frac_unique; [apply frac_range|]. replace (t' i - frac_part (t i)) with ((t' i - t i) + (t i - frac_part (t i))) by ring.
  apply integral_add; [exact (Hc i Hi)|apply frac_int].
Qed.
Print Assumptions C111_mod_lattice.

(** The branch point chosen has a path value, the least tau_3 to another branch point but at most 4, that is
    above the tau of the precomputed points or the largest of all; there is no choice only if no value is
    positive or tau is negative. *)
Theorem C111_choice :
  forall t3 n tau, exists v : nat -> R,
  (forall i, v i <= 4 /\ (forall k, (k < n)%nat -> k <> i -> v i <= t3 i k) /\ (v i = 4 \/ exists k, (k < n)%nat /\ k <> i /\ v i = t3 i k)) /\
  match choose_integration_path t3 n tau with
  | Done b => (b < n)%nat /\ 0 < v b /\ (tau < v b \/ forall j, (j < n)%nat -> v j <= v b)
  | Fault _ => tau < 0 \/ forall j, (j < n)%nat -> v j <= 0
  | _ => False
  end.
Proof.
  intros t3 n tau. exists (fun i => path_value t3 i n). split; [intros i; apply path_value_ok|].
  apply loop_ok; [reflexivity|reflexivity|]. intros j Hj. lia.
Qed.
Print Assumptions C111_choice.

(** Let J be the coordinates of the integral from P to the base point P0.  If for each branch point the integral from P
    to it and its stored image, the integral on to P0, add up to J modulo the periods, then the result is J
    reduced to [0,1), whichever branch point is chosen. *)
Theorem C111_abel_jacobi :
  forall A g t3 tau Om P int W J x, reduces g Om P -> ~ In x A ->
  (exists i, (i < length A)%nat /\ forall k, (k < length A)%nat -> k <> i -> 0 < t3 i k) -> 0 <= tau ->
  (forall i, (i < length A)%nat -> exists z t, int i = Done z /\ coordinates g Om t z /\ congruent g (fun j => t j + W i j) J) ->
  exists r, hcAbelJacobi A g t3 tau P int W x = Done r /\
    forall j, (j < 2 * g)%nat -> 0 <= r j < 1 /\ integral (J j - r j).
Proof.
  intros A g t3 tau Om P int W J x R0 Hx [i0 [Hi0 Hpos]] Ht H. unfold hcAbelJacobi.
  pose proof (find_root_ok A x) as F. destruct (find_root A x) as [i|].
  { destruct F as [F1 F2]. exfalso. apply Hx. rewrite <- F2. apply nth_In. exact F1. }
  pose proof (loop_ok t3 (length A) tau (length A) 0 None 0 eq_refl eq_refl ltac:(intros; lia)) as L. unfold choose_integration_path.
  destruct (path_loop _ _ _ _ _ _ _) as [b| |f|]; try contradiction.
  - cbn [bind]. destruct L as [Hb _]. destruct (H b Hb) as [z [t [E [Hz Hc]]]]. rewrite E. cbn [bind]. eexists. split; [reflexivity|].
    intros j Hj. cbv beta. split; [apply frac_range|]. destruct (mod_ok g Om P t z R0 Hz j Hj) as [_ M].
    set (m := hcModABlattice g P z j) in *. pose proof (frac_int (m + W b j)) as Q. pose proof (Hc j Hj) as K. cbv beta in K.
    replace (J j - frac_part (m + W b j)) with ((- (t j + W b j - J j) + (t j - m)) + (m + W b j - frac_part (m + W b j))) by ring.
    apply integral_add; [apply integral_add; [apply integral_opp; exact K|exact M]|exact Q].
  - exfalso. destruct L as [L|L]; [lra|]. specialize (L i0 Hi0). destruct (path_value_ok t3 i0 (length A)) as [_ [_ [V|[k [K1 [K2 V]]]]]]; [lra|].
    specialize (Hpos k K1 K2). lra.
Qed.
Print Assumptions C111_abel_jacobi.

(** At a branch point the result is its stored image. *)
Theorem C111_branch_point :
  forall A g t3 tau P int W i, NoDup A -> (i < length A)%nat -> hcAbelJacobi A g t3 tau P int W (nth i A (RtoC 0)) = Done (W i).
Proof.
  intros A g t3 tau P int W i ND Hi. unfold hcAbelJacobi. pose proof (find_root_ok A (nth i A (RtoC 0))) as F.
  destruct (find_root A (nth i A (RtoC 0))) as [k|].
  - destruct F as [F1 F2]. f_equal. f_equal. exact (proj1 (NoDup_nth A (RtoC 0)) ND k i F1 Hi F2).
  - exfalso. apply F. apply nth_In. exact Hi.
Qed.
Print Assumptions C111_branch_point.

(** A point given by its x is completed to a point of the curve, with both flags. *)
Theorem C111_upper_sheet :
  forall A x each, let y := hcUpperSheet A x each in (y * y)%C = poly_at A x.
Proof.
  intros A x each y. unfold y, hcUpperSheet.
  assert (S2 : forall w, (croot 2 w * croot 2 w)%C = w).
  { intros w. pose proof (croot_pow 2 w ltac:(lia)) as E. cbn [cpow Z.of_nat Pos.of_succ_nat Pos.succ] in E. rewrite <- E at 3. ring. }
  destruct each.
  - induction A as [|a A IH]; unfold poly_at in *; cbn [fold_right cprod]; [ring|]. cbv zeta in IH.
    rewrite <- IH. transitivity ((croot 2 (x - a) * croot 2 (x - a)) * (fold_right (fun a r => croot 2 (x - a) * r) (RtoC 1) A * fold_right (fun a r => croot 2 (x - a) * r) (RtoC 1) A))%C; [ring|]. now rewrite S2.
  - rewrite S2. induction A as [|a A IH]; unfold poly_at in *; cbn [fold_right cprod]; [reflexivity|]. rewrite IH. reflexivity.
Qed.
Print Assumptions C111_upper_sheet.

(** The inverse of the matrix built in hcInit reduces modulo the periods in Omega0 and Omega1. *)
Theorem C111_reduction_matrix :
  forall g Omega0 Omega1 P,
  (forall i j, (i < 2 * g)%nat -> (j < 2 * g)%nat -> lsum (2 * g) (fun l => P i l * period_rows g Omega0 Omega1 l j) = if (i =? j)%nat then 1 else 0) ->
  reduces g (fun k j => if (j <? g)%nat then Omega0 k j else Omega1 k (j - g)%nat) P.
Proof.
  intros g O0 O1 P H i j Hi Hj. rewrite <- (H i j Hi Hj). apply lsum_ext. intros l _. f_equal. unfold real_coords, period_rows.
  destruct (l <? g)%nat, (j <? g)%nat; reflexivity.
Qed.
Print Assumptions C111_reduction_matrix.

(** genus 1, periods 1 and i *)
Example C111_nonvacuous :
  let Om := fun k i : nat => match i with O => RtoC 1 | _ => Ci end in let P := fun i l : nat => if (i =? l)%nat then 1 else 0 in
  let A := [RtoC 0; RtoC 1; RtoC (-1)] in
  reduces 1 Om P /\ ~ In (RtoC 2) A /\ (exists i, (i < length A)%nat /\ forall k, (k < length A)%nat -> k <> i -> 0 < (fun _ _ => 1) i k) /\
  coordinates 1 Om (fun i => match i with O => 5 / 4 | _ => 3 / 4 end) (fun _ => (5 / 4, 3 / 4)) /\ NoDup A.
Proof.
  cbn zeta. split; [|split; [|split; [|split]]].
  - intros i j Hi Hj. destruct i as [|[|i]], j as [|[|j]]; try lia; cbn; ring.
  - intros [E|[E|[E|[]]]]; injection E; lra.
  - exists O. split; [cbn; lia|]. intros. lra.
  - intros k Hk. cbn. split; ring.
  - repeat constructor; cbn; intros H; repeat (destruct H as [H|H]; [injection H; lra|]); exact H.
Qed.

(** the curve with roots 0, 1, -1 above x = 2; the same periods 1 and i, split as in hcInit *)
Example C111_sheet_nonvacuous :
  poly_at [RtoC 0; RtoC 1; RtoC (-1)] (RtoC 2) = RtoC 6 /\
  let P := fun i l : nat => if (i =? l)%nat then 1 else 0 in
  forall i j, (i < 2 * 1)%nat -> (j < 2 * 1)%nat -> lsum (2 * 1) (fun l => P i l * period_rows 1 (fun _ _ => RtoC 1) (fun _ _ => Ci) l j) = if (i =? j)%nat then 1 else 0.
Proof.
  split.
  - unfold poly_at. cbn. apply injective_projections; cbn; ring.
  - intros P i j Hi Hj. destruct i as [|[|i]], j as [|[|j]]; try lia; cbn; ring.
Qed.
