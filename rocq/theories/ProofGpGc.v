(** Lemmas for C106. *)
From Coquelicot Require Import Coquelicot.
From Verif Require Import CArg ModelTree ModelEdge ModelGpGc SpecMaRoot ProofEdge ProofErr3 ProofHol11 SpecEdge.

(** ** the shift *)
Lemma shift_down_spec c i cnt : (1 <= i)%nat -> forall v l, shift_down c i cnt v l = if (i <=? l)%nat && (l <? i + cnt)%nat then (v l + c * v (l - 1)%nat)%C else v l.
Proof.
  intros Hi. induction cnt as [|cnt IH]; intros v l; cbn [shift_down].
  - destruct (Nat.leb_spec i l), (Nat.ltb_spec l (i + 0)); cbn; try reflexivity; lia.
  - rewrite IH. destruct (Nat.eqb_spec l (i + cnt)) as [->|N].
    + destruct (Nat.leb_spec i (i + cnt)), (Nat.ltb_spec (i + cnt) (i + cnt)), (Nat.ltb_spec (i + cnt) (i + S cnt)); cbn; try lia. reflexivity.
    + destruct (Nat.leb_spec i l), (Nat.ltb_spec l (i + cnt)), (Nat.ltb_spec l (i + S cnt)); cbn; try lia; try reflexivity.
      destruct (Nat.eqb_spec (l - 1) (i + cnt)); [lia|reflexivity].
Qed.

(** moments of a measure: values of v_j = sum t_k x_k^j *)
Lemma polshift_moments len n (t x : nat -> C) c v : (forall j, (j < len)%nat -> v j = csum n (fun k => t k * cpow (x k) j)%C) ->
  forall j, (j < len)%nat -> polshift len v c j = csum n (fun k => t k * cpow (x k + c) j)%C.
Proof.
  intros H. unfold polshift.
  assert (G : forall p, (p <= len - 1)%nat -> forall j, (j < len)%nat ->
    fold_left (fun v i => shift_down c i (len - i) v) (seq 1 p) v j = csum n (fun k => t k * (cpow (x k) (j - p) * cpow (x k + c) (Nat.min j p)))%C).
  { induction p as [|p IH]; intros Hp j Hj.
    - cbn [seq fold_left]. rewrite H by assumption. apply csum_ext. intros k _. rewrite Nat.sub_0_r, Nat.min_0_r. cbn [cpow]. ring.
    - rewrite seq_S, fold_left_app. cbn [fold_left]. rewrite shift_down_spec by lia.
      destruct (Nat.leb_spec (1 + p) j), (Nat.ltb_spec j (1 + p + (len - (1 + p)))); cbn [andb]; try lia.
      + rewrite !IH by lia. rewrite <- csum_scal, <- csum_add. apply csum_ext. intros k _.
        replace (j - p)%nat with (S (j - S p)) by lia. replace (j - 1 - p)%nat with (j - S p)%nat by lia.
        rewrite !Nat.min_r by lia. cbn [cpow]. ring.
      + rewrite IH by lia. apply csum_ext. intros k _. replace (j - p)%nat with O by lia. replace (j - S p)%nat with O by lia. rewrite !Nat.min_l by lia. reflexivity. }
  intros j Hj. rewrite G by lia. apply csum_ext. intros k _. replace (j - (len - 1))%nat with O by lia. rewrite Nat.min_l by lia. cbn [cpow]. ring.
Qed.

(** ** the sum *)
Lemma add_powers_length res : forall t x, length (add_powers res t x) = length res.
Proof. induction res as [|r res IH]; intros t x; cbn; [reflexivity|now rewrite IH]. Qed.
Lemma add_powers_get res : forall t x j, (j < length res)%nat -> vget (add_powers res t x) j = (vget res j + t * cpow x j)%C.
Proof.
  induction res as [|r res IH]; intros t x j Hj; cbn in Hj; [lia|]. unfold vget. destruct j as [|j]; cbn [add_powers nth].
  - cbn. ring.
  - change (nth j (add_powers res (t * x)%C x) (RtoC 0)) with (vget (add_powers res (t * x)%C x) j). rewrite IH by lia. unfold vget. cbn [cpow]. ring.
Qed.

Definition node (n k : nat) : R := cos ((2 * INR k + 1) * PI / (2 * INR n)).
Lemma gc_points_ok u n todo : forall k res, (forall l, (l < n)%nat -> sqrt_affinereduction_gc u (RtoC (node n l)) <> RtoC 0) -> (k + todo <= n)%nat ->
  exists res', gc_points u n todo k res = Done res' /\ length res' = length res /\
    forall j, (j < length res)%nat ->
      vget res' j = (vget res j + csum todo (fun l => RtoC 1 / sqrt_affinereduction_gc u (RtoC (node n (k + l))) * cpow (RtoC (node n (k + l))) j))%C.
Proof.
  induction todo as [|todo IH]; intros k res H Hk.
  - exists res. split; [reflexivity|]. split; [reflexivity|]. intros j _. cbn. ring.
  - cbn [gc_points]. fold (node n k). destruct (Ceq_dec _ _) as [E|_]; [now apply H in E; [|lia]|].
    destruct (IH (S k) (add_powers res (RtoC 1 / sqrt_affinereduction_gc u (RtoC (node n k)))%C (RtoC (node n k)))) as [res' [E [L V]]]; [assumption|lia|].
    exists res'. rewrite add_powers_length in L, V. split; [exact E|]. split; [exact L|]. intros j Hj. rewrite V, add_powers_get, csum_S_l, Nat.add_0_r by assumption.
    rewrite <- Cplus_assoc. f_equal. f_equal. apply csum_ext. intros l _. now rewrite Nat.add_succ_r.
Qed.

Lemma integrals_gc_ok u g n : (forall l, (l < n)%nat -> sqrt_affinereduction_gc u (RtoC (node n l)) <> RtoC 0) ->
  exists res, integrals_gc u g n = Done res /\
    forall j, (j < g)%nat -> vget res j = csum n (fun k => RtoC PI / RtoC (INR n) * (RtoC 1 / sqrt_affinereduction_gc u (RtoC (node n k))) * cpow (RtoC (node n k)) j)%C.
Proof.
  intros H. unfold integrals_gc. destruct (gc_points_ok u n n 0 (repeat (RtoC 0) g) H) as [res [E [L V]]]; [lia|]. rewrite E. cbn [bind].
  eexists. split; [reflexivity|]. rewrite repeat_length in L, V. intros j Hj.
  assert (MG : forall (f : C -> C) (l : list C), (j < length l)%nat -> vget (map f l) j = f (vget l j)).
  { intros f l Hl. unfold vget. rewrite (nth_indep _ (RtoC 0) (f (RtoC 0))) by (rewrite map_length; exact Hl). apply map_nth. }
  rewrite MG, V by lia.
  replace (vget (repeat (RtoC 0) g) j) with (RtoC 0) by (unfold vget; symmetry; apply nth_repeat).
  rewrite Cplus_0_l. unfold Cdiv at 1. rewrite <- Cmult_assoc, <- csum_scal_r. apply csum_ext. intros k _. rewrite Nat.add_0_l. unfold Cdiv. ring.
Qed.

(** ** the square root *)
Lemma factor_sq z p : (gp_root_factor z p * gp_root_factor z p)%C = (z - p)%C.
Proof.
  unfold gp_root_factor. assert (S2 : forall w, (croot 2 w * croot 2 w)%C = w).
  { intros w. pose proof (croot_pow 2 w ltac:(lia)) as E. cbn [cpow Z.of_nat Pos.of_succ_nat Pos.succ] in E. rewrite <- E at 3. ring. }
  destruct (Rlt_dec 0 (fst p)).
  - replace (Ci * croot 2 (p - z) * (Ci * croot 2 (p - z)))%C with (Ci * Ci * (croot 2 (p - z) * croot 2 (p - z)))%C by ring.
    rewrite S2. apply injective_projections; cbn; ring.
  - apply S2.
Qed.
Lemma root_sq u z : (sqrt_affinereduction_gc u z * sqrt_affinereduction_gc u z)%C = cprod (fun p => z - p)%C u.
Proof.
  induction u as [|p u IH]; cbn [sqrt_affinereduction_gc fold_right cprod]; [ring|]. fold (sqrt_affinereduction_gc u z).
  rewrite <- IH, <- (factor_sq z p). ring.
Qed.
Lemma factor_cont p t : ccont (fun t => gp_root_factor (RtoC t) p) t.
Proof.
  unfold gp_root_factor. destruct (Rlt_dec 0 (fst p)).
  - apply ccont_mult; [apply ccont_const|]. apply (croot_line_m 2 (fun t => p - RtoC t)%C (snd p)); [lia|intros s; cbn; ring|].
    cbn. apply (continuous_minus (fun _ => fst p) (fun t => t)); [apply continuous_const|apply continuous_id].
  - apply (croot_line_m 2 (fun t => RtoC t - p)%C (- snd p)); [lia|intros s; cbn; ring|].
    cbn. apply (continuous_minus (fun t => t) (fun _ => fst p)); [apply continuous_id|apply continuous_const].
Qed.
Lemma root_cont u t : ccont (fun t => sqrt_affinereduction_gc u (RtoC t)) t.
Proof.
  induction u as [|p u IH]; cbn [sqrt_affinereduction_gc fold_right]; [apply ccont_const|]. apply ccont_mult; [apply factor_cont|exact IH].
Qed.

(** ** the edge *)
Section Edge.
  Variables (A : list C) (a b : nat).
  Hypothesis Ha : (a < length A)%nat.
  Hypothesis Hb : (b < length A)%nat.
  Hypothesis Hab : vget A a <> vget A b.
  Let u := ab_points_gc A a b.
  Let h := ((vget A b - vget A a) / RtoC 2)%C.
  Let Y (t : R) := (cpow (croot 2 h) (length u) * sqrt_affinereduction_gc u (RtoC t))%C.

  Lemma diff_nz : (vget A b - vget A a)%C <> RtoC 0.
  Proof using Ha Hb Hab. intros E. apply Hab. replace (vget A b) with (vget A b - vget A a + vget A a)%C by ring. rewrite E. ring. Qed.
  Lemma h_nz : h <> RtoC 0.
  Proof using Ha Hb Hab. intros E. apply diff_nz. replace (vget A b - vget A a)%C with (h * RtoC 2)%C by (unfold h; field; apply two_neq). rewrite E. ring. Qed.

  Lemma u_scaled : u = map (scaled A a b) (other_points (length A) a b).
  Proof using. unfold u, ab_points_gc, other_points. apply map_ext. intros k. unfold scaled. f_equal. ring. Qed.

  Lemma Y_sq t : (Y t * Y t)%C = cprod (fun k => edge_point (vget A a) (vget A b) (RtoC t) - vget A k)%C (other_points (length A) a b).
  Proof using Ha Hb Hab.
    rewrite (cprod_ext (fun k => edge_point (vget A a) (vget A b) (RtoC t) - vget A k)%C (fun k => h * (RtoC t - scaled A a b k))%C)
      by (intros k _; apply (edge_scaled A a b Hab)).
    rewrite (cprod_scal h (fun k => RtoC t - scaled A a b k)%C). unfold Y.
    set (s := cpow (croot 2 h) (length u)). set (r := sqrt_affinereduction_gc u (RtoC t)).
    replace (s * r * (s * r))%C with (s * s * (r * r))%C by ring. unfold r. rewrite root_sq. unfold s. rewrite <- cpow_mul.
    replace (croot 2 h * croot 2 h)%C with h.
    2: { pose proof (croot_pow 2 h ltac:(lia)) as E. cbn [cpow Z.of_nat Pos.of_succ_nat Pos.succ] in E. rewrite <- E at 1. ring. }
    rewrite u_scaled, map_length, cprod_map. reflexivity.
  Qed.

  Lemma Y_nz t : clear_edge A a b -> (-1 <= t <= 1)%R -> Y t <> RtoC 0.
  Proof using Ha Hb Hab.
    intros Hc Ht E. pose proof (Y_sq t) as S2. rewrite E in S2.
    assert (N : cprod (fun k => edge_point (vget A a) (vget A b) (RtoC t) - vget A k)%C (other_points (length A) a b) <> RtoC 0).
    { apply cprod_neq. intros k Hk. apply other_points_in in Hk as [Hk [Hka Hkb]]. intros E'. apply (Hc k t Hk Hka Hkb Ht).
      replace (vget A k) with (edge_point (vget A a) (vget A b) (RtoC t) - (edge_point (vget A a) (vget A b) (RtoC t) - vget A k))%C by ring. rewrite E'. ring. }
    apply N. rewrite <- S2. ring.
  Qed.

  Lemma edge_ok g n : (1 <= n)%nat -> clear_edge A a b ->
    exists res, integrals_edge_gc A g n a b = Done (res, (Y (-1) / h)%C, (Y 1 / h)%C) /\
      forall j, (j < g)%nat -> res j = csum n (fun k => RtoC PI / RtoC (INR n) * (cpow (edge_point (vget A a) (vget A b) (RtoC (node n k))) j * Ci / Y (node n k)))%C.
  Proof using Ha Hb Hab.
    intros Hn Hc. unfold integrals_edge_gc. destruct (Ceq_dec _ _) as [E|_]; [now apply diff_nz in E|]. fold u h.
    assert (SN : forall t, (-1 <= t <= 1)%R -> sqrt_affinereduction_gc u (RtoC t) <> RtoC 0).
    { intros t Ht E. apply (Y_nz t Hc Ht). unfold Y. rewrite E. ring. }
    destruct (integrals_gc_ok u g n) as [res [E V]]; [intros l _; apply SN; apply COS_bound|]. rewrite E. cbn [bind].
    eexists. split.
    - assert (EY : forall t, Y t = (sqrt_affinereduction_gc u (RtoC t) * cpow (croot 2 h) (length u))%C) by (intros t; unfold Y; ring).
      rewrite !EY. reflexivity.
    - intros j Hj. cbv beta. rewrite (polshift_moments g n _ _ _ _ V j Hj). rewrite <- csum_scal_r. apply csum_ext. intros k Hk.
      assert (EP : edge_point (vget A a) (vget A b) (RtoC (node n k)) = (h * (RtoC (node n k) + (vget A b + vget A a) / (vget A b - vget A a)))%C).
      { unfold edge_point, h. field. split; [apply diff_nz|apply two_neq]. }
      rewrite EP, cpow_mul. unfold Y.
      assert (S1 : cpow (croot 2 h) (length u) <> RtoC 0).
      { apply cpow_neq_0. intros E0. pose proof (croot_pow 2 h ltac:(lia)) as E1. cbn [cpow Z.of_nat Pos.of_succ_nat Pos.succ] in E1. rewrite E0 in E1.
        apply h_nz. rewrite <- E1. ring. }
      assert (S2 := SN (node n k) (COS_bound _)). assert (S3 : RtoC (INR n) <> RtoC 0).
      { intros E0. injection E0 as E0. apply (not_0_INR n); [lia|exact E0]. }
      field. repeat split; auto.
  Qed.

  (** y(t) = - i h sqrt(1-t^2) Y(t) *)
  Lemma curve_ok t : (-1 <= t <= 1)%R ->
    let y := (- Ci * h * RtoC (sqrt (1 - t * t)) * Y t)%C in (y * y)%C = poly_at A (edge_point (vget A a) (vget A b) (RtoC t)).
  Proof using Ha Hb Hab.
    intros Ht y. unfold y. assert (Hne : a <> b) by (intros E'; apply Hab; rewrite E'; reflexivity).
    rewrite (poly_split A a b Ha Hb _ Hne), <- Y_sq.
    assert (E1 : (edge_point (vget A a) (vget A b) (RtoC t) - vget A a)%C = (h * (RtoC t + RtoC 1))%C) by (unfold edge_point, h; rewrite two; field; intros H0; injection H0; lra).
    assert (E2 : (edge_point (vget A a) (vget A b) (RtoC t) - vget A b)%C = (h * (RtoC t - RtoC 1))%C) by (unfold edge_point, h; rewrite two; field; intros H0; injection H0; lra).
    rewrite E1, E2.
    assert (Q : (RtoC (sqrt (1 - t * t)) * RtoC (sqrt (1 - t * t)) = RtoC 1 - RtoC t * RtoC t)%C).
    { rewrite <- !RtoC_mult, <- RtoC_minus. f_equal. apply sqrt_sqrt. nra. }
    assert (I2 : (Ci * Ci = - RtoC 1)%C) by (apply injective_projections; cbn; ring).
    transitivity (Ci * Ci * (h * h) * (RtoC (sqrt (1 - t * t)) * RtoC (sqrt (1 - t * t))) * (Y t * Y t))%C; [ring|]. rewrite Q, I2. ring.
  Qed.

  Lemma Y_cont t : ccont Y t.
  Proof using. unfold Y. apply ccont_mult; [apply ccont_const|apply root_cont]. Qed.
End Edge.
