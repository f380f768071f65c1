(** Lemmas for C110. *)
From Verif Require Import CArg ModelTree SpecVec ModelGpMoeb ModelGpMoeb2 SpecEdge ProofEdge ProofVec ProofGpMoeb.
Local Open Scope C_scope.

(** value of a row *)
Definition rval (g : nat) (M : nat -> nat -> C) (k : nat) (x : C) : C := csum g (fun l => M k l * cpow x l).
Lemma rval_mul g M N k x : rval g (gmul g M N) k x = csum g (fun l => M k l * rval g N l x).
Proof.
  unfold rval, gmul. transitivity (csum g (fun j => csum g (fun l => M k l * N l j * cpow x j))).
  - apply csum_ext. intros j _. now rewrite <- csum_scal_r.
  - rewrite csum_swap. apply csum_ext. intros l _. rewrite <- csum_scal. apply csum_ext. intros j _. ring.
Qed.
(** sum of a row against weights s^l t^(k-l) u *)
Lemma homot_sum a b deg g k (F : nat -> C) : (k < g)%nat ->
  csum g (fun l => homot_mat a b deg k l * F l) = a / croot 2 (cpow a deg) * csum (S k) (fun l => NC (binom k l) * cpow b (k - l) * cpow a l * F l).
Proof.
  intros Hk. replace g with (S k + (g - S k))%nat at 1 by lia. rewrite csum_app.
  rewrite (csum_zero (g - S k)).
  2: { intros l _. unfold homot_mat. destruct (Nat.leb_spec (S k + l) k); [lia|]. unfold Cdiv. ring. }
  rewrite Cplus_0_r, <- csum_scal. apply csum_ext. intros l Hl. unfold homot_mat. destruct (Nat.leb_spec l k); [|lia]. cbn [cpow]. unfold Cdiv. ring.
Qed.
Lemma homot_val a b deg g k x : (k < g)%nat -> rval g (homot_mat a b deg) k x = a / croot 2 (cpow a deg) * cpow (a * x + b) k.
Proof.
  intros Hk. unfold rval. rewrite homot_sum by exact Hk. f_equal. rewrite binomial_formula. apply csum_ext. intros l _. rewrite cpow_mul. ring.
Qed.
Lemma invert_row g M k j : (j < g)%nat -> gmul g M (invert_mat g) k j = - M k (g - 1 - j)%nat.
Proof.
  intros Hj. unfold gmul. rewrite (csum_single g _ (g - 1 - j)%nat); [|lia|].
  - unfold invert_mat. replace (g - 1 - j + j)%nat with (g - 1)%nat by lia. rewrite Nat.eqb_refl. apply injective_projections; cbn; ring.
  - intros l Hl N. unfold invert_mat. destruct (Nat.eqb_spec (l + j) (g - 1)); [lia|]. ring.
Qed.
Lemma old_val a b c d deg g k x : c <> RtoC 0 -> (k < g)%nat -> let al := b - a * d / c in
  croot 2 (cpow al deg) <> RtoC 0 -> croot 2 (cpow c deg) <> RtoC 0 ->
  croot 2 (cpow al deg) * croot 2 (cpow c deg) * rval g (gmul g (gmul g (homot_mat al (a / c) deg) (invert_mat g)) (homot_mat c d deg)) k x =
  (a * d - b * c) * (cpow (a * x + b) k * cpow (c * x + d) (g - 1 - k)).
Proof.
  intros Hc Hk al S1 S2. rewrite rval_mul.
  rewrite (csum_ext g _ (fun j => (fun l => homot_mat al (a / c) deg k l * (- (c / croot 2 (cpow c deg)) * cpow (c * x + d) (g - 1 - l))) (g - 1 - j)%nat)).
  2: { intros j Hj. rewrite invert_row, homot_val by exact Hj. replace (g - 1 - (g - 1 - j))%nat with j by lia. ring. }
  rewrite (csum_rev g (fun l => homot_mat al (a / c) deg k l * (- (c / croot 2 (cpow c deg)) * cpow (c * x + d) (g - 1 - l)))), homot_sum by exact Hk.
  assert (E : csum (S k) (fun l => NC (binom k l) * cpow (a / c) (k - l) * cpow al l * (- (c / croot 2 (cpow c deg)) * cpow (c * x + d) (g - 1 - l))) =
    - (c / croot 2 (cpow c deg)) * cpow (c * x + d) (g - 1 - k) * cpow (al + a / c * (c * x + d)) k).
  { rewrite (binomial_formula al (a / c * (c * x + d)) k), <- csum_scal. apply csum_ext. intros l Hl. rewrite cpow_mul.
    replace (g - 1 - l)%nat with (g - 1 - k + (k - l))%nat by lia. rewrite cpow_add. ring. }
  rewrite E. replace (al + a / c * (c * x + d)) with (a * x + b) by (unfold al; field; exact Hc).
  transitivity (- (al * c) * (cpow (a * x + b) k * cpow (c * x + d) (g - 1 - k))); [field; split; assumption|]. f_equal. unfold al. field. exact Hc.
Qed.

Lemma root_pow_nz z deg : z <> RtoC 0 -> croot 2 (cpow z deg) <> RtoC 0.
Proof.
  intros H E. pose proof (croot_pow 2 (cpow z deg) ltac:(lia)) as P. cbn [cpow Z.of_nat Pos.of_succ_nat Pos.succ] in P. rewrite E in P.
  apply (cpow_neq_0 z deg H). rewrite <- P. ring.
Qed.

Lemma old_ok a b c d g deg : a * d - b * c <> RtoC 0 ->
  let K := if Ceq_dec c (RtoC 0) then cpow d (g + 1) * croot 2 (cpow (a / d) deg) else croot 2 (cpow (b - a * d / c) deg) * croot 2 (cpow c deg) in
  K <> RtoC 0 /\ exists M, moebius_matrix_old a b c d g deg = Done M /\
    forall k x, (k < g)%nat -> K * csum g (fun l => M k l * cpow x l) = csum g (fun l => moebius_matrix a b c d g k l * cpow x l).
Proof.
  intros D K. unfold K, moebius_matrix_old. destruct (Ceq_dec c (RtoC 0)) as [Zc|Nc].
  - subst c. assert (Nd : d <> RtoC 0) by (intros ->; apply D; ring). assert (Na : a <> RtoC 0) by (intros ->; apply D; ring).
    assert (Nq : a / d <> RtoC 0) by (intros E; apply Na; replace a with (a / d * d) by (field; exact Nd); rewrite E; ring).
    assert (S1 := root_pow_nz (a / d) deg Nq). split; [apply Cmult_neq_0; [now apply cpow_neq_0|exact S1]|].
    destruct (Ceq_dec d (RtoC 0)) as [Z|_]; [contradiction|]. destruct (Ceq_dec _ _) as [Z|_]; [now apply cpow_neq_0 in Z|].
    eexists. split; [reflexivity|]. intros k x Hk. fold (rval g (homot_mat (a / d) (b / d) deg) k x). rewrite homot_val, matrix_ok by exact Hk.
    assert (Nk := cpow_neq_0 d k Nd).
    replace (a / d * x + b / d) with ((a * x + b) * / d) by (field; exact Nd). rewrite cpow_mul.
    assert (I : cpow d k * cpow (/ d) k = RtoC 1) by (rewrite <- cpow_mul; replace (d * / d) with (RtoC 1) by (field; exact Nd); apply cpow_one).
    replace (g + 1)%nat with (k + (g - 1 - k) + 2)%nat by lia. rewrite !cpow_add. replace (RtoC 0 * x + d) with d by ring.
    transitivity (cpow d (g - 1 - k) * cpow d 2 * (a / d) * cpow (a * x + b) k * (cpow d k * cpow (/ d) k)); [field; split; assumption|]. rewrite I. cbn [cpow]. field. exact Nd.
  - assert (Nal : b - a * d / c <> RtoC 0) by (intros E; apply D; replace (a * d - b * c) with (- (b - a * d / c) * c) by (field; exact Nc); rewrite E; ring).
    assert (S1 := root_pow_nz _ deg Nal). assert (S2 := root_pow_nz _ deg Nc). split; [now apply Cmult_neq_0|].
    destruct (Ceq_dec _ _) as [Z|_]; [now apply cpow_neq_0 in Z|]. destruct (Ceq_dec _ _) as [Z|_]; [now apply cpow_neq_0 in Z|].
    eexists. split; [reflexivity|]. intros k x Hk. rewrite matrix_ok by exact Hk. exact (old_val a b c d deg g k x Nc Hk S1 S2).
Qed.
