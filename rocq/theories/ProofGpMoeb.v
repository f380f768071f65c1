(** Lemmas for C109. *)
From Verif Require Import CArg ModelTree ModelGpMoeb SpecEdge SpecGpMoeb ProofEdge.
Local Open Scope C_scope.

Lemma Cmult_cancel_l (a b c : C) : a <> RtoC 0 -> a * b = a * c -> b = c.
Proof. intros H E. transitivity (/ a * (a * b)); [field; exact H|]. rewrite E. field. exact H. Qed.

(** ** the points *)
Lemma c_nz a b c d p : a * d - b * c <> RtoC 0 -> c * p + d = RtoC 0 -> c <> RtoC 0.
Proof.
  intros D E Hc. apply D. rewrite Hc in *. replace d with (RtoC 0 * p + d) by ring. rewrite E. ring.
Qed.
Lemma loop_ok a b c d : a * d - b * c <> RtoC 0 -> forall A, exists K, K <> RtoC 0 /\ forall x, c * x + d <> RtoC 0 ->
  cpow (c * x + d) (length A) * poly_at (homog_loop a b c d A) (moebius a b c d x) = K * poly_at A x.
Proof.
  intros D. induction A as [|p A [K [HK IH]]].
  - exists (RtoC 1). split; [intros E; injection E; lra|]. intros x _. cbn. ring.
  - cbn [homog_loop length]. destruct (Ceq_dec (c * p + d) (RtoC 0)) as [E|N].
    + exists (c * K). split; [apply Cmult_neq_0; [now apply (c_nz a b c d p)|exact HK]|]. intros x Hx. cbn [cpow]. unfold poly_at in *. cbn [cprod].
      transitivity ((c * x + d) * (cpow (c * x + d) (length A) * cprod (fun r => moebius a b c d x - r) (homog_loop a b c d A))); [ring|].
      rewrite IH by exact Hx. replace (c * x + d) with (c * (x - p) + (c * p + d)) by ring. rewrite E. ring.
    + exists ((a * d - b * c) / (c * p + d) * K). split; [apply Cmult_neq_0; [|exact HK]|].
      * intros E. apply D. replace (a * d - b * c) with ((a * d - b * c) / (c * p + d) * (c * p + d)) by (field; exact N). rewrite E. ring.
      * intros x Hx. cbn [cpow]. unfold poly_at in *. cbn [cprod].
        match goal with |- _ * (?f * ?P) = _ => transitivity (((c * x + d) * f) * (cpow (c * x + d) (length A) * P)); [ring|] end. rewrite IH by exact Hx. unfold moebius. field. repeat split; auto.
Qed.
Lemma poly_app A B t : poly_at (A ++ B) t = poly_at A t * poly_at B t.
Proof. apply cprod_app. Qed.

Lemma croot_ex w : exists y : C, y * y = w.
Proof. exists (croot 2 w). pose proof (croot_pow 2 w ltac:(lia)) as E. cbn [cpow Z.of_nat Pos.of_succ_nat Pos.succ] in E. rewrite <- E at 3. ring. Qed.

Lemma even_ok a b c d e A : a * d - b * c <> RtoC 0 -> length A = (2 * e)%nat -> carries a b c d e A (homog a b c d A).
Proof.
  intros D L. destruct (loop_ok a b c d D A) as [K [HK H]]. exists K. split; [exact HK|]. intros x y Hx Hy X Y. unfold X, Y, homog.
  replace (Nat.odd (length A)) with false by (rewrite L, Nat.odd_mul; reflexivity). rewrite app_nil_r.
  assert (N : cpow (c * x + d) e <> RtoC 0) by (apply cpow_neq_0; exact Hx).
  assert (E : cpow (c * x + d) (length A) = cpow (c * x + d) e * cpow (c * x + d) e) by (rewrite L; replace (2 * e)%nat with (e + e)%nat by lia; apply cpow_add).
  specialize (H x Hx). rewrite E, <- Hy in H.
  apply (Cmult_cancel_l (cpow (c * x + d) e * cpow (c * x + d) e)); [now apply Cmult_neq_0|]. rewrite H. field. exact N.
Qed.

(** two points off a list *)
Lemma off_list (l : list C) : exists r : R, forall s, (r <= s)%R -> ~ In (RtoC s) l.
Proof.
  induction l as [|p l [r IH]]; [exists 0%R; intros s _ []|]. exists (Rmax r (fst p + 1))%R. intros s Hs [E|I].
  - pose proof (Rmax_r r (fst p + 1)%R). apply (f_equal fst) in E. cbn in E. lra.
  - apply (IH s); [|exact I]. pose proof (Rmax_l r (fst p + 1)%R). lra.
Qed.
Lemma poly_off A x : ~ In x A -> poly_at A x <> RtoC 0.
Proof. intros H. apply cprod_neq. intros p Hp E. apply H. replace x with (x - p + p) by ring. rewrite E. replace (RtoC 0 + p) with p by ring. exact Hp. Qed.

Lemma odd_ok a b c d e A : a * d - b * c <> RtoC 0 -> length A = (2 * e - 1)%nat -> (1 <= e)%nat -> (carries a b c d e A (homog a b c d A) <-> a = RtoC 0).
Proof.
  intros D L He. destruct (loop_ok a b c d D A) as [K [HK H]].
  assert (O : Nat.odd (length A) = true) by (rewrite L; replace (2 * e - 1)%nat with (S (2 * (e - 1))) by lia; rewrite Nat.odd_succ, Nat.even_mul; reflexivity).
  assert (F : forall x, c * x + d <> RtoC 0 -> cpow (c * x + d) e * cpow (c * x + d) e * poly_at (homog a b c d A) (moebius a b c d x) = K * (a * x + b) * poly_at A x).
  { intros x Hx. unfold homog. rewrite O, poly_app.
    assert (E : cpow (c * x + d) e * cpow (c * x + d) e = (c * x + d) * cpow (c * x + d) (length A)).
    { rewrite <- cpow_add. replace (e + e)%nat with (S (length A)) by lia. cbn [cpow]. ring. }
    rewrite E. transitivity ((c * x + d) * poly_at [RtoC 0] (moebius a b c d x) * (cpow (c * x + d) (length A) * poly_at (homog_loop a b c d A) (moebius a b c d x))); [ring|].
    rewrite H by exact Hx. unfold poly_at at 1. cbn [cprod]. unfold moebius. field. exact Hx. }
  split.
  - intros [K' [HK' G]].
    assert (V : forall x, c * x + d <> RtoC 0 -> poly_at A x <> RtoC 0 -> K * (a * x + b) = K').
    { intros x Hx Hf. destruct (croot_ex (poly_at A x)) as [y Hy]. specialize (G x y Hx Hy). cbv zeta in G. specialize (F x Hx). rewrite <- G in F.
      assert (N : cpow (c * x + d) e <> RtoC 0) by (apply cpow_neq_0; exact Hx).
      apply (Cmult_cancel_l (poly_at A x)); [exact Hf|]. transitivity (K * (a * x + b) * poly_at A x); [ring|]. rewrite <- F, <- Hy. field. exact N. }
    destruct (off_list ((- d / c) :: A)) as [r Hr].
    assert (W : forall s : R, (r <= s)%R -> K * (a * RtoC s + b) = K').
    { intros s Hs. specialize (Hr s Hs). apply V.
      - intros E. destruct (Ceq_dec c (RtoC 0)) as [Z|N].
        + now apply (c_nz a b c d (RtoC s)) in E.
        + apply Hr. left. replace (RtoC s) with ((c * RtoC s + d - d) / c) by (field; exact N). rewrite E. field. exact N.
      - apply poly_off. intros I. apply Hr. now right. }
    pose proof (W r ltac:(lra)) as W1. pose proof (W (r + 1)%R ltac:(lra)) as W2. rewrite RtoC_plus in W2.
    destruct (Ceq_dec a (RtoC 0)) as [Z|N]; [exact Z|]. exfalso. apply (Cmult_neq_0 K a HK N).
    transitivity (K * (a * (RtoC r + RtoC 1) + b) - K * (a * RtoC r + b)); [ring|]. rewrite W1, W2. ring.
  - intros ->. assert (BN : b <> RtoC 0) by (intros ->; apply D; ring). exists (K * b). split; [now apply Cmult_neq_0|]. intros x y Hx Hy X Y. unfold X, Y.
    assert (N : cpow (c * x + d) e <> RtoC 0) by (apply cpow_neq_0; exact Hx).
    apply (Cmult_cancel_l (cpow (c * x + d) e * cpow (c * x + d) e)); [now apply Cmult_neq_0|]. rewrite F, <- Hy by exact Hx. field. exact N.
Qed.

(** ** the matrix *)
Definition pval (q : list C) (x : C) : C := csum (length q) (fun l => vget q l * cpow x l).
Lemma pval_cons q0 q x : pval (q0 :: q) x = q0 + x * pval q x.
Proof.
  unfold pval. cbn [length]. rewrite csum_S_l. f_equal; [cbn; ring|]. rewrite <- csum_scal. apply csum_ext. intros k _. cbn [vget nth cpow]. unfold vget. cbn [nth]. ring.
Qed.
Lemma lin_mul_length a b q : forall c0, length (lin_mul a b q c0) = S (length q).
Proof. induction q as [|q0 q IH]; intros c0; cbn; [reflexivity|now rewrite IH]. Qed.
Lemma lin_mul_val a b x q : forall c0, pval (lin_mul a b q c0) x = c0 + (a * x + b) * pval q x.
Proof.
  induction q as [|q0 q IH]; intros c0; cbn [lin_mul].
  - rewrite pval_cons. unfold pval. cbn. ring.
  - rewrite !pval_cons, IH. ring.
Qed.
Lemma iter_ok a b x q n : length (Nat.iter n (fun q => lin_mul a b q (RtoC 0)) q) = (n + length q)%nat /\
  pval (Nat.iter n (fun q => lin_mul a b q (RtoC 0)) q) x = cpow (a * x + b) n * pval q x.
Proof.
  induction n as [|n [L V]]; [split; [reflexivity|change (pval q x = RtoC 1 * pval q x); ring]|]. change (Nat.iter (S n) (fun q => lin_mul a b q (RtoC 0)) q) with (lin_mul a b (Nat.iter n (fun q => lin_mul a b q (RtoC 0)) q) (RtoC 0)).
  rewrite lin_mul_length, lin_mul_val, L, V. split; [reflexivity|cbn [cpow]; ring].
Qed.
Lemma matrix_ok a b c d g k x : (k < g)%nat ->
  csum g (fun l => moebius_matrix a b c d g k l * cpow x l) = (a * d - b * c) * (cpow (a * x + b) k * cpow (c * x + d) (g - 1 - k)).
Proof.
  intros Hk. unfold moebius_matrix. rewrite (csum_ext _ _ (fun l => (a * d - b * c) * (vget (line a b c d g k) l * cpow x l))) by (intros l _; ring).
  rewrite csum_scal. f_equal. unfold line.
  destruct (iter_ok c d x [RtoC 1] (g - 1 - k)) as [L1 V1].
  destruct (iter_ok a b x (Nat.iter (g - 1 - k) (fun q => lin_mul c d q (RtoC 0)) [RtoC 1]) k) as [L2 V2].
  unfold pval in V2 at 1. rewrite L2, L1 in V2. replace (k + (g - 1 - k + length [RtoC 1]))%nat with g in V2 by (cbn; lia). rewrite V2, V1. f_equal.
  unfold pval. cbn. ring.
Qed.
