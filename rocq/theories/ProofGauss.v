(** Exactness of the Gauss-Chebyshev rule. *)
From Coquelicot Require Import Coquelicot.
From Coq Require Import Ratan.
From Verif Require Import CArg SpecQuad ProofQuad ProofVec.
Local Open Scope R_scope.

Fixpoint rsum (n : nat) (f : nat -> R) : R := match n with O => 0 | S k => rsum k f + f k end.
Lemma csum_RtoC n f : csum n (fun k => RtoC (f k)) = RtoC (rsum n f).
Proof. induction n as [|n IH]; cbn [csum rsum]; [reflexivity|]. rewrite IH, RtoC_plus. reflexivity. Qed.
Lemma rsum_ext n f g : (forall k, (k < n)%nat -> f k = g k) -> rsum n f = rsum n g.
Proof. induction n as [|n IH]; intros H; cbn [rsum]; [reflexivity|]. rewrite IH, H by (intros; try apply H; lia). reflexivity. Qed.
Lemma rsum_add n f g : rsum n (fun k => f k + g k) = rsum n f + rsum n g.
Proof. induction n as [|n IH]; cbn [rsum]; [ring|]. rewrite IH. ring. Qed.
Lemma rsum_scal n c f : rsum n (fun k => c * f k) = c * rsum n f.
Proof. induction n as [|n IH]; cbn [rsum]; [ring|]. rewrite IH. ring. Qed.

Definition theta (n k : nat) : R := INR (2 * k + 1) * PI / (2 * INR n).

Lemma sum_cos_telescope a n : 2 * sin a * rsum n (fun k => cos (INR (2 * k + 1) * a)) = sin (INR (2 * n) * a).
Proof.
  induction n as [|n IH]; cbn [rsum].
  - rewrite Nat.mul_0_r. cbn [INR]. rewrite Rmult_0_l, sin_0. ring.
  - rewrite Rmult_plus_distr_l, IH.
    replace (INR (2 * S n) * a) with (INR (2 * n + 1) * a + a).
    + replace (INR (2 * n) * a) with (INR (2 * n + 1) * a - a).
      * rewrite sin_plus, sin_minus. ring.
      * rewrite plus_INR. cbn [INR]. ring.
    + replace (2 * S n)%nat with (2 * n + 1 + 1)%nat by lia. rewrite (plus_INR (2 * n + 1) 1). cbn [INR]. ring.
Qed.

Lemma sum_cos_zero n j : (1 <= j)%nat -> (j < 2 * n)%nat -> rsum n (fun k => cos (INR j * theta n k)) = 0.
Proof.
  intros Hj Hn. assert (Hn0 : INR n <> 0) by (apply not_0_INR; lia).
  set (a := INR j * PI / (2 * INR n)).
  rewrite (rsum_ext n _ (fun k => cos (INR (2 * k + 1) * a))).
  2:{ intros k _. f_equal. unfold theta, a. field. exact Hn0. }
  pose proof (sum_cos_telescope a n) as H.
  assert (E : INR (2 * n) * a = INR j * PI) by (unfold a; rewrite mult_INR; cbn [INR]; field; exact Hn0).
  rewrite E in H.
  assert (Es : sin (INR j * PI) = 0).
  { apply sin_eq_0_1. exists (Z.of_nat j). rewrite <- INR_IZR_INZ. ring. }
  rewrite Es in H.
  assert (Hs : 0 < sin a).
  { apply sin_gt_0; unfold a.
    - apply Rdiv_lt_0_compat; [apply Rmult_lt_0_compat; [apply lt_0_INR; lia|apply PI_RGT_0]|].
      apply Rmult_lt_0_compat; [lra|apply lt_0_INR; lia].
    - apply (Rmult_lt_reg_r (2 * INR n)); [apply Rmult_lt_0_compat; [lra|apply lt_0_INR; lia]|].
      unfold Rdiv. rewrite Rmult_assoc, Rinv_l, Rmult_1_r by (apply Rmult_integral_contrapositive_currified; [lra|exact Hn0]).
      rewrite (Rmult_comm PI). apply Rmult_lt_compat_r; [apply PI_RGT_0|].
      apply lt_INR in Hn. rewrite mult_INR in Hn. cbn [INR] in Hn. lra. }
  apply (Rmult_eq_reg_l (2 * sin a)); [rewrite H; ring|lra].
Qed.

Lemma sum_one n f : (forall k, f k = 1) -> rsum n f = INR n.
Proof. intros H. induction n as [|n IH]; cbn [rsum]; [reflexivity|]. rewrite IH, H, S_INR. reflexivity. Qed.

Lemma cos_product j x : cos x * cos (INR (S j) * x) = / 2 * (cos (INR (S (S j)) * x) + cos (INR j * x)).
Proof.
  rewrite !S_INR. replace ((INR j + 1 + 1) * x) with ((INR j + 1) * x + x) by ring.
  replace (INR j * x) with ((INR j + 1) * x - x) by ring. rewrite cos_plus, cos_minus. field.
Qed.

Lemma RInt_ext_R (f g : R -> R) a b l : (forall x, f x = g x) -> is_RInt f a b l -> is_RInt g a b l.
Proof. intros H. apply is_RInt_ext. intros x _. apply H. Qed.

Lemma cos_int a : a <> 0 -> is_RInt (fun x => cos (a * x)) 0 PI (sin (a * PI) / a).
Proof.
  intros Ha. replace (sin (a * PI) / a) with (minus (sin (a * PI) / a) (sin (a * 0) / a)).
  - apply (is_RInt_derive (fun x => sin (a * x) / a) (fun x => cos (a * x))).
    + intros x _. auto_derive; [exact I|]. field. exact Ha.
    + intros x _. apply (continuous_comp (fun x => a * x) cos).
      * apply (continuous_mult (fun _ => a) (fun x => x)); [apply continuous_const|apply continuous_id].
      * apply continuous_cos.
  - rewrite Rmult_0_r, sin_0. unfold minus, plus, opp; cbn. field. exact Ha.
Qed.

Lemma half_sum_int (f g : R -> R) c A B : is_RInt f 0 PI (c * A) -> is_RInt g 0 PI (c * B) ->
  is_RInt (fun t => / 2 * f t + / 2 * g t) 0 PI (c * (/ 2 * A + / 2 * B)).
Proof.
  intros Hf Hg. replace (c * (/ 2 * A + / 2 * B)) with (/ 2 * (c * A) + / 2 * (c * B)) by ring.
  apply (is_RInt_plus (fun t => / 2 * f t) (fun t => / 2 * g t)).
  - apply (is_RInt_scal f); exact Hf.
  - apply (is_RInt_scal g); exact Hg.
Qed.

Lemma trig_exact n : (1 <= n)%nat -> forall p j, (p + j < 2 * n)%nat ->
  is_RInt (fun t => cos t ^ p * cos (INR j * t)) 0 PI (PI / INR n * rsum n (fun k => cos (theta n k) ^ p * cos (INR j * theta n k))).
Proof.
  intros Hn. assert (Hn0 : INR n <> 0) by (apply not_0_INR; lia).
  induction p as [|p IH]; intros j Hj.
  - destruct j as [|j].
    + rewrite (sum_one n) by (intros k; cbn [pow INR]; rewrite Rmult_0_l, cos_0; ring).
      replace (PI / INR n * INR n) with (scal (PI - 0) 1).
      2:{ unfold scal; cbn; unfold mult; cbn. field. exact Hn0. }
      apply (RInt_ext_R (fun _ => 1)); [|apply (@is_RInt_const R_NormedModule 0 PI 1)].
      intros x. cbn [pow INR]. rewrite Rmult_0_l, cos_0. ring.
    + rewrite (rsum_ext n _ (fun k => cos (INR (S j) * theta n k))) by (intros; cbn [pow]; ring).
      rewrite sum_cos_zero by lia. rewrite Rmult_0_r.
      apply (RInt_ext_R (fun x => cos (INR (S j) * x))); [intros; cbn [pow]; ring|].
      assert (Hj0 : INR (S j) <> 0) by (apply not_0_INR; lia).
      assert (Es : sin (INR (S j) * PI) = 0).
      { apply sin_eq_0_1. exists (Z.of_nat (S j)). rewrite <- INR_IZR_INZ. ring. }
      replace 0 with (sin (INR (S j) * PI) / INR (S j)) at 2 by (rewrite Es; field; exact Hj0).
      apply cos_int, Hj0.
  - destruct j as [|j].
    + rewrite (rsum_ext n _ (fun k => cos (theta n k) ^ p * cos (INR 1 * theta n k))).
      2:{ intros k _. cbn [pow INR]. rewrite Rmult_0_l, Rmult_1_l, cos_0. ring. }
      apply (RInt_ext_R (fun t => cos t ^ p * cos (INR 1 * t))).
      { intros x. cbn [pow INR]. rewrite Rmult_0_l, Rmult_1_l, cos_0. ring. }
      apply IH. lia.
    + rewrite (rsum_ext n _ (fun k => / 2 * (cos (theta n k) ^ p * cos (INR (S (S j)) * theta n k)) + / 2 * (cos (theta n k) ^ p * cos (INR j * theta n k)))).
      2:{ intros k _. cbn [pow]. rewrite (Rmult_comm (cos (theta n k))), Rmult_assoc, cos_product. ring. }
      rewrite rsum_add, !rsum_scal.
      apply (RInt_ext_R (fun t => / 2 * (cos t ^ p * cos (INR (S (S j)) * t)) + / 2 * (cos t ^ p * cos (INR j * t)))).
      { intros x. cbn [pow]. rewrite (Rmult_comm (cos x) (cos x ^ p)), (Rmult_assoc _ (cos x) _), cos_product. ring. }
      apply half_sum_int; apply IH; lia.
Qed.

(** ** the integral of t^p/sqrt(1-t^2) *)
Lemma continuous_cospow p x : continuous (fun t => cos t ^ p) x.
Proof.
  apply (ex_derive_continuous (fun t => cos t ^ p)). auto_derive. exact I.
Qed.
Definition F (p : nat) (x : R) : R := RInt (fun t => cos t ^ p) 0 x.
Lemma F_derive p x : is_derive (F p) x (cos x ^ p).
Proof.
  unfold F. apply (is_derive_RInt (fun t => cos t ^ p) _ 0).
  - apply filter_forall. intros b. apply (@RInt_correct R_CompleteNormedModule), (@ex_RInt_continuous R_CompleteNormedModule). intros z _. apply continuous_cospow.
  - apply continuous_cospow.
Qed.
Lemma F_continuous p x : continuous (F p) x.
Proof. apply (@ex_derive_continuous R_AbsRing R_NormedModule (F p)). eexists. apply F_derive. Qed.

Lemma acos_derive x : -1 < x < 1 -> is_derive acos x (- / sqrt (1 - x²)).
Proof.
  intros Hx. apply is_derive_Reals.
  replace (- / sqrt (1 - x²)) with (-1 / sqrt (1 - x²)) by (unfold Rdiv; ring).
  apply (derive_pt_eq_1 acos x _ (derivable_pt_acos x Hx)). apply derive_pt_acos.
Qed.

Lemma inner_integral p a b : -1 < a -> a <= b -> b < 1 ->
  is_RInt (fun t => t ^ p / sqrt (1 - t * t)) a b (F p (acos a) - F p (acos b)).
Proof.
  intros Ha Hab Hb.
  replace (F p (acos a) - F p (acos b)) with (minus (- F p (acos b)) (- F p (acos a))) by (unfold minus, plus, opp; cbn; ring).
  assert (Hr : forall x, Rmin a b <= x <= Rmax a b -> -1 < x < 1).
  { intros x Hx. rewrite Rmin_left, Rmax_right in Hx by lra. lra. }
  assert (Hpos : forall x, -1 < x < 1 -> 0 < 1 - x * x) by (intros x Hx; nra).
  apply (is_RInt_derive (fun t => - F p (acos t)) (fun t => t ^ p / sqrt (1 - t * t))).
  - intros x Hx. specialize (Hr x Hx).
    evar_last.
    + apply (is_derive_opp (fun t => F p (acos t))).
      apply (is_derive_comp (F p) acos); [apply F_derive|apply acos_derive; exact Hr].
    + unfold scal, opp; cbn; unfold mult; cbn. rewrite cos_acos by lra. unfold Rsqr, Rdiv. ring.
  - intros x Hx. specialize (Hr x Hx). specialize (Hpos x Hr).
    apply (ex_derive_continuous (fun t => t ^ p / sqrt (1 - t * t))). auto_derive. split; [lra|]. split; [|exact I].
    apply Rgt_not_eq, sqrt_lt_R0. lra.
Qed.

Lemma acos_at_1 : filterlim acos (at_left 1) (locally 0).
Proof.
  intros P [eps HP]. pose proof PI_RGT_0 as Hpi.
  set (e := Rmin (pos eps) PI). assert (He : 0 < e <= PI) by (unfold e; split; [apply Rmin_glb_lt; [apply cond_pos|lra]|apply Rmin_r]).
  assert (Hc : cos e < 1).
  { rewrite <- cos_0. apply cos_decreasing_1; lra. }
  assert (Hd : 0 < 1 - cos e) by lra. exists (mkposreal _ Hd). intros y Hy Hy1.
  apply HP. unfold ball in *; cbn in *; unfold AbsRing_ball, abs, minus, plus, opp in *; cbn in *.
  pose proof (COS_bound e) as [Hb _].
  assert (Hy2 : cos e < y). { apply Rabs_def2 in Hy. lra. }
  pose proof (acos_bound y) as Hac.
  assert (Hlt : acos y < e).
  { destruct (Rlt_le_dec (acos y) e) as [H|H]; [exact H|]. exfalso.
    assert (cos (acos y) <= cos e) by (apply cos_decr_1; lra). rewrite cos_acos in H0 by lra. lra. }
  rewrite Rabs_pos_eq by lra. pose proof (Rmin_l (pos eps) PI). fold e in H. lra.
Qed.
Lemma acos_at_m1 : filterlim acos (at_right (-1)) (locally PI).
Proof.
  intros P [eps HP]. pose proof PI_RGT_0 as Hpi.
  set (e := Rmin (pos eps) PI). assert (He : 0 < e <= PI) by (unfold e; split; [apply Rmin_glb_lt; [apply cond_pos|lra]|apply Rmin_r]).
  assert (Hc : -1 < cos (PI - e)).
  { rewrite <- cos_PI. apply cos_decreasing_1; lra. }
  assert (Hd : 0 < cos (PI - e) + 1) by lra. exists (mkposreal _ Hd). intros y Hy Hy1.
  apply HP. unfold ball in *; cbn in *; unfold AbsRing_ball, abs, minus, plus, opp in *; cbn in *.
  pose proof (COS_bound (PI - e)) as [_ Hb].
  assert (Hy2 : y < cos (PI - e)). { apply Rabs_def2 in Hy. lra. }
  pose proof (acos_bound y) as Hac.
  assert (Hlt : PI - e < acos y).
  { destruct (Rlt_le_dec (PI - e) (acos y)) as [H|H]; [exact H|]. exfalso.
    assert (cos (PI - e) <= cos (acos y)) by (apply cos_decr_1; lra). rewrite cos_acos in H0 by lra. lra. }
  rewrite Rabs_left1 by lra. pose proof (Rmin_l (pos eps) PI). fold e in H. lra.
Qed.

Lemma improper p : is_RInt_gen (fun t => t ^ p / sqrt (1 - t * t)) (at_right (-1)) (at_left 1) (F p PI - F p 0).
Proof.
  assert (Hl : filterlim (fun ab : R * R => minus (F p (acos (fst ab))) (F p (acos (snd ab)))) (filter_prod (at_right (-1)) (at_left 1)) (locally (minus (F p PI) (F p 0)))).
  { refine (filterlim_comp_2 (G := locally (F p PI)) (H := locally (opp (F p 0))) (fun ab : R * R => F p (acos (fst ab))) (fun ab : R * R => opp (F p (acos (snd ab)))) plus _ _ _).
    - apply (filterlim_comp _ _ _ fst (fun a => F p (acos a)) _ (at_right (-1))); [apply filterlim_fst|].
      apply (filterlim_comp _ _ _ acos (F p) _ (locally PI)); [apply acos_at_m1|apply F_continuous].
    - apply (filterlim_comp _ _ _ snd (fun b => opp (F p (acos b))) _ (at_left 1)); [apply filterlim_snd|].
      apply (filterlim_comp _ _ _ (fun b => F p (acos b)) opp _ (locally (F p 0))); [|apply (filterlim_opp (F p 0))].
      apply (filterlim_comp _ _ _ acos (F p) _ (locally 0)); [apply acos_at_1|apply F_continuous].
    - apply (filterlim_plus (F p PI) (opp (F p 0))). }
  intros P HP. specialize (Hl P HP).
  assert (H0 : filter_prod (at_right (-1)) (at_left 1) (fun ab => -1 < fst ab /\ fst ab <= snd ab /\ snd ab < 1)).
  { apply (Filter_prod _ _ _ (fun a => -1 < a < 0) (fun b => 0 < b < 1)).
    - exists (mkposreal 1 Rlt_0_1). intros y Hy Hy1. unfold ball in Hy; cbn in Hy; unfold AbsRing_ball, abs, minus, plus, opp in Hy; cbn in Hy. apply Rabs_def2 in Hy. lra.
    - exists (mkposreal 1 Rlt_0_1). intros y Hy Hy1. unfold ball in Hy; cbn in Hy; unfold AbsRing_ball, abs, minus, plus, opp in Hy; cbn in Hy. apply Rabs_def2 in Hy. lra.
    - intros x y Hx Hy. cbn [fst snd]. lra. }
  unfold filtermap in Hl. unfold filtermapi. generalize (filter_and _ _ Hl H0). apply filter_imp. intros [a b] (H1 & H2 & H3 & H4). cbn [fst snd] in *.
  eexists. split; [|exact H1]. apply inner_integral; assumption.
Qed.

Lemma gc_exact n p : (1 <= n)%nat -> (p < 2 * n)%nat ->
  exists I, gc_rule n (fun t => cpow (RtoC t) p) = RtoC I /\
    is_RInt_gen (fun t => t ^ p / sqrt (1 - t * t)) (at_right (-1)) (at_left 1) I.
Proof.
  intros Hn Hp. exists (F p PI - F p 0). split; [|apply improper].
  unfold gc_rule. rewrite (csum_ext n _ (fun k => RtoC (cos (theta n k) ^ p))).
  2:{ intros k _. rewrite cpow_RtoC. reflexivity. }
  rewrite csum_RtoC, <- RtoC_mult. f_equal.
  pose proof (trig_exact n Hn p 0 ltac:(lia)) as H.
  assert (E : PI / INR n * rsum n (fun k => cos (theta n k) ^ p) = RInt (fun t => cos t ^ p) 0 PI).
  { symmetry. apply is_RInt_unique.
    rewrite (rsum_ext n (fun k => cos (theta n k) ^ p) (fun k => cos (theta n k) ^ p * cos (INR 0 * theta n k))).
    - apply (RInt_ext_R (fun t => cos t ^ p * cos (INR 0 * t))); [|exact H].
      intros x. cbn [INR]. rewrite Rmult_0_l, cos_0. ring.
    - intros k _. cbn [INR]. rewrite Rmult_0_l, cos_0. ring. }
  rewrite E. unfold F. rewrite (RInt_point 0). unfold zero; cbn. ring.
Qed.

Lemma gc_moments_exact n g : (1 <= n)%nat -> (1 <= g)%nat ->
  exists res, ModelQuad.gc_integrals (fun _ => RtoC 1) (RtoC 1) g n = Done res /\
    forall l, (l < g)%nat -> (l < 2 * n)%nat -> exists I, vget res l = RtoC I /\
      is_RInt_gen (fun t => t ^ l / sqrt (1 - t * t)) (at_right (-1)) (at_left 1) I.
Proof.
  intros Hn Hg. destruct (gc_sums (fun _ => RtoC 1) (RtoC 1) g n Hn Hg eq_refl) as (res & E & _ & Hr).
  exists res. split; [exact E|]. intros l Hl Hl2. destruct (gc_exact n l Hn Hl2) as (I & EI & HI). exists I. split; [|exact HI].
  rewrite Hr by exact Hl. rewrite <- EI. unfold gc_rule. f_equal. apply csum_ext. intros k _. field.
  intros E0. injection E0. lra.
Qed.
