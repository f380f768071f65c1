(** Error of the Gauss-Chebyshev rule on approximable functions. *)
From Coq Require Import Reals Lra Lia List.
From Coquelicot Require Import Coquelicot.
From Verif Require Import CArg SpecQuad SpecErr ProofGauss ProofGc ProofErr1 ProofErr2 ProofErr3.
Import ListNotations.
Local Open Scope R_scope.

(** ** The rule on one cosine *)
Definition gcos (N : nat) (n : Z) : R := PI / INR N * rsum N (fun k => cos (IZR n * theta N k)).
Lemma IZR_abs_cos n t : cos (IZR n * t) = cos (INR (Z.abs_nat n) * t).
Proof.
  rewrite INR_IZR_INZ, Zabs2Nat.id_abs. destruct (Z.abs_eq_or_opp n) as [-> | ->]; [easy|].
  rewrite opp_IZR, Ropp_mult_distr_l_reverse, cos_neg. easy.
Qed.
Lemma cosh_abs_nat n eta : cosh (IZR n * eta) = cosh (INR (Z.abs_nat n) * eta).
Proof.
  rewrite INR_IZR_INZ, Zabs2Nat.id_abs. destruct (Z.abs_eq_or_opp n) as [-> | ->]; [easy|].
  rewrite opp_IZR, Ropp_mult_distr_l_reverse, ProofDe3.cosh_Ropp. easy.
Qed.
Lemma rsum_abs n f B : (forall k, (k < n)%nat -> Rabs (f k) <= B) -> Rabs (rsum n f) <= INR n * B.
Proof.
  induction n as [|n IH]; intro H; cbn [rsum]; [cbn; rewrite Rabs_R0; lra|].
  rewrite S_INR. eapply Rle_trans; [apply Rabs_triang|]. assert (H1 := H n (Nat.lt_succ_diag_r n)).
  specialize (IH (fun k Hk => H k (Nat.lt_lt_succ_r _ _ Hk))). lra.
Qed.
Lemma cos_error N n eta : (1 <= N)%nat -> 0 <= eta ->
  exists J, is_RInt (fun t => cos (IZR n * t)) 0 PI J /\
    Rabs (gcos N n - J) <= 2 * PI * exp (- (2 * eta * INR N)) * cosh (IZR n * eta).
Proof.
  intros HN He. assert (HPI := PI_RGT_0). set (j := Z.abs_nat n).
  assert (HN0 : 0 < INR N) by (apply lt_0_INR; lia).
  assert (P : 0 <= 2 * PI * exp (- (2 * eta * INR N)) * cosh (IZR n * eta)).
  { assert (H := cosh_ge_1 (IZR n * eta)). assert (H1 := exp_pos (- (2 * eta * INR N))).
    apply Rmult_le_pos; [|lra]. apply Rmult_le_pos; lra. }
  destruct (le_lt_dec (2 * N) j) as [Hj|Hj].
  - exists 0. split.
    + apply (RInt_ext_R (fun t => cos (INR j * t))); [intro; symmetry; apply IZR_abs_cos|].
      assert (Hj0 : INR j <> 0) by (apply not_0_INR; lia).
      assert (Es : sin (INR j * PI) = 0).
      { apply sin_eq_0_1. exists (Z.of_nat j). rewrite <- INR_IZR_INZ. ring. }
      replace 0 with (sin (INR j * PI) / INR j) at 2 by (rewrite Es; field; exact Hj0).
      apply cos_int, Hj0.
    + rewrite Rminus_0_r. unfold gcos. rewrite Rabs_mult, Rabs_pos_eq by (apply Rlt_le, Rdiv_lt_0_compat; lra).
      assert (B := rsum_abs N (fun k => cos (IZR n * theta N k)) 1 (fun k _ => cos_bound _)).
      apply Rle_trans with PI.
      * apply Rle_trans with (PI / INR N * (INR N * 1)).
        { apply Rmult_le_compat_l; [apply Rlt_le, Rdiv_lt_0_compat; lra|exact B]. }
        apply Req_le. field. lra.
      * rewrite cosh_abs_nat. fold j.
        assert (C : exp (2 * eta * INR N) <= 2 * cosh (INR j * eta)).
        { unfold cosh. assert (H1 := exp_pos (- (INR j * eta))).
          assert (H2 : exp (2 * eta * INR N) <= exp (INR j * eta)).
          { assert (H3 : 2 * eta * INR N <= INR j * eta).
            { apply le_INR in Hj. rewrite mult_INR in Hj. cbn [INR] in Hj.
              replace (2 * eta * INR N) with ((1 + 1) * INR N * eta) by ring. now apply Rmult_le_compat_r. }
            destruct H3 as [H3|H3]; [left; now apply exp_increasing|rewrite H3; lra]. }
          lra. }
        rewrite exp_Ropp. assert (H := exp_pos (2 * eta * INR N)).
        replace (2 * PI * / exp (2 * eta * INR N) * cosh (INR j * eta)) with (PI * (2 * cosh (INR j * eta) * / exp (2 * eta * INR N))) by ring.
        rewrite <- (Rmult_1_r PI) at 1. apply Rmult_le_compat_l; [lra|].
        apply (Rmult_le_reg_r (exp (2 * eta * INR N))); [easy|]. rewrite (Rmult_assoc (2 * cosh (INR j * eta))), Rinv_l by lra. lra.
  - exists (gcos N n). split.
    + unfold gcos. rewrite (rsum_ext N _ (fun k => cos (theta N k) ^ 0 * cos (INR j * theta N k))).
      2:{ intros k _. rewrite IZR_abs_cos. fold j. cbn [pow]. ring. }
      apply (RInt_ext_R (fun t => cos t ^ 0 * cos (INR j * t))).
      { intro x. rewrite IZR_abs_cos. fold j. cbn [pow]. ring. }
      apply trig_exact; lia.
    + rewrite Rminus_eq_0, Rabs_R0. exact P.
Qed.

(** ** The rule on a cosine polynomial *)
Definition is_cint (f : R -> C) (I : C) : Prop :=
  is_RInt (fun t => fst (f t)) 0 PI (fst I) /\ is_RInt (fun t => snd (f t)) 0 PI (snd I).
Definition asum (N : nat) (f : R -> C) : C := (RtoC (PI / INR N) * csum N (fun k => f (theta N k)))%C.
Lemma is_cint_plus f g I J : is_cint f I -> is_cint g J -> is_cint (fun t => f t + g t)%C (I + J)%C.
Proof.
  intros [F1 F2] [G1 G2]. split; cbn [fst snd Cplus].
  - now apply (is_RInt_plus (fun t => fst (f t)) (fun t => fst (g t))).
  - now apply (is_RInt_plus (fun t => snd (f t)) (fun t => snd (g t))).
Qed.
Lemma is_cint_scal c (f : R -> R) J : is_RInt f 0 PI J -> is_cint (fun t => c * RtoC (f t))%C (c * RtoC J)%C.
Proof.
  intro H. split; cbn [fst snd Cmult RtoC].
  - replace (fst c * J - snd c * 0) with (fst c * J) by ring.
    apply (RInt_ext_R (fun t => fst c * f t)); [intro; ring|]. now apply (is_RInt_scal f).
  - replace (fst c * 0 + snd c * J) with (snd c * J) by ring.
    apply (RInt_ext_R (fun t => snd c * f t)); [intro; ring|]. now apply (is_RInt_scal f).
Qed.
Lemma poly_error N eta l : (1 <= N)%nat -> 0 <= eta ->
  exists J, is_cint (ceval l) J /\ Cmod (asum N (ceval l) - J)%C <= 2 * PI * exp (- (2 * eta * INR N)) * weight eta l.
Proof.
  intros HN He. set (K := 2 * PI * exp (- (2 * eta * INR N))).
  induction l as [|[c n] l (J & I1 & I2)].
  - exists (RtoC 0). split.
    + assert (Z : is_RInt (fun _ : R => 0) 0 PI 0).
      { evar_last; [apply (@is_RInt_const R_NormedModule 0 PI 0)|]. apply Rmult_0_r. }
      split; exact Z.
    + unfold asum. rewrite csum_zero by easy. cbn [weight fold_right].
      replace (RtoC (PI / INR N) * RtoC 0 - RtoC 0)%C with (RtoC 0) by ring. rewrite Cmod_0. lra.
  - destruct (cos_error N n eta HN He) as (j & J1 & J2). fold K in J2.
    exists (c * RtoC j + J)%C. split.
    + apply (is_cint_plus (term (c, n)) (ceval l)); [|exact I1]. unfold term. cbn [fst snd]. now apply is_cint_scal.
    + change (weight eta ((c, n) :: l)) with (Cmod c * cosh (IZR n * eta) + weight eta l).
      replace (asum N (ceval ((c, n) :: l)) - (c * RtoC j + J))%C with (c * RtoC (gcos N n - j) + (asum N (ceval l) - J))%C.
      * eapply Rle_trans; [apply Cmod_triangle|]. rewrite Cmod_mult, Cmod_R, Rmult_plus_distr_l.
        apply Rplus_le_compat; [|exact I2].
        replace (K * (Cmod c * cosh (IZR n * eta))) with (Cmod c * (K * cosh (IZR n * eta))) by ring.
        apply Rmult_le_compat_l; [apply Cmod_ge_0|exact J2].
      * unfold asum. rewrite (csum_ext N (fun k => ceval ((c, n) :: l) (theta N k)) (fun k => c * RtoC (cos (IZR n * theta N k)) + ceval l (theta N k))%C) by reflexivity.
        rewrite csum_add, csum_scal, csum_RtoC, RtoC_minus. unfold gcos. rewrite RtoC_mult. ring.
Qed.

(** ** The rule on an approximable function *)
Lemma int_bound (f : R -> R) J B : is_RInt f 0 PI J -> (forall t, 0 <= t <= PI -> Rabs (f t) <= B) -> Rabs J <= PI * B.
Proof.
  intros H HB. assert (HPI := PI_RGT_0). replace (PI * B) with ((PI - 0) * B) by ring.
  apply (@norm_RInt_le_const R_NormedModule f 0 PI J B); [lra|exact HB|exact H].
Qed.
Lemma re_le z : Rabs (fst z) <= Cmod z.
Proof. eapply Rle_trans; [apply Rmax_l|apply Rmax_Cmod]. Qed.
Lemma im_le z : Rabs (snd z) <= Cmod z.
Proof. eapply Rle_trans; [apply Rmax_r|apply Rmax_Cmod]. Qed.
Lemma Cmod_le_sum z : Cmod z <= Rabs (fst z) + Rabs (snd z).
Proof.
  replace z with (RtoC (fst z) + RtoC (snd z) * Ci)%C at 1.
  - eapply Rle_trans; [apply Cmod_triangle|]. rewrite Cmod_mult, !Cmod_R.
    replace (Cmod Ci) with 1; [lra|]. unfold Cmod, Ci. cbn [fst snd]. replace (0 ^ 2 + 1 ^ 2) with 1 by ring. now rewrite sqrt_1.
  - destruct z as [a b]. unfold Cplus, Cmult, RtoC, Ci. cbn [fst snd]. f_equal; ring.
Qed.
Lemma theta_range N k : (k < N)%nat -> 0 <= theta N k <= PI.
Proof.
  intro H. assert (HPI := PI_RGT_0). assert (HN : 0 < INR N) by (apply lt_0_INR; lia). unfold theta.
  assert (H1 : INR (2 * k + 1) <= 2 * INR N).
  { replace (2 * INR N) with (INR (2 * N)) by (rewrite mult_INR; cbn [INR]; ring). apply le_INR. lia. }
  assert (H2 := pos_INR (2 * k + 1)). split.
  - apply Rmult_le_pos; [apply Rmult_le_pos; lra|]. left. apply Rinv_0_lt_compat. lra.
  - apply (Rmult_le_reg_r (2 * INR N)); [lra|]. unfold Rdiv. rewrite Rmult_assoc, Rinv_l, Rmult_1_r by lra.
    rewrite Rmult_comm. apply Rmult_le_compat_l; lra.
Qed.
Lemma rule_error N eta f J M : (1 <= N)%nat -> 0 <= eta -> approx eta f M -> is_cint f J ->
  Cmod (asum N f - J)%C <= 2 * PI * exp (- (2 * eta * INR N)) * M.
Proof.
  intros HN He Ha [J1 J2]. assert (HPI := PI_RGT_0). set (K := 2 * PI * exp (- (2 * eta * INR N))).
  assert (HK : 0 <= K) by (unfold K; assert (H := exp_pos (- (2 * eta * INR N))); apply Rmult_le_pos; lra).
  apply Rnot_lt_le. intro L. set (gap := Cmod (asum N f - J)%C - K * M) in *.
  assert (Hg : 0 < gap) by (unfold gap; lra).
  destruct (Ha (gap / (4 * PI))) as (l & Hw & Hl); [apply Rdiv_lt_0_compat; lra|]. set (eps := gap / (4 * PI)) in *.
  destruct (poly_error N eta l HN He) as (T & [T1 T2] & HT). fold K in HT.
  assert (B1 : Cmod (asum N f - asum N (ceval l))%C <= PI * eps).
  { unfold asum. rewrite <- Cmult_minus_distr_l || idtac.
    replace (RtoC (PI / INR N) * csum N (fun k => f (theta N k)) - RtoC (PI / INR N) * csum N (fun k => ceval l (theta N k)))%C
      with (RtoC (PI / INR N) * csum N (fun k => f (theta N k) - ceval l (theta N k)))%C.
    2:{ rewrite (csum_ext N (fun k => f (theta N k) - ceval l (theta N k))%C (fun k => f (theta N k) + RtoC (-1) * ceval l (theta N k))%C).
        - rewrite csum_add, csum_scal. replace (RtoC (-1)) with (- RtoC 1)%C by (rewrite <- RtoC_opp; reflexivity). ring.
        - intros k _. replace (RtoC (-1)) with (- RtoC 1)%C by (rewrite <- RtoC_opp; reflexivity). ring. }
    assert (HN0 : 0 < INR N) by (apply lt_0_INR; lia).
    rewrite Cmod_mult, Cmod_R, Rabs_pos_eq by (apply Rlt_le, Rdiv_lt_0_compat; lra).
    apply Rle_trans with (PI / INR N * (INR N * eps)).
    - apply Rmult_le_compat_l; [apply Rlt_le, Rdiv_lt_0_compat; lra|].
      eapply Rle_trans; [apply csum_mod|]. eapply Rle_trans; [apply Rle_abs|].
      apply rsum_abs. intros k Hk. rewrite Rabs_pos_eq by apply Cmod_ge_0. apply Hl, theta_range, Hk.
    - apply Req_le. field. lra. }
  assert (B2 : Cmod (T - J)%C <= 2 * (PI * eps)).
  { eapply Rle_trans; [apply Cmod_le_sum|].
    assert (R1 : Rabs (fst (T - J)%C) <= PI * eps).
    { apply (int_bound (fun t => fst (ceval l t) - fst (f t))).
      - apply (is_RInt_minus (fun t => fst (ceval l t)) (fun t => fst (f t))); [exact T1|exact J1].
      - intros t Ht. specialize (Hl t Ht). rewrite Rabs_minus_sym. eapply Rle_trans; [|exact Hl].
        exact (re_le (f t - ceval l t)%C). }
    assert (R2 : Rabs (snd (T - J)%C) <= PI * eps).
    { apply (int_bound (fun t => snd (ceval l t) - snd (f t))).
      - apply (is_RInt_minus (fun t => snd (ceval l t)) (fun t => snd (f t))); [exact T2|exact J2].
      - intros t Ht. specialize (Hl t Ht). rewrite Rabs_minus_sym. eapply Rle_trans; [|exact Hl].
        exact (im_le (f t - ceval l t)%C). }
    lra. }
  assert (B3 : Cmod (asum N f - J)%C <= PI * eps + (K * M + 2 * (PI * eps))).
  { replace (asum N f - J)%C with ((asum N f - asum N (ceval l)) + ((asum N (ceval l) - T) + (T - J)))%C by ring.
    eapply Rle_trans; [apply Cmod_triangle|]. assert (Q := Cmod_triangle (asum N (ceval l) - T)%C (T - J)%C).
    assert (K * weight eta l <= K * M) by (apply Rmult_le_compat_l; lra). lra. }
  assert (Ee : PI * eps = gap / 4) by (unfold eps; field; lra). unfold gap in *. lra.
Qed.

(** ** The improper integral *)
Section Improper.
  Context (g : R -> R).
  Hypothesis (Hg : forall t, -1 <= t <= 1 -> continuous g t).
  Let phi t := g (cos t).
  Lemma phi_cont t : continuous phi t.
  Proof.
    apply (continuous_comp cos g); [|apply Hg, COS_bound].
    apply (ex_derive_continuous cos). auto_derive. exact I.
  Qed.
  Definition prim (x : R) : R := RInt phi 0 x.
  Lemma prim_derive x : is_derive prim x (phi x).
  Proof.
    apply (is_derive_RInt phi _ 0).
    - apply filter_forall. intros b. apply (@RInt_correct R_CompleteNormedModule), (@ex_RInt_continuous R_CompleteNormedModule). intros z _. apply phi_cont.
    - apply phi_cont.
  Qed.
  Lemma prim_continuous x : continuous prim x.
  Proof. apply (@ex_derive_continuous R_AbsRing R_NormedModule prim). eexists. apply prim_derive. Qed.
  Lemma inner_general a b : -1 < a -> a <= b -> b < 1 ->
    is_RInt (fun t => g t / sqrt (1 - t * t)) a b (prim (acos a) - prim (acos b)).
  Proof.
    intros Ha Hab Hb.
    replace (prim (acos a) - prim (acos b)) with (minus (- prim (acos b)) (- prim (acos a))) by (unfold minus, plus, opp; cbn; ring).
    assert (Hr : forall x, Rmin a b <= x <= Rmax a b -> -1 < x < 1).
    { intros x Hx. rewrite Rmin_left, Rmax_right in Hx by lra. lra. }
    assert (Hpos : forall x, -1 < x < 1 -> 0 < 1 - x * x) by (intros x Hx; nra).
    apply (is_RInt_derive (fun t => - prim (acos t)) (fun t => g t / sqrt (1 - t * t))).
    - intros x Hx. specialize (Hr x Hx).
      evar_last.
      + apply (is_derive_opp (fun t => prim (acos t))).
        apply (is_derive_comp prim acos); [apply prim_derive|apply acos_derive; exact Hr].
      + unfold phi, scal, opp; cbn; unfold mult; cbn. rewrite cos_acos by lra. unfold Rsqr, Rdiv. ring.
    - intros x Hx. specialize (Hr x Hx). specialize (Hpos x Hr).
      apply (cont_mult g (fun t => / sqrt (1 - t * t))); [apply Hg; lra|].
      apply (ex_derive_continuous (fun t => / sqrt (1 - t * t))). auto_derive. split; [lra|]. split; [|exact I].
      apply Rgt_not_eq, sqrt_lt_R0. lra.
  Qed.
  Lemma improper_general : is_RInt_gen (fun t => g t / sqrt (1 - t * t)) (at_right (-1)) (at_left 1) (RInt phi 0 PI).
  Proof.
    assert (Hl : filterlim (fun ab : R * R => minus (prim (acos (fst ab))) (prim (acos (snd ab)))) (filter_prod (at_right (-1)) (at_left 1)) (locally (minus (prim PI) (prim 0)))).
    { refine (filterlim_comp_2 (G := locally (prim PI)) (H := locally (opp (prim 0))) (fun ab : R * R => prim (acos (fst ab))) (fun ab : R * R => opp (prim (acos (snd ab)))) plus _ _ _).
      - apply (filterlim_comp _ _ _ fst (fun a => prim (acos a)) _ (at_right (-1))); [apply filterlim_fst|].
        apply (filterlim_comp _ _ _ acos prim _ (locally PI)); [apply acos_at_m1|apply prim_continuous].
      - apply (filterlim_comp _ _ _ snd (fun b => opp (prim (acos b))) _ (at_left 1)); [apply filterlim_snd|].
        apply (filterlim_comp _ _ _ (fun b => prim (acos b)) opp _ (locally (prim 0))); [|apply (filterlim_opp (prim 0))].
        apply (filterlim_comp _ _ _ acos prim _ (locally 0)); [apply acos_at_1|apply prim_continuous].
      - apply (filterlim_plus (prim PI) (opp (prim 0))). }
    assert (E0 : minus (prim PI) (prim 0) = RInt phi 0 PI).
    { unfold prim. rewrite (RInt_point 0). unfold minus, plus, opp, zero; cbn. ring. }
    rewrite E0 in Hl.
    intros P HP. specialize (Hl P HP).
    assert (H0 : filter_prod (at_right (-1)) (at_left 1) (fun ab => -1 < fst ab /\ fst ab <= snd ab /\ snd ab < 1)).
    { apply (Filter_prod _ _ _ (fun a => -1 < a < 0) (fun b => 0 < b < 1)).
      - exists (mkposreal 1 Rlt_0_1). intros y Hy Hy1. unfold ball in Hy; cbn in Hy; unfold AbsRing_ball, abs, minus, plus, opp in Hy; cbn in Hy. apply Rabs_def2 in Hy. lra.
      - exists (mkposreal 1 Rlt_0_1). intros y Hy Hy1. unfold ball in Hy; cbn in Hy; unfold AbsRing_ball, abs, minus, plus, opp in Hy; cbn in Hy. apply Rabs_def2 in Hy. lra.
      - intros x y Hx Hy. cbn [fst snd]. lra. }
    unfold filtermap in Hl. unfold filtermapi. generalize (filter_and _ _ Hl H0). apply filter_imp. intros [a b] (H1 & H2 & H3 & H4). cbn [fst snd] in *.
    eexists. split; [|exact H1]. apply inner_general; assumption.
  Qed.
  Lemma phi_int : is_RInt phi 0 PI (RInt phi 0 PI).
  Proof.
    apply (@RInt_correct R_CompleteNormedModule), (@ex_RInt_continuous R_CompleteNormedModule). intros z _. apply phi_cont.
  Qed.
End Improper.

(** ** Gauss-Chebyshev rule against the integral with weight 1/sqrt(1-t^2) *)
Lemma gauss_error N eta (f h : R -> C) M : (1 <= N)%nat -> 0 <= eta ->
  (forall t, -1 <= t <= 1 -> ccont f t) -> approx eta (fun t => f (cos t)) M ->
  (forall t, -1 < t < 1 -> h t = (f t / RtoC (sqrt (1 - t * t)))%C) ->
  exists I, is_int h I /\ Cmod (gc_rule N f - I)%C <= 2 * PI * exp (- (2 * eta * INR N)) * M.
Proof.
  intros HN He Hc Ha Hh.
  set (f1 t := fst (f t)). set (f2 t := snd (f t)).
  assert (C1 : forall t, -1 <= t <= 1 -> continuous f1 t) by (intros t Ht; apply (Hc t Ht)).
  assert (C2 : forall t, -1 <= t <= 1 -> continuous f2 t) by (intros t Ht; apply (Hc t Ht)).
  exists (RInt (fun t => f1 (cos t)) 0 PI, RInt (fun t => f2 (cos t)) 0 PI). split.
  - assert (H0 : filter_prod (at_right (-1)) (at_left 1) (fun ab => -1 < fst ab /\ fst ab <= snd ab /\ snd ab < 1)).
    { apply (Filter_prod _ _ _ (fun a => -1 < a < 0) (fun b => 0 < b < 1)).
      - exists (mkposreal 1 Rlt_0_1). intros y Hy Hy1. unfold ball in Hy; cbn in Hy; unfold AbsRing_ball, abs, minus, plus, opp in Hy; cbn in Hy. apply Rabs_def2 in Hy. lra.
      - exists (mkposreal 1 Rlt_0_1). intros y Hy Hy1. unfold ball in Hy; cbn in Hy; unfold AbsRing_ball, abs, minus, plus, opp in Hy; cbn in Hy. apply Rabs_def2 in Hy. lra.
      - intros x y Hx Hy. cbn [fst snd]. lra. }
    assert (Hcomp : forall t, -1 < t < 1 -> fst (h t) = f1 t / sqrt (1 - t * t) /\ snd (h t) = f2 t / sqrt (1 - t * t)).
    { intros t Ht. assert (0 < 1 - t * t) by nra. assert (Hs : 0 < sqrt (1 - t * t)) by now apply sqrt_lt_R0.
      rewrite (Hh t Ht). unfold f1, f2. unfold Cdiv. rewrite <- RtoC_inv by lra. destruct (f t) as [a b].
      unfold Cmult, RtoC. cbn [fst snd]. unfold Rdiv. split; ring. }
    split; cbn [fst snd].
    + apply (is_RInt_gen_ext (fun t => f1 t / sqrt (1 - t * t))); [|apply improper_general, C1].
      generalize H0. apply filter_imp. intros [a b] (A & B & D) x Hx. cbn [fst snd] in *.
      rewrite Rmin_left, Rmax_right in Hx by lra. symmetry. apply Hcomp. lra.
    + apply (is_RInt_gen_ext (fun t => f2 t / sqrt (1 - t * t))); [|apply improper_general, C2].
      generalize H0. apply filter_imp. intros [a b] (A & B & D) x Hx. cbn [fst snd] in *.
      rewrite Rmin_left, Rmax_right in Hx by lra. symmetry. apply Hcomp. lra.
  - apply (rule_error N eta (fun t => f (cos t)) _ M HN He Ha). split; cbn [fst snd].
    + apply (phi_int f1 C1).
    + apply (phi_int f2 C2).
Qed.
