(** The numbers |Im asinh(atanh(w)/lambda)| and the principal values; continuity of the roots. *)
From Coq Require Import Reals Lra Lia List.
From Coquelicot Require Import Coquelicot.
From Verif Require Import CArg ModelCurve ModelVec SpecVec ModelQuad SpecQuad SpecEdge ProofTrap SpecErr ModelTurn ModelDe SpecDe ModelDeq SpecDeq ProofDe ProofDe2 ProofDe3 ProofErr1 ProofErr3 ProofErr4 ProofErr5
  ProofTurn ProofHol1 ProofHol2 ProofHol3 ProofHol4 ProofHol5 ProofHol6 ProofHol7 ProofHol8 ProofHol9 ProofHol10.
Import ListNotations.
Local Open Scope R_scope.

(** ** asinh *)
Lemma cosh_ln c : 1 <= c -> cosh (ln (c + sqrt (c * c - 1))) = c /\ sinh (ln (c + sqrt (c * c - 1))) = sqrt (c * c - 1).
Proof.
  intro Hc. assert (0 <= c * c - 1) by nra. assert (S := sqrt_sqrt _ H). assert (S0 := sqrt_pos (c * c - 1)). set (s := sqrt (c * c - 1)) in *.
  unfold cosh, sinh. rewrite exp_Ropp, exp_ln by lra.
  assert (E : / (c + s) = c - s) by (apply (Rmult_eq_reg_l (c + s)); [rewrite Rinv_r by lra; lra|lra]).
  rewrite E. split; field.
Qed.
Lemma asinh_ok s : csinh (c_asinh s) = s /\ Rabs (snd (c_asinh s)) <= PI / 2.
Proof.
  unfold c_asinh. cbv zeta. set (p := Cmod (s + Ci)%C). set (q := Cmod (s - Ci)%C).
  assert (Hp : p * p = fst s * fst s + (snd s + 1) * (snd s + 1)).
  { unfold p, Cmod. rewrite sqrt_sqrt by (apply Rplus_le_le_0_compat; apply pow2_ge_0). destruct s; cbn; ring. }
  assert (Hq : q * q = fst s * fst s + (snd s - 1) * (snd s - 1)).
  { unfold q, Cmod. rewrite sqrt_sqrt by (apply Rplus_le_le_0_compat; apply pow2_ge_0). destruct s; cbn; ring. }
  assert (P0 : 0 <= p) by apply Cmod_ge_0. assert (Q0 : 0 <= q) by apply Cmod_ge_0.
  assert (T2 : Cmod (Ci + Ci)%C = 2).
  { replace (Ci + Ci)%C with (RtoC 2 * Ci)%C by (unfold Ci, RtoC, Cmult, Cplus; cbn; f_equal; ring). rewrite Cmod_mult, Cmod_R, Cmod_Ci. unfold Rabs. destruct (Rcase_abs 2); lra. }
  assert (Tr : 2 <= p + q).
  { rewrite <- T2. replace (Ci + Ci)%C with ((s + Ci) + - (s - Ci))%C by ring. eapply Rle_trans; [apply Cmod_triangle|]. rewrite Cmod_opp. unfold p, q. lra. }
  assert (Td : Rabs (p - q) <= 2).
  { apply Rabs_le. rewrite <- T2. split.
    - assert (q <= p + 2); [|lra]. rewrite <- T2. unfold q. replace (s - Ci)%C with ((s + Ci) + - (Ci + Ci))%C by ring. eapply Rle_trans; [apply Cmod_triangle|]. rewrite Cmod_opp. unfold p. lra.
    - assert (p <= q + 2); [|lra]. rewrite <- T2. unfold p. replace (s + Ci)%C with ((s - Ci) + (Ci + Ci))%C by ring. eapply Rle_trans; [apply Cmod_triangle|]. unfold q. lra. }
  apply Rabs_le_between in Td. set (Cc := (p + q) / 2). set (S := (p - q) / 2).
  assert (HC : 1 <= Cc) by (unfold Cc; lra). assert (HS : -1 <= S <= 1) by (unfold S; lra).
  destruct (cosh_ln Cc HC) as [E1 E2]. set (x := ln (Cc + sqrt (Cc * Cc - 1))) in *.
  assert (Ec : cos (asin S) = sqrt (1 - Rsqr S)) by (apply cos_asin; exact HS).
  assert (Es : sin (asin S) = S) by (apply sin_asin; exact HS).
  assert (Emul : sqrt (Cc * Cc - 1) * sqrt (1 - Rsqr S) = Rabs (fst s)).
  { rewrite <- sqrt_mult by (unfold Rsqr; nra). rewrite <- sqrt_Rsqr_abs. f_equal. unfold Rsqr, Cc, S. nra. }
  assert (Eim : Cc * S = snd s) by (unfold Cc, S; nra).
  split; [|cbn [snd]; apply Rabs_le; assert (A := asin_bound S); lra].
  unfold csinh. cbn [fst snd]. rewrite Ec, Es. apply injective_projections; cbn [fst snd].
  - destruct (Rle_dec 0 (fst s)).
    + rewrite E2, Emul. apply Rabs_pos_eq. exact r.
    + rewrite sinh_Ropp, E2. rewrite <- Ropp_mult_distr_l, Emul, Rabs_left by lra. ring.
  - destruct (Rle_dec 0 (fst s)); [|rewrite cosh_Ropp]; rewrite E1; exact Eim.
Qed.

(** ** atanh *)
Lemma half_log q : q <> RtoC 0 -> let v := (clog q / RtoC 2)%C in (ProofHol1.cexp v * ProofHol1.cexp v)%C = q /\ Rabs (snd v) <= PI / 2.
Proof.
  intros Hq v. assert (Hm : 0 < Cmod q) by now apply Cmod_gt_0. assert (R := carg_range q). assert (HP := PI_RGT_0).
  assert (Ev : v = (ln (Cmod q) / 2, carg q / 2)).
  { unfold v, clog, Cdiv, Cinv, RtoC, Cmult. cbn [fst snd]. apply injective_projections; cbn [fst snd]; field. }
  split.
  - rewrite <- cexp_plus. unfold ProofHol1.cexp. transitivity (RtoC (Cmod q) * cis (carg q))%C; [|symmetry; apply carg_polar]. rewrite Ev. cbn [fst snd Cplus].
    replace (ln (Cmod q) / 2 + ln (Cmod q) / 2) with (ln (Cmod q)) by field. replace (carg q / 2 + carg q / 2) with (carg q) by field.
    rewrite exp_ln by exact Hm. unfold cis, RtoC, Cmult. cbn [fst snd]. apply injective_projections; cbn [fst snd]; ring.
  - rewrite Ev. cbn [snd]. apply Rabs_le. lra.
Qed.
Lemma atanh_ok w : w <> RtoC 1 -> w <> RtoC (-1) -> ccosh (c_atanh w) <> RtoC 0 /\ ctanh (c_atanh w) = w /\ Rabs (snd (c_atanh w)) <= PI / 2.
Proof.
  intros H1 H2.
  assert (D1 : (RtoC 1 - w)%C <> RtoC 0). { intro E. apply H1. transitivity (RtoC 1 - (RtoC 1 - w))%C; [ring|]. rewrite E. ring. }
  assert (D2 : (RtoC 1 + w)%C <> RtoC 0).
  { intro E. apply H2. transitivity ((RtoC 1 + w) - RtoC 1)%C; [ring|]. rewrite E. apply injective_projections; cbn; ring. }
  assert (T : RtoC 2 <> RtoC 0) by (intro E; injection E; lra).
  set (q := ((RtoC 1 + w) / (RtoC 1 - w))%C).
  assert (Hq : q <> RtoC 0). { intro E. apply D2. transitivity (q * (RtoC 1 - w))%C; [unfold q; now field|]. rewrite E. ring. }
  destruct (half_log q Hq) as [E HI]. unfold c_atanh. fold q. set (v := (clog q / RtoC 2)%C) in *.
  set (e := ProofHol1.cexp v) in *. assert (He : e <> RtoC 0) by apply cexp_neq_0.
  assert (Ei : ProofHol1.cexp (- v)%C = (/ e)%C). { assert (X := cexp_opp v). fold e in X. transitivity (/ e * (e * ProofHol1.cexp (- v)))%C; [field; exact He|]. rewrite X. ring. }
  assert (Ec : ccosh v = (RtoC (/ 2) * (e + / e))%C) by (rewrite ccosh_exp, Ei; reflexivity).
  assert (Es : csinh v = (RtoC (/ 2) * (e + - / e))%C) by (rewrite csinh_exp, Ei; reflexivity).
  assert (Ec2 : (ccosh v * (e * (RtoC 1 - w)))%C = RtoC 1).
  { rewrite Ec. transitivity (RtoC (/ 2) * ((e * e) * (RtoC 1 - w) + (RtoC 1 - w)))%C; [field; exact He|]. rewrite E. unfold q.
    transitivity (RtoC (/ 2) * (RtoC 1 + RtoC 1))%C; [field; exact D1|]. apply injective_projections; cbn; lra. }
  assert (Hc : ccosh v <> RtoC 0). { intro E0. rewrite E0 in Ec2. assert (X : RtoC 0 = RtoC 1) by (rewrite <- Ec2; ring). injection X. lra. }
  split; [exact Hc|]. split; [|exact HI]. unfold ctanh.
  assert (Es2 : (csinh v * (e * (RtoC 1 - w)))%C = w).
  { rewrite Es. transitivity (RtoC (/ 2) * ((e * e) * (RtoC 1 - w) - (RtoC 1 - w)))%C; [field; exact He|]. rewrite E. unfold q.
    transitivity (RtoC (/ 2) * (RtoC 1 + RtoC 1) * w)%C; [field; exact D1|]. rewrite <- RtoC_plus, <- RtoC_mult. replace (/ 2 * (1 + 1)) with 1 by lra. ring. }
  transitivity (csinh v * (e * (RtoC 1 - w)) / (ccosh v * (e * (RtoC 1 - w))))%C; [field; repeat split; assumption|]. rewrite Es2, Ec2. field.
  intro X. injection X. lra.
Qed.

(** ** The numbers used for the parameters *)
Theorem tau_principal w : w <> RtoC 1 -> w <> RtoC (-1) -> exists z, principal lam w z /\ de_tau w = Rabs (snd z).
Proof.
  intros H1 H2. exists (c_asinh (c_atanh w / RtoC lam)%C). split; [|reflexivity]. assert (HL := lam_bounds).
  destruct (asinh_ok (c_atanh w / RtoC lam)%C) as [E HI]. destruct (atanh_ok w H1 H2) as (A1 & A2 & A3).
  assert (EL : (RtoC lam * csinh (c_asinh (c_atanh w / RtoC lam)))%C = c_atanh w).
  { rewrite E. field. intro X. injection X. lra. }
  unfold principal, SpecDe.de_map. rewrite EL. repeat split; assumption.
Qed.
Lemma tau_pos w : w <> RtoC 1 -> w <> RtoC (-1) -> (forall t, -1 < t < 1 -> w <> RtoC t) -> 0 < de_tau w.
Proof.
  intros H1 H2 H3. destruct (tau_principal w H1 H2) as (z & (P1 & P2 & P3 & P4) & E). rewrite E.
  apply Rabs_pos_lt. intro E0. destruct z as [a b]. cbn [snd] in E0. subst b.
  assert (C1 := cmap_real lam a). unfold cmap in C1. rewrite P2 in C1. apply (H3 (SpecQuad.de_map lam a)); [apply de_map_range|exact C1].
Qed.
Lemma tau_points u : (forall p, In p u -> forall t, -1 <= t <= 1 -> p <> RtoC t) -> points u (map de_tau u) /\ exists r, choose_r (map de_tau u) = Done r.
Proof.
  intro H. split.
  - unfold points. induction u as [|w u IH]; cbn [map]; constructor.
    + assert (Hw := H w (or_introl eq_refl)). apply tau_principal; apply Hw; lra.
    + apply IH. intros p Hp. apply H. now right.
  - apply choose_r_done. apply Forall_forall. intros x Hx. apply in_map_iff in Hx. destruct Hx as (w & <- & Hw).
    assert (K := H w Hw). apply tau_pos; try (apply K; lra). intros t Ht. apply K. lra.
Qed.

(** ** Continuity of the roots along an edge *)
Lemma rroot_cont m x : (1 <= m)%Z -> continuous (rroot m) x.
Proof.
  intro Hm. assert (HM : 0 < IZR m) by (apply IZR_lt; lia).
  destruct (total_order_T x 0) as [[Hx| ->]|Hx].
  - apply (continuous_ext_loc _ (fun _ => 0)); [|apply continuous_const].
    exists (mkposreal (- x) ltac:(lra)). intros y Hy. unfold ball in Hy. cbn in Hy. unfold AbsRing_ball, abs, minus, plus, opp in Hy. cbn in Hy. apply Rabs_def2 in Hy.
    unfold rroot. destruct (Rlt_dec 0 y); [lra|reflexivity].
  - apply continuity_pt_filterlim. intros e He.
    assert (Hp : 0 < Rpower e (IZR m)) by apply Rpower_pos.
    exists (Rpower e (IZR m)). split; [exact Hp|]. intros y (_ & Hy). cbn in Hy |- *. unfold R_dist in *. rewrite Rminus_0_r in Hy.
    unfold rroot at 2. destruct (Rlt_dec 0 0); [lra|]. rewrite Rminus_0_r, Rabs_pos_eq by apply rroot_nonneg.
    unfold rroot. destruct (Rlt_dec 0 y); [|exact He]. rewrite Rabs_pos_eq in Hy by lra.
    replace e with (Rpower (Rpower e (IZR m)) (/ IZR m)).
    + apply Rlt_Rpower_l; [now apply Rinv_0_lt_compat|lra].
    + rewrite Rpower_mult, Rinv_r by lra. now apply Rpower_1.
  - apply (continuous_ext_loc _ (fun y => Rpower y (/ IZR m))).
    + exists (mkposreal x Hx). intros y Hy. unfold ball in Hy. cbn in Hy. unfold AbsRing_ball, abs, minus, plus, opp in Hy. cbn in Hy. apply Rabs_def2 in Hy.
      unfold rroot. destruct (Rlt_dec 0 y); [reflexivity|lra].
    + apply (ex_derive_continuous (fun y => Rpower y (/ IZR m))). unfold Rpower. auto_derive. exact Hx.
Qed.
Lemma cont_comp (f g : R -> R) t : continuous g t -> continuous f (g t) -> continuous (fun t => f (g t)) t.
Proof. intros H1 H2. now apply (continuous_comp g f). Qed.
Lemma ccont_cis (f : R -> R) t : continuous f t -> ccont (fun t => cis (f t)) t.
Proof.
  intro H. split; cbn [cis fst snd].
  - apply (cont_comp cos f); [exact H|]. apply (ex_derive_continuous cos). auto_derive. exact I.
  - apply (cont_comp sin f); [exact H|]. apply (ex_derive_continuous sin). auto_derive. exact I.
Qed.
Lemma Rmax_cont0 x : continuous (fun x => Rmax x 0) x.
Proof.
  apply (cont_ext (fun x => (x + sqrt (x * x)) * / 2)).
  - intro y. replace (y * y) with (Rsqr y) by reflexivity. rewrite sqrt_Rsqr_abs. unfold Rabs, Rmax. destruct (Rcase_abs y), (Rle_dec y 0); lra.
  - apply (cont_mult (fun x => x + sqrt (x * x)) (fun _ => / 2)); [|apply continuous_const].
    apply cont_plus; [apply continuous_id|]. apply cont_sqrt. apply cont_mult; apply continuous_id.
Qed.
Lemma croot_line_m m (z : R -> C) y t : (1 <= m)%Z -> (forall t, snd (z t) = y) -> continuous (fun t => fst (z t)) t ->
  ccont (fun t => croot m (z t)) t.
Proof.
  intros Hm Hy Hx. assert (HM : 0 < IZR m) by (apply IZR_lt; lia).
  destruct (Req_dec y 0) as [E0|N0].
  - apply (ccont_ext (fun t => RtoC (rroot m (Rmax (fst (z t)) 0)) + RtoC (rroot m (Rmax (- fst (z t)) 0)) * cis (PI / IZR m))%C).
    { intro s. destruct (z s) as [X Y] eqn:Ez. assert (HY := Hy s). rewrite Ez in HY. cbn [snd] in HY. subst Y. rewrite E0. cbn [fst].
      unfold croot. assert (Em : Cmod (X, 0) = Rabs X) by (change (X, 0) with (RtoC X); apply Cmod_R). rewrite Em.
      assert (E00 : rroot m 0 = 0) by apply rroot_0.
      destruct (total_order_T X 0) as [[H| ->]|H].
      - rewrite carg_real_neg, Rabs_left, Rmax_right, Rmax_left by lra. rewrite E00. ring.
      - rewrite Rabs_R0, Ropp_0, Rmax_left, E00 by lra. ring.
      - rewrite carg_real_pos, Rabs_right, Rmax_left, Rmax_right by lra. rewrite E00. unfold Rdiv. rewrite Rmult_0_l, cis_0. ring. }
    apply ccont_plus.
    + apply (ccont_R (fun t => rroot m (Rmax (fst (z t)) 0))). apply (cont_comp (rroot m) (fun t => Rmax (fst (z t)) 0)); [|now apply rroot_cont].
      apply (cont_comp (fun x => Rmax x 0) (fun t => fst (z t))); [exact Hx|apply Rmax_cont0].
    + apply ccont_mult; [|apply ccont_const].
      apply (ccont_R (fun t => rroot m (Rmax (- fst (z t)) 0))). apply (cont_comp (rroot m) (fun t => Rmax (- fst (z t)) 0)); [|now apply rroot_cont].
      apply (cont_comp (fun x => Rmax x 0) (fun t => - fst (z t))); [now apply cont_opp|apply Rmax_cont0].
  - assert (Hmod : continuous (fun t => Cmod (z t)) t).
    { apply (cont_ext (fun t => sqrt (fst (z t) * fst (z t) + y * y))).
      - intro s. unfold Cmod. rewrite Hy. f_equal. ring.
      - apply cont_sqrt. apply (cont_plus (fun t => fst (z t) * fst (z t)) (fun _ => y * y)); [now apply cont_mult|apply continuous_const]. }
    unfold croot. apply ccont_mult.
    + apply (ccont_R (fun t => rroot m (Cmod (z t)))). apply (cont_comp (rroot m) (fun t => Cmod (z t))); [exact Hmod|now apply rroot_cont].
    + apply ccont_cis. apply (cont_ext (fun t => ((if Rlt_dec 0 y then PI / 2 else - (PI / 2)) + - atan (fst (z t) * / y)) * / IZR m)).
      { intro s. destruct (z s) as [X Y] eqn:Ez. assert (HY := Hy s). rewrite Ez in HY. cbn [snd] in HY. subst Y. rewrite carg_line by exact N0. cbn [fst]. reflexivity. }
      apply (cont_mult (fun t => (if Rlt_dec 0 y then PI / 2 else - (PI / 2)) + - atan (fst (z t) * / y)) (fun _ => / IZR m)); [|apply continuous_const].
      apply cont_plus; [apply continuous_const|]. apply cont_opp. apply (cont_comp atan (fun t => fst (z t) * / y)).
      * apply (cont_mult (fun t => fst (z t)) (fun _ => / y)); [exact Hx|apply continuous_const].
      * apply (ex_derive_continuous atan). auto_derive. exact I.
Qed.
Lemma y_cont_m m u n1 t : (1 <= m)%Z -> ccont (fun t => y_tilde m u n1 (RtoC t)) t.
Proof.
  intro Hm. unfold y_tilde. apply ccont_mult; apply cprod_cont; intros p _.
  - apply (croot_line_m m _ (snd p)); [exact Hm| |].
    + intro s. destruct p. cbn. ring.
    + cbn [fst Cminus Cplus Copp RtoC]. apply (cont_plus (fun _ => fst p) (fun t => - t)); [apply continuous_const|]. apply cont_opp, continuous_id.
  - apply (croot_line_m m _ (- snd p)); [exact Hm| |].
    + intro s. destruct p. cbn. ring.
    + cbn [fst Cminus Cplus Copp RtoC]. apply (cont_plus (fun t => t) (fun _ => - fst p)); [apply continuous_id|apply continuous_const].
Qed.
