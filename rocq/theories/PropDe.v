(** C43, C56, C57, C58: the parameters and the error radius of the double exponential rule. *)
From Coq Require Import Reals Lra Lia.
From Coquelicot Require Import Coquelicot.
From Verif Require Import CArg ModelDe SpecDe ProofDe ProofDe2 ProofDe3.
Local Open Scope R_scope.

(** For all usable parameters the radius is smaller than the published bound. *)
Theorem C43_radius_refuted h l n r m1 m2 j m : de_ok h l r j m -> 0 < m1 -> 0 < m2 ->
  de_error h l n r m1 m2 j m < published h l n r m1 m2 (alpha j m).
Proof. intros (H1 & H2 & H3 & H4 & H5). now apply error_below. Qed.
Print Assumptions C43_radius_refuted.
(** It is never smaller than half the bound. *)
Theorem C43_within_two_partial h l n r m1 m2 j m : de_ok h l r j m -> l <= 2 -> 0 <= m1 -> 0 <= m2 ->
  published h l n r m1 m2 (alpha j m) <= 2 * de_error h l n r m1 m2 j m.
Proof. intros (H1 & H2 & H3 & H4 & H5) H6. now apply error_within. Qed.
Print Assumptions C43_within_two_partial.
Example C43_params : de_ok (1 / 10) (PI / 2) 1 1 3.
Proof.
  destruct (sin_lam 1) as [H1 H2]; [lra|]. assert (HL := lam_bounds). unfold lam in *.
  unfold de_ok. split; [lra|]. split; [lra|]. split; [easy|]. split; [easy|lia].
Qed.

(** The constant M1 is not always a bound of 1/|y| on [-1,1] ... *)
Theorem C43_m1_refuted : exists u m x, (1 < m)%Z /\ -1 <= x <= 1 /\
  Forall (fun z => forall t, -1 <= t <= 1 -> z <> RtoC t) u /\ de_constant_m1 u m < inv_y u m x.
Proof.
  exists [RtoC (11 / 10)], 2%Z, 1. split; [lia|]. split; [lra|]. split.
  - constructor; [|constructor]. intros t Ht E. apply RtoC_inj in E. lra.
  - now apply m1_invalid.
Qed.
Print Assumptions C43_m1_refuted.
(** ... but it is when all real parts are in [-1,1]. *)
Theorem C43_m1_partial u m x : (0 < m)%Z -> Forall (fun z => Rabs (fst z) <= 1 /\ snd z <> 0) u ->
  inv_y u m x <= de_constant_m1 u m.
Proof. apply m1_valid. Qed.
Print Assumptions C43_m1_partial.
Example C43_m1_points : Forall (fun z : C => Rabs (fst z) <= 1 /\ snd z <> 0) [(1 / 2, 1); (-1, -1 / 3)].
Proof. repeat constructor; cbn; try lra; unfold Rabs; destruct (Rcase_abs _); lra. Qed.

(** The radius is computed for j = 1 and used for all j.  For j = m - 1 the first term that
    the rule leaves out exceeds any multiple of the radius as soon as the precision is large. *)
Theorem C43_other_exponents_refuted rk m m1 m2 Cst :
  (2 < m)%Z -> Forall (fun x => 0 < x) rk -> 0 <= m1 -> 0 <= m2 -> 0 <= Cst ->
  exists p0 : Z, forall prec, (p0 <= prec)%Z -> exists r h n,
    de_params_d rk m prec = Done (r, h, n) /\ (0 < n)%Z /\
    Cst * de_error h (PI / 2) (Z.to_nat n) r m1 m2 1 m
    < h * weight (PI / 2) (alpha (m - 1) m) (IZR n * h).
Proof.
  intros Hm Hrk H1 H2 HC. destruct (choose_r_done rk Hrk) as [r Hr].
  assert (Hrr := choose_r_range rk r Hr). destruct (sin_lam r Hrr) as [Hs1 Hs2].
  destruct (exceeds r m Hrr Hm Cst m1 m2 HC H1 H2) as (p0 & Hp0 & H).
  exists p0. intros prec Hp. specialize (H prec Hp).
  destruct (de_params_d rk m prec) as [[[r' h] n]| | |] eqn:E;
    try (unfold de_params_d in E; rewrite Hr in E; discriminate E).
  assert (Hm1 : (1 < m)%Z) by lia. assert (Hp' : (0 <= prec)%Z) by lia.
  destruct (de_params_d_eq rk m prec r' h n Hm1 E) as (E1 & E2 & E3).
  assert (r' = r) by congruence. subst r'.
  exists r, h, n. split; [easy|].
  assert (N := n_pos r m prec Hrr Hm1 Hp').
  assert (HH := h_pos r m prec Hrr Hm1 Hp').
  assert (O := chosen_ok r m prec Hrr Hm1 Hp' m1 m2 H1 H2).
  rewrite <- E2 in N, HH, O, H. rewrite <- E3 in N, O, H. split; [exact N|].
  fold lam. eapply Rle_lt_trans; [|exact H]. apply Rmult_le_compat_l; [easy|].
  eapply Rle_trans; [|exact O].
  assert (HL := lam_bounds). assert (Hj : (0 < 1 < m)%Z) by lia.
  assert (HlL : 1 <= lam) by lra.
  rewrite (code_error_eq lam r 1 m HlL Hs1 Hs2 Hj) by easy. unfold published, e_Q.
  destruct (b_compare lam r 1 m HlL Hs1 Hs2 Hj) as [_ B2].
  assert (He := exp_h r Hs1 h HH).
  assert (HT : 0 <= e_T h lam (Z.to_nat n) m1 (alpha 1 m)).
  { unfold e_T. assert (Ha := alpha_range 1 m Hj). apply Rmult_le_pos; [|apply Rlt_le, exp_pos].
    apply Rmult_le_pos; [|left; apply Rinv_0_lt_compat; lra]. apply Rmult_le_pos; [apply Rlt_le, Rpower_pos|easy]. }
  apply Rplus_le_compat.
  - apply Rle_div_l; [lra|]. rewrite <- (Rmult_1_r (e_T _ _ _ _ _)) at 1. apply Rmult_le_compat_l; lra.
  - unfold Rdiv. apply Rmult_le_compat_r; [now left; apply Rinv_0_lt_compat|].
    rewrite (Rmult_comm 2 m2), Rmult_assoc. apply Rmult_le_compat_l; lra.
Qed.
Print Assumptions C43_other_exponents_refuted.

(** The terms left out are bounded by the published truncation bound. *)
Theorem C56_truncation h l a N K m1 f : 0 < h -> 0 < l -> 0 < a ->
  1 <= 2 * a * l * cosh (INR N * h) -> (forall x, -1 <= x <= 1 -> Cmod (f x) <= m1) ->
  Cmod (omitted h l a N K f) <= e_T h l N m1 a.
Proof. intros H1 H2 H3 H4 H5. now apply omitted_le. Qed.
Print Assumptions C56_truncation.
Example C56_case : Cmod (omitted (1 / 10) (PI / 2) (1 / 3) 7 100 (fun x => RtoC (x * x)))
  <= e_T (1 / 10) (PI / 2) 7 1 (1 / 3).
Proof.
  assert (HP := PI2_3_2). apply C56_truncation; try lra.
  - assert (H := cosh_ge_1 (INR 7 * (1 / 10))).
    assert (1 * 1 <= 2 * (1 / 3) * (PI / 2) * cosh (INR 7 * (1 / 10))) by (apply Rmult_le_compat; lra). lra.
  - intros x Hx. rewrite Cmod_R, Rabs_mult. assert (Rabs x <= 1) by (apply Rabs_le; lra).
    assert (H0 := Rabs_pos x). rewrite <- (Rmult_1_l 1). apply Rmult_le_compat; lra.
Qed.

(** The parameters chosen satisfy the conditions of the published theorem, for j = 1: the bound
    is the tolerance up to the constants M1 and M2. *)
Theorem C57_parameters_partial rk m prec r h n m1 m2 :
  (1 < m)%Z -> (0 <= prec)%Z -> 0 <= m1 -> 0 <= m2 -> de_params_d rk m prec = Done (r, h, n) ->
  de_ok h (PI / 2) r 1 m /\ (0 < n)%Z /\
  1 <= 2 * alpha 1 m * (PI / 2) * cosh (IZR n * h) /\
  published h (PI / 2) (Z.to_nat n) r m1 m2 (alpha 1 m) <= (m1 / 8 + m2) * / 2 ^ Z.to_nat prec.
Proof.
  intros Hm Hp H1 H2 E. destruct (de_params_d_eq rk m prec r h n Hm E) as (E1 & E2 & E3).
  assert (Hr := choose_r_range rk r E1). destruct (sin_lam r Hr) as [S1 S2]. assert (HL := lam_bounds).
  assert (HN := n_pos r m prec Hr Hm Hp). assert (HH := h_pos r m prec Hr Hm Hp).
  assert (NI := n_INR r m prec Hr Hm Hp).
  assert (HC := chosen_cosh r m prec Hr Hm Hp). assert (HO := chosen_ok r m prec Hr Hm Hp m1 m2 H1 H2).
  rewrite exp_D in HO by easy.
  rewrite NI in HC. rewrite <- E2 in HN, HH, HC, HO. rewrite <- E3 in HN, HC, HO. fold lam.
  split; [|now split]. unfold de_ok. split; [easy|]. split; [lra|]. split; [easy|]. split; [easy|lia].
Qed.
Print Assumptions C57_parameters_partial.
(** The routine stops when a distance is not positive and only then. *)
Theorem C57_aborts rk m prec : (exists p, de_params_d rk m prec = Done p) <-> Forall (fun x => 0 < x) rk.
Proof.
  unfold de_params_d, choose_r. assert (H : forall r0, (exists r, smallest_r rk r0 = Done r) <-> Forall (fun x => 0 < x) rk).
  { induction rk as [|x rk IH]; intro r0; cbn.
    - split; [constructor|now eexists].
    - destruct (Rle_dec x 0).
      + split; [now intros []|]. intro F. inversion F. lra.
      + rewrite IH. split; [intro F; constructor; [lra|easy]|]. now inversion 1. }
  rewrite <- (H (14 / 10)). split.
  - intros [p Hp]. destruct (smallest_r rk _) as [r| | |]; try easy. now exists r.
  - intros [r ->]. cbn. now eexists.
Qed.
Print Assumptions C57_aborts.

(** In the strip the change of variable has no pole and avoids all branch points. *)
Theorem C58_strip ws rk m prec r h n :
  Forall2 (fun w x => exists z, principal (PI / 2) w z /\ x = Rabs (snd z)) ws rk ->
  de_params_d rk m prec = Done (r, h, n) ->
  (forall z, Rabs (snd z) <= r -> ccosh (RtoC (PI / 2) * csinh z)%C <> RtoC 0) /\
  forall w, In w ws -> ~ in_strip_image (PI / 2) r w.
Proof.
  intros HF E. apply (strip_avoids ws rk r); [|exact HF].
  unfold de_params_d in E. destruct (choose_r rk) as [x| | |]; try discriminate E. cbn in E. congruence.
Qed.
Print Assumptions C58_strip.
(** the branch point i, for which asinh(atanh(i)/lambda) is i pi/6 *)
Example C58_point : principal (PI / 2) Ci (0, PI / 6) /\ 0 < Rabs (PI / 6).
Proof.
  assert (HP := PI_RGT_0). unfold principal, de_map, ctanh, csinh, ccosh. cbn [fst snd].
  rewrite sinh_0, cosh_0, sin_PI6.
  assert (E : (RtoC (PI / 2) * (0 * cos (PI / 6), 1 * (1 / 2))%R)%C = (0, PI / 4)).
  { unfold RtoC, Cmult. cbn. apply injective_projections; cbn; field. }
  rewrite E. cbn [fst snd]. rewrite sinh_0, cosh_0, sin_PI4, cos_PI4.
  assert (H2 : 0 < sqrt 2) by (apply sqrt_lt_R0; lra).
  assert (H3 : 0 < 1 / sqrt 2) by (apply Rdiv_lt_0_compat; lra).
  split; [split; [|split; [|split]]|].
  - intro H. apply (f_equal fst) in H. cbn in H. lra.
  - unfold Cdiv, Cinv, Cmult, Ci. cbn. apply injective_projections; cbn; field; lra.
  - rewrite Rabs_pos_eq; lra.
  - rewrite Rabs_pos_eq; lra.
  - rewrite Rabs_pos_eq; lra.
Qed.
Example C57_some : exists p, de_params_d [PI / 6] 3 128 = Done p.
Proof. apply C57_aborts. constructor; [|constructor]. assert (HP := PI_RGT_0). lra. Qed.
