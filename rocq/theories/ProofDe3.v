(** The image of the strip contains no branch point. *)
From Coq Require Import Reals Lra Lia.
From Coquelicot Require Import Coquelicot.
From Verif Require Import CArg ModelDe SpecDe ProofDe ProofDe2.
Local Open Scope R_scope.

Lemma cosh_sqr x : cosh x * cosh x = 1 + sinh x * sinh x.
Proof. unfold cosh, sinh. rewrite exp_Ropp. assert (H := exp_pos x). field. lra. Qed.
Lemma cosh_plus x y : cosh (x + y) = cosh x * cosh y + sinh x * sinh y.
Proof. unfold cosh, sinh. rewrite Ropp_plus_distr, !exp_plus. field. Qed.
Lemma sinh_0_inv x : sinh x = 0 -> x = 0.
Proof.
  intro H. destruct (Rtotal_order x 0) as [H1|[H1|H1]]; [|easy|].
  - apply sinh_incr in H1. rewrite sinh_0 in H1. lra.
  - apply sinh_incr in H1. rewrite sinh_0 in H1. lra.
Qed.
Lemma sinh_Ropp x : sinh (- x) = - sinh x.
Proof. unfold sinh. rewrite Ropp_involutive. field. Qed.
Lemma cosh_Ropp x : cosh (- x) = cosh x.
Proof. unfold cosh. rewrite Ropp_involutive. field. Qed.
Lemma csinh_minus a b : csinh (a - b)%C = (csinh a * ccosh b - ccosh a * csinh b)%C.
Proof.
  destruct a as [x y], b as [u v]. unfold csinh, ccosh, Cminus, Cplus, Copp, Cmult. cbn [fst snd].
  rewrite sinh_plus, cosh_plus, sinh_Ropp, cosh_Ropp, sin_plus, cos_plus, sin_neg, cos_neg.
  apply injective_projections; cbn [fst snd]; ring.
Qed.
Lemma ctanh_eq a b : ccosh a <> RtoC 0 -> ccosh b <> RtoC 0 -> ctanh a = ctanh b -> csinh (a - b)%C = RtoC 0.
Proof.
  intros Ha Hb H. rewrite csinh_minus.
  replace (csinh a * ccosh b - ccosh a * csinh b)%C
    with (ccosh a * ccosh b * (ctanh a - ctanh b))%C.
  - rewrite H. ring.
  - unfold ctanh. field. now split.
Qed.
Lemma csinh_zero a : csinh a = RtoC 0 -> fst a = 0 /\ exists k : Z, snd a = IZR k * PI.
Proof.
  destruct a as [x y]. unfold csinh. cbn [fst snd]. intro H.
  assert (H1 := f_equal fst H). assert (H2 := f_equal snd H). cbn in H1, H2.
  assert (Hs : sin y = 0).
  { apply Rmult_integral in H2. assert (Hc := cosh_pos x). destruct H2; lra. }
  assert (Hc : cos y <> 0).
  { intro Hc. assert (H3 := sin2_cos2 y). unfold Rsqr in H3. rewrite Hs, Hc in H3. lra. }
  split; [|now apply sin_eq_0_0].
  apply sinh_0_inv. apply Rmult_integral in H1. destruct H1; [easy|contradiction].
Qed.

Lemma cos_pos_abs y : Rabs y < PI / 2 -> 0 < cos y.
Proof. intro H. apply Rabs_def2 in H. apply cos_gt_0; lra. Qed.
Lemma sin_sqr_abs y y' : Rabs y < Rabs y' -> Rabs y' <= PI / 2 -> sin y * sin y < sin y' * sin y'.
Proof.
  intros H H'. assert (E : forall t, sin t * sin t = sin (Rabs t) * sin (Rabs t)).
  { intro t. destruct (Rcase_abs t) as [Ht|Ht].
    - rewrite Rabs_left, sin_neg by lra. ring.
    - rewrite Rabs_right by lra. easy. }
  rewrite (E y), (E y'). assert (H0 := Rabs_pos y). set (u := Rabs y) in *. set (v := Rabs y') in *.
  assert (HP := PI_RGT_0).
  assert (S0 : 0 <= sin u) by (apply sin_ge_0; lra).
  assert (S1 : sin u < sin v) by (apply sin_increasing_1; lra).
  apply Rmult_le_0_lt_compat; lra.
Qed.
(** on a vertical line the imaginary part of sinh grows with the height *)
Lemma height x y x' y' : sinh x * cos y = sinh x' * cos y' -> Rabs y < Rabs y' -> Rabs y' <= PI / 2 ->
  Rabs (cosh x * sin y) < Rabs (cosh x' * sin y').
Proof.
  intros HX Hy Hy'. apply Rsqr_lt_abs_0. unfold Rsqr.
  assert (Cy := cos_pos_abs y). assert (S := sin_sqr_abs y y' Hy Hy').
  assert (Cy0 : 0 < cos y) by (apply Cy; lra). clear Cy.
  assert (P : forall t, cos t * cos t = 1 - sin t * sin t).
  { intro t. assert (H := sin2_cos2 t). unfold Rsqr in H. lra. }
  assert (S1 : 0 <= sin y * sin y) by apply Rle_0_sqr.
  assert (Q : sinh x * sinh x * (cos y * cos y) = sinh x' * sinh x' * (cos y' * cos y')).
  { replace (sinh x * sinh x * (cos y * cos y)) with ((sinh x * cos y) * (sinh x * cos y)) by ring.
    rewrite HX. ring. }
  replace (cosh x * sin y * (cosh x * sin y)) with (cosh x * cosh x * (sin y * sin y)) by ring.
  replace (cosh x' * sin y' * (cosh x' * sin y')) with (cosh x' * cosh x' * (sin y' * sin y')) by ring.
  rewrite !cosh_sqr. rewrite !P in Q. set (A := sinh x * sinh x) in *. set (A' := sinh x' * sinh x') in *.
  set (s := sin y * sin y) in *. set (s' := sin y' * sin y') in *.
  assert (HA : 0 <= A) by apply Rle_0_sqr. assert (HA' : 0 <= A') by apply Rle_0_sqr.
  assert (Hs : 0 < 1 - s).
  { unfold s. rewrite <- P. now apply Rmult_lt_0_compat. }
  assert (Hs' : 0 <= 1 - s').
  { unfold s'. rewrite <- P. apply Rle_0_sqr. }
  (* (1+A)s = s + A - A(1-s) and the same for the other point, with A <= A' *)
  assert (HAA : A <= A').
  { apply (Rmult_le_reg_r (1 - s)); [easy|]. rewrite Q. apply Rmult_le_compat_l; lra. }
  replace ((1 + A) * s) with (s + A - A * (1 - s)) by ring.
  replace ((1 + A') * s') with (s' + A' - A' * (1 - s')) by ring. lra.
Qed.
Lemma principal_smallest l w z z' : 0 < l -> principal l w z' ->
  ccosh (RtoC l * csinh z)%C <> RtoC 0 -> de_map l z = w -> Rabs (snd z') <= Rabs (snd z).
Proof.
  intros Hl (P1 & P2 & P3 & P4) Hc Hz.
  destruct (Rle_dec (Rabs (snd z')) (Rabs (snd z))) as [H|H]; [easy|exfalso].
  apply Rnot_le_lt in H.
  assert (E := ctanh_eq _ _ Hc P1 (eq_trans Hz (eq_sym P2))). apply csinh_zero in E.
  destruct E as [E1 [k E2]]. destruct z as [x y], z' as [x' y']. cbn [fst snd] in *.
  assert (R : forall a b, (RtoC l * (a, b))%C = (l * a, l * b)).
  { intros a b. unfold RtoC, Cmult. cbn [fst snd]. apply injective_projections; cbn [fst snd]; ring. }
  unfold csinh in *. cbn [fst snd] in *. rewrite !R in *. cbn [fst snd] in *.
  cbn in E1, E2.
  assert (HX : sinh x * cos y = sinh x' * cos y').
  { apply (Rmult_eq_reg_l l); lra. }
  assert (Hh := height x y x' y' HX H P4).
  set (Y := cosh x * sin y) in *. set (Y' := cosh x' * sin y') in *.
  assert (Hl1 : Rabs (l * Y) < Rabs (l * Y')).
  { rewrite !Rabs_mult, (Rabs_pos_eq l) by lra. now apply Rmult_lt_compat_l. }
  assert (E3 : l * Y = l * Y' + IZR k * PI) by lra.
  set (u := l * Y) in *. set (v := l * Y') in *. assert (HP := PI_RGT_0).
  destruct (Z.eq_dec k 0) as [->|Hk].
  - rewrite E3 in Hl1. rewrite Rmult_0_l, Rplus_0_r in Hl1. lra.
  - assert (PI <= Rabs (IZR k * PI)).
    { rewrite Rabs_mult, (Rabs_pos_eq PI) by lra. rewrite <- (Rmult_1_l PI) at 1. apply Rmult_le_compat_r; [lra|].
      rewrite <- abs_IZR. apply IZR_le. lia. }
    replace (IZR k * PI) with (u - v) in H0 by lra.
    assert (T := Rabs_triang u (- v)). rewrite Rabs_Ropp in T. unfold Rminus in H0. lra.
Qed.
Lemma no_pole r z : 0 < r <= 126 / 100 -> Rabs (snd z) <= r -> ccosh (RtoC lam * csinh z)%C <> RtoC 0.
Proof.
  intros Hr Hz H. destruct z as [x y]. cbn [snd] in Hz.
  assert (H1 := f_equal fst H). assert (H2 := f_equal snd H). clear H.
  unfold csinh, ccosh in H1, H2. cbn in H1, H2.
  rewrite !Rmult_0_l, Rminus_0_r, Rplus_0_r in H1. rewrite !Rmult_0_l, Rminus_0_r, Rplus_0_r in H2.
  set (u := lam * (sinh x * cos y)) in *. set (v := lam * (cosh x * sin y)) in *.
  assert (Hc := cosh_pos u).
  assert (Cv : cos v = 0) by (apply Rmult_integral in H1; destruct H1; lra).
  assert (Hu : u = 0).
  { apply sinh_0_inv. apply Rmult_integral in H2. destruct H2 as [H2|H2]; [easy|].
    assert (H3 := sin2_cos2 v). unfold Rsqr in H3. rewrite H2, Cv in H3. lra. }
  assert (HL := lam_bounds). assert (HP := PI2_3_2).
  assert (Hcy : 0 < cos y) by (apply cos_pos_abs; lra).
  assert (Hx : x = 0).
  { apply sinh_0_inv. unfold u in Hu. apply Rmult_integral in Hu. destruct Hu as [Hu|Hu]; [lra|].
    apply Rmult_integral in Hu. destruct Hu; lra. }
  unfold v in Cv. rewrite Hx, cosh_0, Rmult_1_l in Cv.
  assert (Hv : Rabs (lam * sin y) < PI / 2).
  { rewrite Rabs_mult, (Rabs_pos_eq lam) by lra.
    replace (PI / 2) with (lam * 1) by (unfold lam; ring). apply Rmult_lt_compat_l; [lra|].
    assert (H3 := sin2_cos2 y). unfold Rsqr in H3.
    assert (0 < cos y * cos y) by now apply Rmult_lt_0_compat.
    rewrite <- (Rabs_pos_eq 1) by lra. apply Rsqr_lt_abs_0. unfold Rsqr. lra. }
  apply cos_pos_abs in Hv. lra.
Qed.
Lemma strip_avoids ws rk r : choose_r rk = Done r ->
  Forall2 (fun w x => exists z, principal lam w z /\ x = Rabs (snd z)) ws rk ->
  (forall z, Rabs (snd z) <= r -> ccosh (RtoC lam * csinh z)%C <> RtoC 0) /\
  forall w, In w ws -> ~ in_strip_image lam r w.
Proof.
  intros Hr HF. assert (Hrr := choose_r_range rk r Hr).
  split. { intros z Hz. now apply (no_pole r). }
  intros w Hw (z & Hz & E).
  assert (exists x, In x rk /\ exists z', principal lam w z' /\ x = Rabs (snd z')) as (x & Hx & z' & P & ->).
  { clear - HF Hw. induction HF as [|a b la lb H HF IH]; cbn in *; [easy|].
    destruct Hw as [<-|Hw].
    - exists b. split; [now left|exact H].
    - destruct (IH Hw) as (x & Hx & Hy). exists x. split; [now right|easy]. }
  assert (Hlt := choose_r_below rk r _ Hr Hx). assert (HL := lam_bounds).
  assert (HS : Rabs (snd z') <= Rabs (snd z)).
  { apply (principal_smallest lam w); [lra|easy| |easy]. now apply (no_pole r). }
  lra.
Qed.
