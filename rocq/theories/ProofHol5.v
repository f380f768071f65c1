(** The weight of the double exponential rule in a strip. *)
From Coq Require Import Reals Lra Lia.
From Coquelicot Require Import Coquelicot.
From Verif Require Import CArg SpecDe ProofDe ProofDe2 ProofDe3 ProofErr4 ProofErr5 ProofHol1 ProofHol2.
Local Open Scope R_scope.

(** ** Elementary inequalities *)
Lemma sin_chord x p : 0 < x <= p -> p <= PI -> x * sin p <= p * sin x.
Proof.
  intros Hx Hp. destruct (Req_dec x p) as [->|Hn]; [lra|].
  destruct (MVT_cor2 sin cos 0 x ltac:(lra) (fun c _ => derivable_pt_lim_sin c)) as (c1 & E1 & H1).
  destruct (MVT_cor2 sin cos x p ltac:(lra) (fun c _ => derivable_pt_lim_sin c)) as (c2 & E2 & H2).
  rewrite sin_0 in E1. assert (Hc : cos c2 <= cos c1) by (left; apply cos_decreasing_1; lra).
  replace (sin p) with (sin x + cos c2 * (p - x)) by lra. replace (sin x) with (cos c1 * x) by lra.
  assert (0 <= x * (p - x)) by nra. nra.
Qed.
Lemma sin_ge_cos x : 0 <= x <= PI -> x * cos x <= sin x.
Proof.
  intros [[Hx|<-] Hp]; [|rewrite sin_0; lra].
  destruct (MVT_cor2 sin cos 0 x ltac:(lra) (fun c _ => derivable_pt_lim_sin c)) as (c1 & E1 & H1).
  rewrite sin_0 in E1. assert (Hc : cos x <= cos c1) by (left; apply cos_decreasing_1; lra). nra.
Qed.
Lemma cos_drop y0 y : 0 < y0 <= y -> y <= PI -> cos y0 - cos y <= sin y0 / (2 * y0) * (y * y - y0 * y0).
Proof.
  intros H Hp. set (p := (y + y0) / 2). set (q := (y - y0) / 2).
  assert (E : cos y0 - cos y = 2 * sin p * sin q).
  { replace y0 with (p - q) by (unfold p, q; field). replace y with (p + q) by (unfold p, q; field). rewrite cos_minus, cos_plus. ring. }
  assert (Hq : 0 <= q <= PI) by (unfold q; lra). assert (Hpp : y0 <= p <= PI) by (unfold p; lra).
  assert (S1 := sin_chord y0 p ltac:(lra) ltac:(lra)).
  assert (S2 : sin q <= q). { destruct (Req_dec q 0) as [->|Hn]; [rewrite sin_0; lra|]. left. apply sin_lt_x. lra. }
  assert (S3 : 0 <= sin q) by (apply sin_ge_0; lra). assert (S4 : 0 <= sin p) by (apply sin_ge_0; lra).
  rewrite E. replace (sin y0 / (2 * y0) * (y * y - y0 * y0)) with (2 * (p * sin y0 / y0) * q) by (unfold p, q; field; lra).
  assert (S5 : sin p <= p * sin y0 / y0) by (apply Rle_div_r; lra). nra.
Qed.
Lemma exp_convex s x y : 0 <= s <= 1 -> exp (s * x + (1 - s) * y) <= s * exp x + (1 - s) * exp y.
Proof.
  intro Hs. set (m := s * x + (1 - s) * y).
  assert (T : forall u, exp m * (1 + (u - m)) <= exp u).
  { intro u. replace u with (m + (u - m)) at 2 by ring. rewrite exp_plus. apply Rmult_le_compat_l; [left; apply exp_pos|].
    destruct (Req_dec (u - m) 0) as [E|E]; [rewrite E, exp_0; lra|]. left. now apply exp_ineq1. }
  assert (T1 := T x). assert (T2 := T y).
  apply Rle_trans with (s * (exp m * (1 + (x - m))) + (1 - s) * (exp m * (1 + (y - m)))).
  - right. unfold m. ring.
  - apply Rplus_le_compat; apply Rmult_le_compat_l; lra.
Qed.
Lemma Rpower_convex s P Q D a : 0 <= s <= 1 -> 0 < P -> 0 < Q -> 0 < a -> s * P + (1 - s) * Q <= D ->
  Rpower D (- a) <= s * Rpower P (- a) + (1 - s) * Rpower Q (- a).
Proof.
  intros Hs HP HQ Ha HD. assert (HD0 : 0 < D) by (eapply Rlt_le_trans; [|exact HD]; destruct (Req_dec s 0) as [->|Hn]; nra).
  assert (HL : s * ln P + (1 - s) * ln Q <= ln D).
  { assert (H := exp_convex s (ln P) (ln Q) Hs). rewrite !exp_ln in H by assumption.
    rewrite <- (ln_exp (s * ln P + (1 - s) * ln Q)). apply ln_le; [apply exp_pos|lra]. }
  unfold Rpower. eapply Rle_trans; [|apply exp_convex; exact Hs]. apply ProofDe2.exp_le. nra.
Qed.
Lemma Rpower_anti x y b : 0 < x <= y -> 0 <= b -> Rpower y (- b) <= Rpower x (- b).
Proof. intros H Hb. unfold Rpower. apply ProofDe2.exp_le. assert (ln x <= ln y) by (apply ln_le; lra). nra. Qed.
Lemma Rpower_sq x b : 0 < x -> Rpower (x * x) (- b) = Rpower x (- (2 * b)).
Proof. intro Hx. unfold Rpower. rewrite ln_mult by assumption. f_equal. ring. Qed.
Lemma sinh_ge_id x : 0 <= x -> x <= sinh x.
Proof.
  intros [Hx|<-]; [|rewrite sinh_0; lra].
  destruct (MVT_cor2 sinh cosh 0 x Hx (fun c _ => derivable_pt_lim_sinh c)) as (c & E & Hc). rewrite sinh_0 in E. assert (H := ProofDe2.cosh_ge_1 c). nra.
Qed.
Lemma sinh_tail x y : 0 <= x <= y -> sinh x * exp (y - x) <= sinh y.
Proof.
  intro H. assert (E := sinh_plus x (y - x)). replace (x + (y - x)) with y in E by ring. rewrite E.
  assert (E2 : exp (y - x) = cosh (y - x) + sinh (y - x)) by (unfold cosh, sinh; field). rewrite E2.
  assert (H1 := cosh_gt_sinh x). assert (H2 := sinh_ge_id (y - x) ltac:(lra)). nra.
Qed.
(** |cosh(X + iY)|^2 = sinh^2 X + cos^2 Y *)
Lemma ccosh_sq w : Cmod (ccosh w) * Cmod (ccosh w) = sinh (fst w) * sinh (fst w) + cos (snd w) * cos (snd w).
Proof.
  rewrite Cmod_sq. unfold ccosh. cbn [fst snd]. assert (E := cosh_sqr (fst w)). assert (E2 := sin2_cos2 (snd w)). unfold Rsqr in E2. nra.
Qed.
Lemma ccosh_le z : Cmod (ccosh z) <= cosh (fst z).
Proof.
  assert (E := ccosh_sq z). assert (E1 := cosh_sqr (fst z)). assert (E2 := sin2_cos2 (snd z)). unfold Rsqr in E2. assert (P := Cmod_ge_0 (ccosh z)). assert (P' := ProofDe2.cosh_pos (fst z)). nra.
Qed.
Lemma ccosh_ge_sinh w : Rabs (sinh (fst w)) <= Cmod (ccosh w).
Proof.
  assert (E := ccosh_sq w). apply Rabs_le_between. assert (P := Cmod_ge_0 (ccosh w)). assert (0 <= cos (snd w) * cos (snd w)) by nra. split; nra.
Qed.
Definition lsinh (l : R) (z : C) : C := (RtoC l * csinh z)%C.
Lemma lsinh_fst l z : fst (lsinh l z) = l * sinh (fst z) * cos (snd z).
Proof. unfold lsinh, csinh. cbn. ring. Qed.
Lemma lsinh_snd l z : snd (lsinh l z) = l * cosh (fst z) * sin (snd z).
Proof. unfold lsinh, csinh. cbn. ring. Qed.
Lemma strip_nonzero l r0 z : 0 < l -> r0 <= PI / 2 -> l * sin r0 <= PI / 2 -> strip r0 z -> ccosh (lsinh l z) <> RtoC 0.
Proof.
  intros Hl Hr Hs Hz E. assert (H := ccosh_sq (lsinh l z)). rewrite E, Cmod_0, lsinh_fst, lsinh_snd in H. unfold strip in Hz.
  assert (Hu := proj1 (Rabs_lt_between _ _) Hz).
  assert (Hc : 0 < cos (snd z)) by (apply cos_gt_0; lra).
  set (X := l * sinh (fst z) * cos (snd z)) in *. set (Y := l * cosh (fst z) * sin (snd z)) in *.
  assert (HX : sinh X = 0) by nra. assert (HY : cos Y = 0) by nra.
  apply sinh_0_inv in HX. unfold X in HX. assert (Hs0 : sinh (fst z) = 0).
  { apply Rmult_integral in HX. destruct HX as [HX|HX]; [apply Rmult_integral in HX; destruct HX; lra|lra]. }
  apply sinh_0_inv in Hs0. unfold Y in HY. rewrite Hs0, cosh_0, Rmult_1_r in HY.
  assert (Hin : Rabs (sin (snd z)) < sin r0).
  { assert (H1 : sin (snd z) < sin r0) by (apply sin_increasing_1; lra). assert (H2 : sin (- r0) < sin (snd z)) by (apply sin_increasing_1; lra). rewrite sin_neg in H2. apply Rabs_lt_between. lra. }
  apply Rabs_lt_between in Hin. assert (0 < cos (l * sin (snd z))); [|lra]. apply cos_gt_0; nra.
Qed.
(** ** Bounds on the lines Im z = r, -r *)
Section Line.
Variables l r a : R.
Hypothesis Hl : 1 <= l.
Hypothesis Hr : 0 < r < PI / 2.
Hypothesis Hs : l * sin r < PI / 2.
Hypothesis Ha : 0 < a.
Let x := X_r l r.
Let c := cos (l * sin r).
Let y0 := l * sin r.
Lemma l_x : 0 < x.
Proof using Hl Hr Hs. apply X_r_pos; lra. Qed.
Lemma l_y0 : 0 < y0 < PI / 2.
Proof using Hl Hr Hs. unfold y0. assert (0 < sin r) by (apply sin_gt_0; lra). nra. Qed.
Lemma l_c : 0 < c.
Proof using Hl Hr Hs. assert (H := l_y0). unfold c. fold y0. apply cos_gt_0; lra. Qed.
Lemma l_cr : 0 < cos r.
Proof using Hr. apply cos_gt_0; lra. Qed.
Lemma x_sq : x * x = cos r * cos r * (PI / (2 * y0) - 1).
Proof using Hl Hr Hs.
  assert (H := l_y0). unfold x, X_r. replace (2 * l * sin r) with (2 * y0) by (unfold y0; ring).
  assert (H0 : 0 <= PI / (2 * y0) - 1). { assert (1 <= PI / (2 * y0)); [|lra]. apply Rle_div_r; lra. }
  assert (E := sqrt_sqrt _ H0). set (q := sqrt (PI / (2 * y0) - 1)) in *. rewrite <- E. ring.
Qed.
(** the part near the imaginary axis *)
Lemma near_axis t : 0 <= l * cos r * sinh t <= x -> let s := l * cos r * sinh t / x in
  s * s * (x * x) + (1 - s * s) * (c * c) <= sinh (l * cos r * sinh t) * sinh (l * cos r * sinh t) + cos (y0 * cosh t) * cos (y0 * cosh t).
Proof using Hl Hr Hs.
  intros HX s. set (X := l * cos r * sinh t) in *. assert (Px := l_x). assert (Py := l_y0). assert (Pc := l_c). assert (Pr := l_cr).
  assert (Hs1 : 0 <= s <= 1). { unfold s. split; [apply Rdiv_le_0_compat; lra|]. apply Rle_div_l; lra. }
  assert (EX : X = s * x) by (unfold s; field; lra).
  assert (Hsh : X <= sinh X) by (apply sinh_ge_id; lra).
  set (y := y0 * cosh t). assert (Hy : y0 <= y) by (unfold y; assert (H := ProofDe2.cosh_ge_1 t); nra).
  assert (Et : sinh t * sinh t = s * s * (x * x) / (l * l * (cos r * cos r))).
  { replace (s * s * (x * x)) with (X * X) by (rewrite EX; ring). unfold X. field. split; nra. }
  assert (Ey : y * y <= y0 * y0 + s * s * (y0 * (PI / 2 - y0))).
  { unfold y. replace (y0 * cosh t * (y0 * cosh t)) with (y0 * y0 * (cosh t * cosh t)) by ring. rewrite cosh_sqr, Et, x_sq.
    replace (y0 * y0 * (1 + s * s * (cos r * cos r * (PI / (2 * y0) - 1)) / (l * l * (cos r * cos r)))) with (y0 * y0 + s * s * (y0 * (PI / 2 - y0)) / (l * l)) by (field; split; lra).
    apply Rplus_le_compat_l. apply Rle_div_l; [nra|]. assert (HA : 0 <= s * s * (y0 * (PI / 2 - y0))) by (apply Rmult_le_pos; nra). assert (Hll : 1 <= l * l) by nra.
    revert HA Hll. generalize (s * s * (y0 * (PI / 2 - y0))) (l * l). clear. intros. nra. }
  assert (Hyp : y <= PI / 2). { assert (0 <= y0 * (PI / 2 - y0)) by nra. assert (s * s <= 1) by nra. nra. }
  assert (D := cos_drop y0 y ltac:(lra) ltac:(lra)). fold c in D. change (cos y0) with c in D.
  set (th := PI / 2 - y0) in *.
  assert (T := sin_ge_cos th ltac:(unfold th; lra)). unfold th in T at 2 3. rewrite cos_shift, sin_shift in T. change (cos y0) with c in T.
  assert (Psin : 0 < sin y0) by (apply sin_gt_0; lra).
  assert (Hd : sin y0 / (2 * y0) * (y * y - y0 * y0) <= s * s / 2 * c).
  { apply Rle_trans with (sin y0 / (2 * y0) * (s * s * (y0 * th))).
    - apply Rmult_le_compat_l; [|lra]. apply Rdiv_le_0_compat; lra.
    - replace (sin y0 / (2 * y0) * (s * s * (y0 * th))) with (s * s / 2 * (th * sin y0)) by (field; lra). apply Rmult_le_compat_l; nra. }
  assert (Hc1 : c * (1 - s * s / 2) <= cos y) by lra.
  assert (Hc2 : c * c * (1 - s * s) <= cos y * cos y).
  { assert (0 <= c * (1 - s * s / 2)) by (apply Rmult_le_pos; nra). apply Rle_trans with (c * (1 - s * s / 2) * (c * (1 - s * s / 2))); [|nra].
    replace (c * (1 - s * s / 2) * (c * (1 - s * s / 2))) with (c * c * (1 - s * s) + c * c * (s * s * (s * s)) / 4) by field.
    assert (0 <= c * c * (s * s * (s * s))) by (apply Rmult_le_pos; nra). lra. }
  assert (Hx2 : s * s * (x * x) <= sinh X * sinh X) by (rewrite EX in Hsh |- *; assert (0 <= s * x) by nra; nra).
  lra.
Qed.

Definition wmod (z : C) : R := l * Cmod (ccosh z) * Rpower (Cmod (ccosh (lsinh l z))) (- (2 * a)).
Definition big_x (t : R) : R := l * cos r * sinh t.
Definition phi1 (X : R) : R := X / x * (X / x) * Rpower x (- (2 * a)) + (1 - X / x * (X / x)) * Rpower c (- (2 * a)).
Definition phi2 (X : R) : R := Rpower (sinh x) (- (2 * a)) * exp (- (2 * a * (X - x))).
Lemma sinh_abs t : Rabs (sinh t) = sinh (Rabs t).
Proof.
  unfold Rabs at 2. destruct (Rcase_abs t) as [H|H].
  - rewrite sinh_Ropp, Rabs_left1; [reflexivity|]. assert (H1 := sinh_le t 0 ltac:(lra)). rewrite sinh_0 in H1. exact H1.
  - apply Rabs_pos_eq. assert (H1 := sinh_le 0 t ltac:(lra)). rewrite sinh_0 in H1. exact H1.
Qed.
Lemma cosh_abs t : cosh (Rabs t) = cosh t.
Proof. unfold Rabs. destruct (Rcase_abs t); [apply cosh_Ropp|reflexivity]. Qed.
Lemma wmod_le z P : Rpower (Cmod (ccosh (lsinh l z))) (- (2 * a)) <= P -> wmod z <= l * cosh (Rabs (fst z)) * P.
Proof using Hl.
  intro H. unfold wmod. rewrite cosh_abs. assert (H1 := ccosh_le z). assert (H2 := Cmod_ge_0 (ccosh z)). assert (H3 := Rpower_pos (Cmod (ccosh (lsinh l z))) (- (2 * a))).
  apply Rmult_le_compat; try lra; nra.
Qed.
Lemma wmod_near t v : v = r \/ v = - r -> big_x (Rabs t) <= x -> wmod (t, v) <= l * cosh (Rabs t) * phi1 (big_x (Rabs t)).
Proof using Hl Hr Hs Ha.
  intros Hv HX. apply (wmod_le (t, v)). assert (Px := l_x). assert (Pc := l_c). assert (Pr := l_cr).
  assert (H0 : 0 <= sinh (Rabs t)) by (rewrite <- sinh_abs; apply Rabs_pos).
  assert (H1 : 0 <= big_x (Rabs t)) by (unfold big_x; apply Rmult_le_pos; nra).
  set (s := big_x (Rabs t) / x). assert (Hs1 : 0 <= s <= 1). { unfold s. split; [apply Rdiv_le_0_compat; lra|]. apply Rle_div_l; lra. }
  assert (HN := near_axis (Rabs t) (conj H1 HX)). cbv zeta in HN. fold (big_x (Rabs t)) in HN. fold s in HN.
  set (D := Cmod (ccosh (lsinh l (t, v)))).
  assert (ED : D * D = sinh (big_x (Rabs t)) * sinh (big_x (Rabs t)) + cos (y0 * cosh (Rabs t)) * cos (y0 * cosh (Rabs t))).
  { unfold D. rewrite ccosh_sq, lsinh_fst, lsinh_snd. cbn [fst snd]. rewrite cosh_abs. unfold big_x.
    assert (Ec : cos v = cos r) by (destruct Hv as [->| ->]; [reflexivity|apply cos_neg]). rewrite Ec. f_equal.
    - replace (l * sinh t * cos r) with (l * cos r * sinh t) by ring. unfold Rabs. destruct (Rcase_abs t); [|reflexivity].
      rewrite sinh_Ropp. replace (l * cos r * - sinh t) with (- (l * cos r * sinh t)) by ring. rewrite sinh_Ropp. ring.
    - destruct Hv as [->| ->]; unfold y0; [|rewrite sin_neg; replace (l * cosh t * - sin r) with (- (l * sin r * cosh t)) by ring; rewrite cos_neg; reflexivity].
      replace (l * cosh t * sin r) with (l * sin r * cosh t) by ring. reflexivity. }
  rewrite <- ED in HN.
  assert (PD : 0 < D).
  { assert (H := Cmod_ge_0 (ccosh (lsinh l (t, v)))). fold D in H. destruct H as [H|H]; [exact H|]. rewrite <- H in HN.
    assert (Pcc : 0 < c * c) by now apply Rmult_lt_0_compat.
    destruct (Req_dec s 0) as [E|E]; [rewrite E in HN; lra|]. assert (0 < s * s * (x * x)) by (apply Rmult_lt_0_compat; nra). assert (0 <= (1 - s * s) * (c * c)) by (apply Rmult_le_pos; nra). lra. }
  rewrite <- (Rpower_sq D a PD). unfold phi1. fold s. rewrite <- (Rpower_sq x a Px), <- (Rpower_sq c a Pc).
  apply (Rpower_convex (s * s) (x * x) (c * c) (D * D) a); try nra.
Qed.
Lemma wmod_far z : Rabs (snd z) <= r -> x <= big_x (Rabs (fst z)) -> wmod z <= l * cosh (Rabs (fst z)) * phi2 (big_x (Rabs (fst z))).
Proof using Hl Hr Hs Ha.
  intros Hz HX. apply wmod_le. assert (Px := l_x). assert (Pr := l_cr).
  assert (H0 : 0 <= sinh (Rabs (fst z))) by (rewrite <- sinh_abs; apply Rabs_pos).
  assert (Hu := proj1 (Rabs_le_between _ _) Hz).
  assert (Hcu : cos r <= cos (snd z)).
  { replace (cos (snd z)) with (cos (Rabs (snd z))) by (unfold Rabs; destruct (Rcase_abs (snd z)); [apply cos_neg|reflexivity]).
    destruct (Req_dec (Rabs (snd z)) r) as [->|Hn]; [lra|]. left. apply cos_decreasing_1; try lra. apply Rabs_pos. }
  set (D := Cmod (ccosh (lsinh l z))).
  assert (HD : sinh (big_x (Rabs (fst z))) <= D).
  { eapply Rle_trans; [|apply ccosh_ge_sinh]. rewrite lsinh_fst, sinh_abs. apply sinh_le. rewrite !Rabs_mult, (Rabs_pos_eq l), (Rabs_pos_eq (cos (snd z))), sinh_abs by lra.
    unfold big_x. replace (l * cos r * sinh (Rabs (fst z))) with (l * sinh (Rabs (fst z)) * cos r) by ring. apply Rmult_le_compat_l; nra. }
  assert (HT := sinh_tail x (big_x (Rabs (fst z))) ltac:(lra)). assert (Psx := sinh_pos x Px).
  set (d := big_x (Rabs (fst z)) - x) in *.
  assert (Pe := exp_pos d).
  eapply Rle_trans; [apply (Rpower_anti (sinh x * exp d)); [split; nra|lra]|].
  unfold phi2. fold d. right. unfold Rpower. rewrite ln_mult, ln_exp by assumption. rewrite <- exp_plus. f_equal. ring.
Qed.
(** antiderivatives *)
Definition Phi1 (X : R) : R := X * X * X / (3 * x * x) * Rpower x (- (2 * a)) + (X - X * X * X / (3 * x * x)) * Rpower c (- (2 * a)).
Definition Phi2 (X : R) : R := - (phi2 X / (2 * a)).
Lemma Phi1_der t : is_derive (fun t => / cos r * Phi1 (big_x t)) t (l * cosh t * phi1 (big_x t)).
Proof using Hl Hr Hs Ha.
  assert (Px := l_x). assert (Pr := l_cr). unfold Phi1, phi1, big_x.
  assert (Hd : is_derive sinh t (cosh t)) by (apply is_derive_Reals, derivable_pt_lim_sinh).
  assert (Ed := is_derive_unique _ _ _ Hd).
  generalize (Rpower x (- (2 * a))) (Rpower c (- (2 * a))). intros u v. revert Hd Ed. generalize sinh (cosh t). intros sh ch Hd Ed.
  auto_derive; [repeat split; now exists ch|]. change (Derive.Derive (fun x : R => sh x) t) with (Derive.Derive sh t). rewrite Ed. field. lra.
Qed.
Lemma Phi2_der t : is_derive (fun t => / cos r * Phi2 (big_x t)) t (l * cosh t * phi2 (big_x t)).
Proof using Hl Hr Hs Ha.
  assert (Px := l_x). assert (Pr := l_cr). unfold Phi2, phi2, big_x.
  assert (Hd : is_derive sinh t (cosh t)) by (apply is_derive_Reals, derivable_pt_lim_sinh).
  assert (Ed := is_derive_unique _ _ _ Hd).
  generalize (Rpower (sinh x) (- (2 * a))). intros u. revert Hd Ed. generalize sinh (cosh t). intros sh ch Hd Ed.
  auto_derive; [repeat split; now exists ch|]. change (Derive.Derive (fun x : R => sh x) t) with (Derive.Derive sh t). rewrite Ed. unfold Rminus. field. lra.
Qed.
Lemma big_x_le s t : s <= t -> big_x s <= big_x t.
Proof using Hl Hr. intro H. unfold big_x. assert (Pr := l_cr). apply Rmult_le_compat_l; [nra|now apply sinh_le]. Qed.
Lemma big_x_0 : big_x 0 = 0.
Proof. unfold big_x. rewrite sinh_0. ring. Qed.
Lemma cont_1 t : continuous (fun t => l * cosh t * phi1 (big_x t)) t.
Proof using Hl Hr Hs.
  assert (Px := l_x). apply (ex_derive_continuous (V := R_NormedModule)). unfold phi1, big_x, cosh, sinh. auto_derive. lra.
Qed.
Lemma cont_2 t : continuous (fun t => l * cosh t * phi2 (big_x t)) t.
Proof using Hl Hr Hs. apply (ex_derive_continuous (V := R_NormedModule)). unfold phi2, big_x, cosh, sinh. auto_derive. trivial. Qed.
Definition half_bound : R := / cos r * (x / 3 * (2 * Rpower c (- (2 * a)) + Rpower x (- (2 * a))) + Rpower (sinh x) (- (2 * a)) / (2 * a)).
Lemma half_int b L : (forall t, continuous b t) -> (forall t, 0 <= t -> 0 <= b t) ->
  (forall t, 0 <= t -> big_x t <= x -> b t <= l * cosh t * phi1 (big_x t)) -> (forall t, 0 <= t -> x <= big_x t -> b t <= l * cosh t * phi2 (big_x t)) ->
  0 <= L -> RInt b 0 L <= half_bound.
Proof using Hl Hr Hs Ha.
  intros Hc Hp H1 H2 HL. assert (Px := l_x). assert (Pr := l_cr).
  set (T := arcsinh (x / (l * cos r))).
  assert (ET : big_x T = x) by (unfold big_x, T; rewrite sinh_arcsinh; field; split; lra).
  assert (HT : 0 <= T).
  { destruct (Rle_lt_dec 0 T) as [H|H]; [exact H|]. assert (H' := big_x_le T 0 ltac:(lra)). rewrite ET, big_x_0 in H'. lra. }
  set (M := Rmax L T). assert (HM1 : L <= M) by apply Rmax_l. assert (HM2 : T <= M) by apply Rmax_r.
  assert (Hex : forall u v, ex_RInt b u v) by (intros; apply (ex_RInt_continuous (V := R_CompleteNormedModule)); intros; apply Hc).
  assert (C1 : RInt b 0 M = RInt b 0 L + RInt b L M) by (rewrite <- (RInt_Chasles (V := R_CompleteNormedModule) b 0 L M) by apply Hex; reflexivity).
  assert (C2 : RInt b 0 M = RInt b 0 T + RInt b T M) by (rewrite <- (RInt_Chasles (V := R_CompleteNormedModule) b 0 T M) by apply Hex; reflexivity).
  assert (P1 : 0 <= RInt b L M). { apply RInt_ge_0; [exact HM1|apply Hex|]. intros t Ht. apply Hp. lra. }
  assert (I1 : is_RInt (fun t => l * cosh t * phi1 (big_x t)) 0 T (/ cos r * Phi1 (big_x T) - / cos r * Phi1 (big_x 0))).
  { apply (is_RInt_derive (V := R_CompleteNormedModule) (fun t => / cos r * Phi1 (big_x t))); intros t _; [apply Phi1_der|apply cont_1]. }
  assert (I2 : is_RInt (fun t => l * cosh t * phi2 (big_x t)) T M (/ cos r * Phi2 (big_x M) - / cos r * Phi2 (big_x T))).
  { apply (is_RInt_derive (V := R_CompleteNormedModule) (fun t => / cos r * Phi2 (big_x t))); intros t _; [apply Phi2_der|apply cont_2]. }
  assert (B1 : RInt b 0 T <= / cos r * Phi1 (big_x T) - / cos r * Phi1 (big_x 0)).
  { rewrite <- (is_RInt_unique _ _ _ _ I1). apply RInt_le; [exact HT|apply Hex|eexists; exact I1|].
    intros t Ht. apply H1; [lra|]. rewrite <- ET. apply big_x_le. lra. }
  assert (B2 : RInt b T M <= / cos r * Phi2 (big_x M) - / cos r * Phi2 (big_x T)).
  { rewrite <- (is_RInt_unique _ _ _ _ I2). apply RInt_le; [exact HM2|apply Hex|eexists; exact I2|].
    intros t Ht. apply H2; [lra|]. rewrite <- ET at 1. apply big_x_le. lra. }
  rewrite ET, big_x_0 in B1. rewrite ET in B2.
  assert (E1 : Phi1 0 = 0) by (unfold Phi1; field; lra).
  assert (E2 : Phi1 x = x / 3 * (2 * Rpower c (- (2 * a)) + Rpower x (- (2 * a)))) by (unfold Phi1; field; lra).
  assert (E3 : Phi2 x = - (Rpower (sinh x) (- (2 * a)) / (2 * a))).
  { unfold Phi2, phi2. replace (- (2 * a * (x - x))) with 0 by ring. rewrite exp_0. field. lra. }
  assert (E4 : Phi2 (big_x M) <= 0).
  { unfold Phi2, phi2. assert (0 <= Rpower (sinh x) (- (2 * a)) * exp (- (2 * a * (big_x M - x))) / (2 * a)); [|lra].
    apply Rdiv_le_0_compat; [|lra]. apply Rmult_le_pos; left; [apply Rpower_pos|apply exp_pos]. }
  rewrite E1, E2 in B1. rewrite E3 in B2.
  assert (Hi : 0 < / cos r) by (apply Rinv_0_lt_compat; exact Pr).
  assert (E5 : / cos r * Phi2 (big_x M) <= 0) by nra. unfold half_bound. rewrite Rmult_plus_distr_l.
  lra.
Qed.
(** comparison with the published constant *)
Lemma half_published : 2 * half_bound <= 4 / 3 * B_r l r a.
Proof using Hl Hr Hs Ha.
  assert (Px := l_x). assert (Pr := l_cr). assert (Pc := l_c). unfold half_bound, B_r. fold x. fold c. rewrite !Rpower_Ropp, Rinv_mult by (try lra; apply Rgt_not_eq, Rpower_pos).
  replace (2 / cos r) with (2 * / cos r) by reflexivity.
  assert (Q1 := Rinv_0_lt_compat _ (Rpower_pos c (2 * a))). assert (Q2 := Rinv_0_lt_compat _ (Rpower_pos x (2 * a))). assert (Q3 := Rinv_0_lt_compat _ (Rpower_pos (sinh x) (2 * a))).
  assert (Q4 := Rinv_0_lt_compat _ Pr).
  set (u := / Rpower c (2 * a)) in *. set (v := / Rpower x (2 * a)) in *. set (w := / Rpower (sinh x) (2 * a)) in *.
  assert (E : 2 * (/ cos r * (x / 3 * (2 * u + v) + w / (2 * a))) <= 2 * / cos r * (4 / 3 * (x / 2 * (u + v) + / (2 * a) * w))).
  { rewrite <- Rmult_assoc. apply Rmult_le_compat_l; [lra|].
    assert (0 <= x * v) by nra. assert (Q5 : 0 <= w / (2 * a)) by (apply Rdiv_le_0_compat; lra). unfold Rdiv in *. lra. }
  eapply Rle_trans; [exact E|]. right. ring.
Qed.
End Line.

(** ** The weight as a holomorphic function *)
Lemma lsinh_holo l z : holo (lsinh l) (fun z => RtoC l * ccosh z)%C z.
Proof.
  unfold lsinh. eapply holo_eq; [apply holo_scal, holo_sinh, holo_id|]. intro w. cbv beta. ring.
Qed.
Lemma real_drift L q t : (forall s, holo L q (s, 0)) -> (forall s, snd (q (s, 0)) = 0) -> snd (L (t, 0)) = snd (L (0, 0)).
Proof.
  intros HL Hq. assert (H := cint_ftc (fun s => L (s, 0)) (fun s => q (s, 0)) 0 t). cbv beta in H.
  destruct H as [_ H].
  { intros s _. destruct (HL s) as (D1 & _ & _ & Cq). split; [exact D1|exact (cont2_x q (s, 0) Cq)]. }
  cbn [snd Cminus Cplus Copp] in H.
  apply (is_RInt_ext _ (fun _ => 0)) in H; [|intros s _; apply Hq].
  assert (H' := is_RInt_const (V := R_NormedModule) 0 t 0). apply (is_RInt_unique (V := R_CompleteNormedModule)) in H, H'. rewrite H in H'. change (snd (L (t, 0)) + - snd (L (0, 0)) = (t - 0) * 0) in H'. lra.
Qed.
Lemma ccosh_real t : ccosh (t, 0) = RtoC (cosh t).
Proof. unfold ccosh, RtoC. cbn [fst snd]. rewrite cos_0, sin_0. f_equal; ring. Qed.
Lemma csinh_real t : csinh (t, 0) = RtoC (sinh t).
Proof. unfold csinh, RtoC. cbn [fst snd]. rewrite cos_0, sin_0. f_equal; ring. Qed.
Lemma ccosh_R t : ccosh (RtoC t) = RtoC (cosh t).
Proof. exact (ccosh_real t). Qed.
Lemma csinh_R t : csinh (RtoC t) = RtoC (sinh t).
Proof. exact (csinh_real t). Qed.
Lemma lsinh_real l t : lsinh l (t, 0) = RtoC (l * sinh t).
Proof. unfold lsinh. rewrite csinh_real. now rewrite RtoC_mult. Qed.
Lemma weight_holo l r0 a : 0 < l -> 0 < r0 <= PI / 2 -> l * sin r0 <= PI / 2 ->
  exists W, analytic (strip r0) W /\ (forall z, strip r0 z -> Cmod (W z) = wmod l a z) /\ forall t, W (t, 0) = RtoC (SpecDe.weight l a t).
Proof.
  intros Hl Hr Hs.
  set (h := fun z => ccosh (lsinh l z)). set (h' := fun z => (csinh (lsinh l z) * (RtoC l * ccosh z))%C).
  assert (Hh : forall z, strip r0 z -> holo h h' z) by (intros z _; apply holo_cosh, lsinh_holo).
  assert (Hh' : exists h'', forall z, strip r0 z -> holo h' h'' z).
  { eexists. intros z _. apply holo_mult; [apply holo_sinh, lsinh_holo|apply holo_scal, holo_cosh, holo_id]. }
  destruct Hh' as (h'' & Hh').
  assert (Hn : forall z, strip r0 z -> h z <> RtoC 0) by (intros z Hz; apply (strip_nonzero l r0); tauto).
  destruct (logarithm r0 h h' h'' ltac:(lra) Hh Hh' Hn) as (L & HL & EL).
  assert (S0 : forall t, strip r0 (t, 0)) by (intro t; unfold strip; cbn [snd]; rewrite Rabs_R0; lra).
  assert (Er : forall z, strip r0 z -> fst (L z) = ln (Cmod (h z))) by (intros z Hz; rewrite <- (EL z Hz), Cmod_cexp, ln_exp; reflexivity).
  assert (Eh : forall t, h (t, 0) = RtoC (cosh (l * sinh t))) by (intro t; unfold h; now rewrite lsinh_real, ccosh_R).
  assert (E0 : fst (L (0, 0)) = 0).
  { rewrite Er by apply S0. rewrite Eh, sinh_0, Rmult_0_r, cosh_0, Cmod_R, Rabs_R1. apply ln_1. }
  set (p := RtoC (- (2 * a))).
  exists (fun z => RtoC l * ccosh z * cexp (p * (L z + - L (0, 0)%R)))%C. split; [|split].
  - apply analytic_mult.
    + apply analytic_scal. exists (fun z => csinh z * RtoC 1)%C. intros z _. apply (holo_cosh (fun z => z) (fun _ => RtoC 1)), holo_id.
    + apply analytic_exp, analytic_scal. apply analytic_plus; [|exact (analytic_const _ (- L (0, 0)%R)%C)]. eexists. exact HL.
  - intros z Hz. rewrite !Cmod_mult, Cmod_cexp, Cmod_R, Rabs_pos_eq by lra. unfold wmod. f_equal. unfold Rpower. f_equal.
    unfold p. cbn [fst snd Cmult Cplus Copp RtoC]. rewrite Er, E0 by exact Hz. unfold h. ring.
  - intro t.
    assert (Ei : snd (L (t, 0)) = snd (L (0, 0))).
    { apply (real_drift L (fun z => h' z * / h z)%C); [intro s; apply HL, S0|].
      intro s. unfold h'. rewrite Eh, lsinh_real, ccosh_real, csinh_R. rewrite <- !RtoC_mult, <- RtoC_inv by (assert (H := ProofDe2.cosh_pos (l * sinh s)); lra). rewrite <- RtoC_mult. reflexivity. }
    assert (EL' : (L (t, 0)%R + - L (0, 0)%R)%C = RtoC (ln (cosh (l * sinh t)))).
    { apply injective_projections; cbn [fst snd Cplus Copp RtoC].
      - rewrite E0, Er, Eh, Cmod_R, Rabs_pos_eq by (try apply S0; left; apply ProofDe2.cosh_pos). ring.
      - rewrite Ei. ring. }
    rewrite EL', ccosh_real. unfold p. rewrite <- !RtoC_mult. unfold SpecDe.weight.
    assert (Ec : forall q, cexp (RtoC q) = RtoC (exp q)) by (intro q; unfold cexp, RtoC; cbn [fst snd]; rewrite cos_0, sin_0; f_equal; ring).
    rewrite Ec, <- !RtoC_mult. f_equal. unfold Rdiv. f_equal. rewrite <- Rpower_Ropp. reflexivity.
Qed.
Lemma wider l r : 1 <= l -> 0 < r < PI / 2 -> l * sin r < PI / 2 -> exists r1, r < r1 <= PI / 2 /\ l * sin r1 <= PI / 2.
Proof.
  intros Hl Hr Hs. set (d := Rmin (PI / 2 - r) ((PI / 2 - l * sin r) / l)).
  assert (P : 0 < (PI / 2 - l * sin r) / l) by (apply Rdiv_lt_0_compat; lra).
  assert (Hd : 0 < d) by (apply Rmin_glb_lt; lra). assert (H1 : d <= PI / 2 - r) by apply Rmin_l. assert (H2 : d <= (PI / 2 - l * sin r) / l) by apply Rmin_r.
  exists (r + d). split; [lra|]. 
  destruct (MVT_cor2 sin cos r (r + d) ltac:(lra) (fun c _ => derivable_pt_lim_sin c)) as (c1 & E1 & _).
  assert (B := COS_bound c1). apply Rle_div_r in H2; [|lra]. assert (cos c1 * d <= d) by nra. nra.
Qed.
