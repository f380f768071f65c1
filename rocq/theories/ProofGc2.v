(** A configuration for which the ellipse chosen contains branch points. *)
From Coq Require Import Reals Lra Lia.
From Coquelicot Require Import Coquelicot.
From Verif Require Import CArg ModelGc SpecGc ProofDe2 ProofDe3 ProofGc.
Local Open Scope R_scope.

Definition R0 : R := 3 / 2.
Definition A0 : R := 3 / 2 * exp (- (1 / 3)).
Definition r0 : R := cosh R0.
Definition P0 : Z := 64.
(** the radius of the two far points makes the majorant equal to A0 - 1 *)
Definition far : R := r0 + 2 * PI * r0 ^ 2 * Rpower 2 64 * exp (1 - A0).
(** +-i s with half sum x *)
Definition point (x : R) : C := (0, sqrt (x * x - 1)).
Definition points : list C := [point r0; Copp (point r0); point far; Copp (point far)].

Lemma half_sum_point x : 1 <= x -> half_sum (point x) = x /\ half_sum (Copp (point x)) = x.
Proof.
  intro H. assert (1 * 1 <= x * x) by (apply Rmult_le_compat; lra).
  assert (Q : forall a b, a * a = 1 -> b * b = x * x - 1 -> Cmod (a, b) = x).
  { intros a b Ea Eb. unfold Cmod. cbn [fst snd]. replace (a ^ 2 + b ^ 2) with (x * x).
    - apply sqrt_square. lra.
    - cbn. rewrite !Rmult_1_r, Ea, Eb. ring. }
  assert (S := sqrt_sqrt (x * x - 1)). set (s := sqrt (x * x - 1)) in *.
  unfold half_sum, point, Cminus, Cplus, Copp, RtoC. cbn [fst snd]. fold s.
  rewrite !Q; try lra; try ring_simplify (s + - 0); try ring_simplify (s + 0); try (rewrite <- S by lra; ring); ring.
Qed.
Lemma exp3 : 18 / 13 < exp (1 / 3) < 3 / 2.
Proof.
  assert (E : exp (1 / 3) = exp (1 / 24) ^ 8).
  { rewrite <- Rpower_pow by apply exp_pos. unfold Rpower. rewrite ln_exp. f_equal. cbn [INR]. field. }
  split.
  - rewrite E. assert (H := exp_ineq1_le (1 / 24)).
    apply Rlt_le_trans with ((1 + 1 / 24) ^ 8); [lra|]. apply pow_incr. lra.
  - assert (H := exp_ineq1_le (- (1 / 3))). rewrite exp_Ropp in H. assert (H1 := exp_pos (1 / 3)).
    assert (H2 : / exp (1 / 3) * exp (1 / 3) = 1) by (field; lra).
    (* sharper: exp(-1/3) = exp(-1/9)^3 >= (8/9)^3 *)
    assert (E3 : exp (- (1 / 3)) = exp (- (1 / 9)) ^ 3).
    { rewrite <- Rpower_pow by apply exp_pos. unfold Rpower. rewrite ln_exp. f_equal. cbn [INR]. field. }
    assert (H3 := exp_ineq1_le (- (1 / 9))).
    assert (H4 : (8 / 9) ^ 3 <= exp (- (1 / 3))) by (rewrite E3; apply pow_incr; lra).
    rewrite exp_Ropp in H4.
    assert (H5 : (8 / 9) ^ 3 * exp (1 / 3) <= / exp (1 / 3) * exp (1 / 3)) by (apply Rmult_le_compat_r; lra).
    rewrite H2 in H5. lra.
Qed.
Lemma A0_range : 105 / 100 < A0 < 13 / 12.
Proof.
  unfold A0. rewrite exp_Ropp. destruct exp3 as [E1 E2]. set (t := exp (1 / 3)) in *.
  assert (Ht : / t * t = 1) by (field; lra).
  assert (/ t < 13 / 18).
  { apply (Rmult_lt_reg_r t); [lra|]. rewrite Ht. lra. }
  assert (E3 : exp (- (1 / 3)) = exp (- (1 / 9)) ^ 3).
  { rewrite <- Rpower_pow by apply exp_pos. unfold Rpower. rewrite ln_exp. f_equal. cbn [INR]. field. }
  assert (H3 := exp_ineq1_le (- (1 / 9))).
  assert (H4 : (8 / 9) ^ 3 <= exp (- (1 / 3))) by (rewrite E3; apply pow_incr; lra).
  rewrite exp_Ropp in H4. fold t in H4. lra.
Qed.
Lemma r0_gt_1 : 1 < r0.
Proof. unfold r0, R0. rewrite <- cosh_0. apply cosh_lt. lra. Qed.
Lemma acosh_r0 : acosh r0 = R0.
Proof. apply acosh_cosh. unfold R0. lra. Qed.

Definition eps0 : R := R0 / (A0 - 1 / 3).
Definition r1 : R := cosh (R0 * (1 - eps0)).
Lemma eps0_range : 2 < eps0 < 21 / 10.
Proof.
  assert (HA := A0_range). unfold eps0, R0. split; [apply Rlt_div_r; lra|].
  apply Rlt_div_l; lra.
Qed.
Lemma r1_range : r0 < r1 < r0 + 1.
Proof.
  assert (He := eps0_range). unfold r1, r0.
  replace (cosh (R0 * (1 - eps0))) with (cosh (R0 * (eps0 - 1))).
  2:{ rewrite <- cosh_Ropp. f_equal. ring. }
  assert (Hb : R0 < R0 * (eps0 - 1) < 165 / 100) by (unfold R0; lra).
  set (b := R0 * (eps0 - 1)) in *. split; [apply cosh_lt; unfold R0 in *; lra|].
  destruct (MVT_cor2 cosh sinh R0 b (proj1 Hb)) as (c & E & Hc).
  { intros c _. apply derivable_pt_lim_cosh. }
  assert (Hs : sinh c < 9 / 2).
  { unfold sinh. assert (E2 : exp c < exp 2) by (apply exp_increasing; lra).
    assert (E9 : exp 2 <= 9).
    { replace 2 with (1 + 1) by ring. rewrite exp_plus. assert (X := exp_le_3). assert (Y := exp_pos 1).
      assert (exp 1 * exp 1 <= 3 * 3) by (apply Rmult_le_compat; lra). lra. }
    assert (Z := exp_pos (- c)). lra. }
  assert (Hd : b - R0 < 15 / 100) by (unfold R0 in *; lra).
  assert (Hs0 : 0 < sinh c) by (apply ProofDe.sinh_pos; unfold R0 in *; lra).
  assert (sinh c * (b - R0) <= 9 / 2 * (15 / 100)) by (apply Rmult_le_compat; lra). lra.
Qed.
Lemma far_gap : 2 < far - r0.
Proof.
  unfold far. assert (H := r0_gt_1). assert (HP := PI2_3_2). assert (HA := A0_range).
  assert (H1 : 1 / 2 <= exp (1 - A0)).
  { assert (E := exp_ineq1_le (1 - A0)). lra. }
  assert (H2 : 2 <= Rpower 2 64).
  { rewrite <- (Rpower_1 2) at 1 by lra. apply Rle_Rpower; lra. }
  assert (H3 : 1 <= r0 ^ 2) by (cbn; assert (1 * 1 <= r0 * r0) by (apply Rmult_le_compat; lra); lra).
  set (b := r0 ^ 2) in *. set (c := Rpower 2 64) in *. set (e := exp (1 - A0)) in *.
  assert (X1 : 6 * 1 <= 2 * PI * b) by (apply Rmult_le_compat; lra).
  assert (X2 : 6 * 2 <= 2 * PI * b * c) by (apply Rmult_le_compat; lra).
  assert (X3 : 12 * (1 / 2) <= 2 * PI * b * c * e) by (apply Rmult_le_compat; lra).
  lra.
Qed.

Lemma points_r : vec_r points = Done [r0; r0; far; far].
Proof.
  assert (H := r0_gt_1). assert (HF := far_gap).
  destruct (half_sum_point r0) as [E1 E2]; [lra|]. destruct (half_sum_point far) as [E3 E4]; [lra|].
  rewrite vec_r_done.
  - unfold points. cbn [map]. now rewrite E1, E2, E3, E4.
  - unfold points. repeat constructor; lra.
Qed.
Lemma rad0 : Rabs (2 / IZR P0) = 1 / 32.
Proof. unfold P0. rewrite Rabs_pos_eq; lra. Qed.
Lemma M0 : m0_of 2 P0 r0 - ln ((far - r0) * (far - r0)) / 2 = A0 - 1.
Proof.
  assert (HF := far_gap). assert (HP := PI_RGT_0). assert (H := r0_gt_1).
  rewrite ln_mult by lra. replace ((ln (far - r0) + ln (far - r0)) / 2) with (ln (far - r0)) by field.
  replace (far - r0) with (2 * PI * r0 ^ 2 * Rpower 2 64 * exp (1 - A0)) by (unfold far; ring).
  assert (H3 : 0 < r0 ^ 2) by (apply pow_lt; lra).
  assert (H4 := ProofDe.Rpower_pos 2 64). assert (H5 := exp_pos (1 - A0)).
  assert (H6 : 0 < 2 * PI * r0 ^ 2) by (apply Rmult_lt_0_compat; lra).
  assert (H7 : 0 < 2 * PI * r0 ^ 2 * Rpower 2 64) by (apply Rmult_lt_0_compat; lra).
  rewrite ln_mult by lra. rewrite ln_exp.
  replace (m0_of 2 P0 r0) with (ln (exp (m0_of 2 P0 r0))) by apply ln_exp.
  rewrite exp_m0 by lra. unfold P0. lra.
Qed.
Lemma loop0 : gc_loop 2 (m0_of 2 P0 r0) r0 r0 (Rabs (2 / IZR P0)) [r0; r0; far; far]
  = Done (r1, m0_of 2 P0 r0 - ln ((r1 - r0) * (r1 - r0) * ((far - r1) * (far - r1))) / 2).
Proof.
  assert (HF := far_gap). assert (H1 := r1_range). assert (HA := A0_range).
  rewrite rad0. cbn [gc_loop]. unfold maj_yr at 1. cbn [maj_prod].
  replace (r0 - r0) with 0 by ring. rewrite Rabs_R0.
  destruct (Rle_dec 0 (1 / 32)) as [_|]; [|lra].
  rewrite (Rabs_pos_eq (far - r0)) by lra. destruct (Rle_dec (far - r0) (1 / 32)) as [|_]; [lra|].
  rewrite Rmult_1_l.
  destruct (Rlt_dec 0 ((far - r0) * (far - r0))) as [_|N];
    [|exfalso; apply N; apply Rmult_lt_0_compat; lra].
  rewrite M0. unfold choose_r. rewrite acosh_r0. cbn [INR].
  replace (1 + 2 * (A0 - 1) / (1 + 1)) with A0 by field.
  destruct (Rlt_dec A0 0) as [|_]; [lra|]. destruct (Req_EM_T A0 0) as [|_]; [lra|].
  replace (A0 + ln (A0 / R0)) with (A0 - 1 / 3).
  2:{ replace (A0 / R0) with (exp (- (1 / 3))) by (unfold A0, R0; field). rewrite ln_exp. ring. }
  destruct (Req_EM_T (A0 - 1 / 3) 0) as [|_]; [lra|]. cbn [bind]. fold eps0. fold r1.
  unfold maj_yr. cbn [maj_prod].
  rewrite (Rabs_left (r0 - r1)) by lra. destruct (Rle_dec (- (r0 - r1)) 0) as [|_]; [lra|].
  rewrite (Rabs_pos_eq (far - r1)) by lra. destruct (Rle_dec (far - r1) 0) as [|_]; [lra|].
  replace (1 * (r0 - r1) * (r0 - r1) * (far - r1) * (far - r1))
    with ((r1 - r0) * (r1 - r0) * ((far - r1) * (far - r1))) by ring.
  destruct (Rlt_dec 0 _) as [_|N]; [easy|]. exfalso. apply N.
  apply Rmult_lt_0_compat; apply Rmult_lt_0_compat; lra.
Qed.
Lemma m_final : 0 < m0_of 2 P0 r0 - ln ((r1 - r0) * (r1 - r0) * ((far - r1) * (far - r1))) / 2.
Proof.
  assert (HF := far_gap). assert (H1 := r1_range). assert (HA := A0_range). assert (HM := M0).
  assert (L : ln ((r1 - r0) * (r1 - r0) * ((far - r1) * (far - r1))) <= ln ((far - r0) * (far - r0))); [|lra].
  assert (X : 0 < (r1 - r0) * (r1 - r0) * ((far - r1) * (far - r1)))
    by (apply Rmult_lt_0_compat; apply Rmult_lt_0_compat; lra).
  apply ln_le'; [easy|].
  assert (Y1 : (r1 - r0) * (r1 - r0) <= 1 * 1) by (apply Rmult_le_compat; lra).
  assert (Y2 : (far - r1) * (far - r1) <= (far - r0) * (far - r0)) by (apply Rmult_le_compat; lra).
  assert (Y3 : 0 < (far - r1) * (far - r1)) by (apply Rmult_lt_0_compat; lra).
  assert (Y4 : 0 < (r1 - r0) * (r1 - r0)) by (apply Rmult_lt_0_compat; lra).
  rewrite <- (Rmult_1_l ((far - r0) * (far - r0))). apply Rmult_le_compat; lra.
Qed.
Lemma contains : exists n e r, gc_params 2 points 2 64 = Done (n, Some e, r) /\ (0 < n)%Z /\
  half_sum (point r0) < r.
Proof.
  unfold gc_params. rewrite points_r. cbn [bind]. assert (H1 := r1_range). assert (HF := far_gap).
  assert (E : min_r [r0; far; far] r0 = r0).
  { cbn. destruct (Rlt_dec r0 r0); [lra|]. destruct (Rlt_dec far r0); [lra|].
    destruct (Rlt_dec far r0); lra. }
  rewrite E. fold (m0_of 2 64 r0). change (Z.eqb 64 0) with false. cbv iota.
  change 64%Z with P0. rewrite loop0. cbn [bind].
  set (m := m0_of 2 P0 r0 - _). assert (Hm : 0 < m) by apply m_final.
  assert (Hr := r0_gt_1). assert (Hac := acosh_pos r1). destruct (Req_EM_T (acosh r1) 0); [lra|].
  set (y := m / acosh r1 / 2). set (nn := (- Int_part (- y))%Z).
  assert (Hy : 0 < y) by (unfold y; apply Rdiv_lt_0_compat; [apply Rdiv_lt_0_compat; lra|lra]).
  assert (Hn : 0 < IZR nn).
  { destruct (base_Int_part (- y)) as [I1 I2]. unfold nn. rewrite opp_IZR. lra. }
  assert (Hx : 0 < acosh r1 * IZR (2 * nn)).
  { rewrite mult_IZR. apply Rmult_lt_0_compat; lra. }
  apply exp_increasing in Hx. rewrite exp_0 in Hx.
  destruct (Req_EM_T (exp (acosh r1 * IZR (2 * nn)) - 1) 0); [lra|].
  eexists nn, _, r1. split; [reflexivity|]. split; [now apply lt_IZR|].
  destruct (half_sum_point r0) as [-> _]; lra.
Qed.
