(** Argument and principal roots of complex numbers. *)
From Verif Require Export CBase.
Local Open Scope R_scope.

(** Arb's acb_arg on exact numbers: arg 0 = 0, values in ]-pi, pi] *)
Definition carg (z : C) : R :=
  let x := fst z in let y := snd z in
  if Rlt_dec 0 x then atan (y / x)
  else if Rlt_dec x 0 then (if Rle_dec 0 y then atan (y / x) + PI else atan (y / x) - PI)
  else if Rlt_dec 0 y then PI / 2
  else if Rlt_dec y 0 then - (PI / 2) else 0.

(** Arb's acb_root_ui on exact numbers: principal root, the root of 0 being 0 *)
Definition rroot (m : Z) (r : R) : R := if Rlt_dec 0 r then Rpower r (/ IZR m) else 0.
Definition croot (m : Z) (z : C) : C := (RtoC (rroot m (Cmod z)) * cis (carg z / IZR m))%C.

Lemma polar_pos x y : 0 < x ->
  let r := sqrt (x ^ 2 + y ^ 2) in r * cos (atan (y / x)) = x /\ r * sin (atan (y / x)) = y.
Proof.
  intros Hx r.
  assert (Er : r = x * sqrt (1 + Rsqr (y / x))).
  { unfold r. replace (x ^ 2 + y ^ 2) with (x * x * (1 + Rsqr (y / x))) by (unfold Rsqr; field; lra).
    rewrite sqrt_mult_alt by nra. rewrite sqrt_square by lra. reflexivity. }
  assert (Hs : 0 < sqrt (1 + Rsqr (y / x))).
  { apply sqrt_lt_R0. pose proof (Rle_0_sqr (y / x)). lra. }
  rewrite cos_atan, sin_atan, Er. split; field; lra.
Qed.

Lemma carg_polar z : z = (RtoC (Cmod z) * cis (carg z))%C.
Proof.
  destruct z as [x y]. unfold carg. cbn [fst snd]. unfold Cmod, RtoC, cis, Cmult. cbn [fst snd].
  set (r := sqrt (x ^ 2 + y ^ 2)).
  assert (E0 : forall t, r * cos t = x -> r * sin t = y ->
     (x, y) = (r * cos t - 0 * sin t, r * sin t + 0 * cos t)).
  { intros t H1 H2. f_equal; lra. }
  apply E0; clear E0.
  - destruct (Rlt_dec 0 x) as [H|H].
    + apply (polar_pos x y H).
    + destruct (Rlt_dec x 0) as [H1|H1].
      * assert (Hp : 0 < - x) by lra. destruct (polar_pos (- x) (- y) Hp) as [A B].
        replace (- y / - x) with (y / x) in A, B by (field; lra).
        replace ((- x) ^ 2 + (- y) ^ 2) with (x ^ 2 + y ^ 2) in A, B by ring. fold r in A, B.
        destruct (Rle_dec 0 y).
        -- rewrite neg_cos. lra.
        -- replace (atan (y / x) - PI) with (- (PI - atan (y / x))) by ring. rewrite cos_neg.
           replace (PI - atan (y / x)) with (- atan (y / x) + PI) by ring. rewrite neg_cos, cos_neg. lra.
      * assert (x = 0) by lra. subst x.
        destruct (Rlt_dec 0 y); [rewrite cos_PI2; ring|].
        destruct (Rlt_dec y 0); [rewrite cos_neg, cos_PI2; ring|].
        assert (y = 0) by lra. subst y. unfold r. replace (0 ^ 2 + 0 ^ 2) with 0 by ring. rewrite sqrt_0. ring.
  - destruct (Rlt_dec 0 x) as [H|H].
    + apply (polar_pos x y H).
    + destruct (Rlt_dec x 0) as [H1|H1].
      * assert (Hp : 0 < - x) by lra. destruct (polar_pos (- x) (- y) Hp) as [A B].
        replace (- y / - x) with (y / x) in A, B by (field; lra).
        replace ((- x) ^ 2 + (- y) ^ 2) with (x ^ 2 + y ^ 2) in A, B by ring. fold r in A, B.
        destruct (Rle_dec 0 y).
        -- rewrite neg_sin. lra.
        -- replace (atan (y / x) - PI) with (- (PI - atan (y / x))) by ring. rewrite sin_neg, sin_PI_x. lra.
      * assert (x = 0) by lra. subst x.
        assert (Er : r = Rabs y).
        { unfold r. replace (0 ^ 2 + y ^ 2) with (Rsqr y) by (unfold Rsqr; ring). apply sqrt_Rsqr_abs. }
        rewrite Er.
        destruct (Rlt_dec 0 y). { rewrite sin_PI2, Rabs_right by lra. ring. }
        destruct (Rlt_dec y 0).
        { rewrite sin_neg, sin_PI2, Rabs_left by lra. ring. }
        assert (y = 0) by lra. subst y. rewrite sin_0. ring.
Qed.

Lemma carg_range z : - PI < carg z <= PI.
Proof.
  destruct z as [x y]. unfold carg. cbn [fst snd]. pose proof PI_RGT_0 as Hpi.
  pose proof (atan_bound (y / x)) as Hb.
  destruct (Rlt_dec 0 x); [lra|]. destruct (Rlt_dec x 0) as [Hx|Hx].
  - destruct (Rle_dec 0 y) as [Hy|Hy].
    + assert (atan (y / x) <= 0); [|lra].
      rewrite <- atan_0. destruct (Req_dec y 0) as [->|Hy0]; [unfold Rdiv; rewrite Rmult_0_l; lra|].
      left. apply atan_increasing. unfold Rdiv. assert (/ x < 0) by (apply Rinv_lt_0_compat; exact Hx). nra.
    + assert (0 < atan (y / x)); [|lra].
      rewrite <- atan_0. apply atan_increasing. unfold Rdiv. assert (/ x < 0) by (apply Rinv_lt_0_compat; exact Hx). nra.
  - destruct (Rlt_dec 0 y); [lra|]. destruct (Rlt_dec y 0); lra.
Qed.

(** ** uniqueness *)
Lemma cis_1_integer t : cis t = RtoC 1 -> exists k : Z, t = 2 * PI * IZR k.
Proof.
  intros E. unfold cis, RtoC in E. injection E as Ec Es.
  assert (Hh : sin (t / 2) = 0).
  { pose proof (cos_2a_sin (t / 2)) as H. replace (2 * (t / 2)) with t in H by field. nra. }
  destruct (sin_eq_0_0 _ Hh) as [k Hk]. exists k. lra.
Qed.
Lemma cis_eq a b : cis a = cis b -> exists k : Z, a = b + 2 * PI * IZR k.
Proof.
  intros E. assert (H : cis (a - b) = RtoC 1).
  { unfold Rminus. rewrite Rplus_comm, cis_add, E. apply cis_opp. }
  destruct (cis_1_integer _ H) as [k Hk]. exists k. lra.
Qed.
Lemma cis_mod t : Cmod (cis t) = 1.
Proof. unfold Cmod, cis. cbn [fst snd]. replace (cos t ^ 2 + sin t ^ 2) with 1; [apply sqrt_1|]. pose proof (sin2_cos2 t) as H. unfold Rsqr in H. lra. Qed.
Lemma cis_neq_0 t : cis t <> RtoC 0.
Proof. intros E. pose proof (cis_mod t) as H. rewrite E, Cmod_0 in H. lra. Qed.
Lemma cis_PI : cis PI = RtoC (-1).
Proof. unfold cis, RtoC. rewrite cos_PI, sin_PI. reflexivity. Qed.

Lemma carg_unique z r t : 0 < r -> - PI < t <= PI -> z = (RtoC r * cis t)%C -> carg z = t.
Proof.
  intros Hr Ht E. pose proof PI_RGT_0 as Hpi.
  assert (Em : Cmod z = r). { rewrite E, Cmod_mult, cis_mod, Cmod_R, Rabs_right by lra. ring. }
  pose proof (carg_polar z) as E2. rewrite Em in E2. rewrite E in E2 at 1.
  assert (Hr0 : RtoC r <> RtoC 0) by (intros H; injection H; lra).
  assert (E3 : cis t = cis (carg z)).
  { replace (cis t) with ((RtoC r * cis t) / RtoC r)%C by (field; exact Hr0). rewrite E2. field. exact Hr0. }
  destruct (cis_eq _ _ E3) as [k Hk]. pose proof (carg_range z) as Hz.
  assert (k = 0)%Z as ->.
  { assert (-1 < IZR k < 1) as [H1 H2] by (split; nra). apply lt_IZR in H1. apply lt_IZR in H2. lia. }
  lra.
Qed.

(** ** roots *)
Lemma rroot_nonneg m r : 0 <= rroot m r.
Proof. unfold rroot. destruct (Rlt_dec 0 r); [|lra]. unfold Rpower. left. apply exp_pos. Qed.
Lemma rroot_pos m r : 0 < r -> 0 < rroot m r.
Proof. intros H. unfold rroot. destruct (Rlt_dec 0 r); [|lra]. unfold Rpower. apply exp_pos. Qed.
Lemma rroot_pow m r : (0 < m)%nat -> 0 <= r -> rroot (Z.of_nat m) r ^ m = r.
Proof.
  intros Hm Hr. unfold rroot. destruct (Rlt_dec 0 r) as [H|H].
  - rewrite <- Rpower_pow by (unfold Rpower; apply exp_pos). rewrite Rpower_mult.
    rewrite INR_IZR_INZ, Rinv_l; [apply Rpower_1, H|]. apply not_0_IZR. lia.
  - rewrite pow_ne_zero by lia. lra.
Qed.
Lemma cpow_RtoC r n : cpow (RtoC r) n = RtoC (r ^ n).
Proof. induction n as [|n IH]; cbn [cpow pow]; [reflexivity|]. rewrite IH, <- RtoC_mult. f_equal. ring. Qed.

Lemma croot_pow m z : (0 < m)%nat -> cpow (croot (Z.of_nat m) z) m = z.
Proof.
  intros Hm. unfold croot. rewrite cpow_mul, cpow_RtoC, cis_cpow, rroot_pow by (try assumption; apply Cmod_ge_0).
  replace (INR m * (carg z / IZR (Z.of_nat m))) with (carg z).
  - symmetry. apply carg_polar.
  - rewrite INR_IZR_INZ. field. apply not_0_IZR. lia.
Qed.
Lemma croot_mod m z : Cmod (croot m z) = rroot m (Cmod z).
Proof. unfold croot. rewrite Cmod_mult, cis_mod, Cmod_R, Rabs_right by (apply Rle_ge, rroot_nonneg). ring. Qed.

Lemma cpow_neq_0 z n : z <> RtoC 0 -> cpow z n <> RtoC 0.
Proof.
  intros H. induction n as [|n IH]; cbn [cpow].
  - intros E. injection E. lra.
  - intros E.
    assert (Hm : Cmod (cpow z n * z)%C = 0) by (rewrite E; apply Cmod_0).
    rewrite Cmod_mult in Hm. apply Rmult_integral in Hm. destruct Hm as [Hm|Hm]; apply Cmod_eq_0 in Hm; contradiction.
Qed.
Lemma Cmult_neq_0' a b : a <> RtoC 0 -> b <> RtoC 0 -> (a * b)%C <> RtoC 0.
Proof.
  intros Ha Hb E. assert (Hm : Cmod (a * b)%C = 0) by (rewrite E; apply Cmod_0).
  rewrite Cmod_mult in Hm. apply Rmult_integral in Hm. destruct Hm as [Hm|Hm]; apply Cmod_eq_0 in Hm; contradiction.
Qed.
Lemma cpow_mod z n : Cmod (cpow z n) = Cmod z ^ n.
Proof. induction n as [|n IH]; cbn [cpow pow]; [apply Cmod_1|]. rewrite Cmod_mult, IH. ring. Qed.
