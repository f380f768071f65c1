(** Approximation by cosine polynomials with a bound on an ellipse. *)
From Coq Require Import Reals Lra Lia List.
From Coquelicot Require Import Coquelicot.
From Verif Require Import CArg SpecGc ProofGauss ProofGc ProofErr1.
Import ListNotations.
Local Open Scope R_scope.

(** ** Cosine polynomials *)
Definition term (p : C * Z) (t : R) : C := (fst p * RtoC (cos (IZR (snd p) * t)))%C.
Definition ceval (l : list (C * Z)) (t : R) : C := fold_right (fun p s => (term p t + s)%C) (RtoC 0) l.
Definition weight (eta : R) (l : list (C * Z)) : R :=
  fold_right (fun p s => Cmod (fst p) * cosh (IZR (snd p) * eta) + s) 0 l.
Lemma ceval_app l k t : ceval (l ++ k) t = (ceval l t + ceval k t)%C.
Proof. induction l as [|p l IH]; cbn [app ceval fold_right]; [unfold ceval; ring|]. unfold ceval in *. rewrite IH. ring. Qed.
Lemma weight_app eta l k : weight eta (l ++ k) = weight eta l + weight eta k.
Proof. induction l as [|p l IH]; cbn [app weight fold_right]; [unfold weight; ring|]. unfold weight in *. rewrite IH. ring. Qed.
Lemma cosh_ge_1 x : 1 <= cosh x.
Proof.
  destruct (Req_dec x 0) as [->|N]; [rewrite cosh_0; lra|].
  rewrite <- cosh_abs. assert (H : 0 < Rabs x) by now apply Rabs_pos_lt.
  assert (H1 := cosh_lt 0 (Rabs x)). rewrite cosh_0 in H1. lra.
Qed.
Lemma weight_pos eta l : 0 <= weight eta l.
Proof.
  induction l as [|p l IH]; cbn [weight fold_right]; [lra|]. fold (weight eta l).
  assert (H := cosh_ge_1 (IZR (snd p) * eta)). assert (H1 := Cmod_ge_0 (fst p)).
  assert (0 <= Cmod (fst p) * cosh (IZR (snd p) * eta)) by (apply Rmult_le_pos; lra). lra.
Qed.
Lemma cos_bound x : Rabs (cos x) <= 1.
Proof. apply Rabs_le, COS_bound. Qed.
Lemma ceval_bound eta l t : Cmod (ceval l t) <= weight eta l.
Proof.
  induction l as [|p l IH]; cbn [weight ceval fold_right]; [rewrite Cmod_0; lra|]. fold (weight eta l). fold (ceval l t).
  eapply Rle_trans; [apply Cmod_triangle|]. apply Rplus_le_compat; [|exact IH]. unfold term.
  rewrite Cmod_mult, Cmod_R. apply Rmult_le_compat_l; [apply Cmod_ge_0|].
  eapply Rle_trans; [apply cos_bound|apply cosh_ge_1].
Qed.
Definition pmul1 (a b : C * Z) : list (C * Z) :=
  [(fst a * fst b * RtoC (/ 2), (snd a + snd b)%Z); (fst a * fst b * RtoC (/ 2), (snd a - snd b)%Z)]%C.
Definition pmul (l k : list (C * Z)) : list (C * Z) := flat_map (fun a => flat_map (pmul1 a) k) l.
Lemma cosh_prod x y : cosh x * cosh y = / 2 * (cosh (x + y) + cosh (x - y)).
Proof.
  unfold cosh. unfold Rminus. rewrite !Ropp_plus_distr, Ropp_involutive, !exp_plus. field.
Qed.
Lemma cos_prod x y : cos x * cos y = / 2 * (cos (x + y) + cos (x - y)).
Proof. rewrite cos_plus, cos_minus. field. Qed.
Lemma pmul1_eval a b t : ceval (pmul1 a b) t = (term a t * term b t)%C.
Proof.
  destruct a as [a n], b as [b m]. unfold term. cbn [pmul1 ceval fold_right fst snd]. unfold term. cbn [fst snd].
  rewrite plus_IZR, minus_IZR.
  replace (a * RtoC (cos (IZR n * t)) * (b * RtoC (cos (IZR m * t))))%C
    with (a * b * RtoC (cos (IZR n * t) * cos (IZR m * t))%R)%C by (rewrite RtoC_mult; ring).
  rewrite cos_prod, RtoC_mult, RtoC_plus.
  replace ((IZR n + IZR m) * t) with (IZR n * t + IZR m * t) by ring.
  replace ((IZR n - IZR m) * t) with (IZR n * t - IZR m * t) by ring. ring.
Qed.
Lemma pmul1_weight eta a b : weight eta (pmul1 a b) = Cmod (fst a) * cosh (IZR (snd a) * eta) * (Cmod (fst b) * cosh (IZR (snd b) * eta)).
Proof.
  destruct a as [a n], b as [b m]. cbn [pmul1 weight fold_right fst snd].
  rewrite !Cmod_mult, Cmod_R, Rabs_pos_eq by lra. rewrite plus_IZR, minus_IZR.
  transitivity (Cmod a * Cmod b * (cosh (IZR n * eta) * cosh (IZR m * eta))); [|ring].
  rewrite cosh_prod.
  replace ((IZR n + IZR m) * eta) with (IZR n * eta + IZR m * eta) by ring.
  replace ((IZR n - IZR m) * eta) with (IZR n * eta - IZR m * eta) by ring. ring.
Qed.
Lemma pmul_row a k t eta : ceval (flat_map (pmul1 a) k) t = (term a t * ceval k t)%C /\
  weight eta (flat_map (pmul1 a) k) = Cmod (fst a) * cosh (IZR (snd a) * eta) * weight eta k.
Proof.
  induction k as [|b k [I1 I2]]; cbn [flat_map]; [cbn; split; ring|].
  rewrite ceval_app, weight_app, I1, I2, pmul1_eval, pmul1_weight. unfold ceval, weight. cbn [fold_right]. split; ring.
Qed.
Lemma pmul_eval l k t : ceval (pmul l k) t = (ceval l t * ceval k t)%C.
Proof.
  unfold pmul. induction l as [|a l IH]; cbn [flat_map]; [cbn; ring|].
  rewrite ceval_app, IH, (proj1 (pmul_row a k t 0)). change (ceval (a :: l) t) with (term a t + ceval l t)%C. ring.
Qed.
Lemma pmul_weight eta l k : weight eta (pmul l k) = weight eta l * weight eta k.
Proof.
  unfold pmul. induction l as [|a l IH]; cbn [flat_map]; [cbn; ring|].
  rewrite weight_app, IH, (proj2 (pmul_row a k 0 eta)). change (weight eta (a :: l)) with (Cmod (fst a) * cosh (IZR (snd a) * eta) + weight eta l). ring.
Qed.

(** ** Approximable functions of the angle *)
Definition approx (eta : R) (f : R -> C) (M : R) : Prop :=
  forall eps, 0 < eps -> exists l, weight eta l <= M /\ forall t, 0 <= t <= PI -> Cmod (f t - ceval l t)%C <= eps.
Lemma approx_ext eta f g M : (forall t, 0 <= t <= PI -> f t = g t) -> approx eta f M -> approx eta g M.
Proof. intros E H eps He. destruct (H eps He) as (l & H1 & H2). exists l. split; [easy|]. intros t Ht. rewrite <- E by easy. now apply H2. Qed.
Lemma Cmod_minus_le a b : Cmod (a - b)%C <= Cmod a + Cmod b.
Proof. unfold Cminus. eapply Rle_trans; [apply Cmod_triangle|]. rewrite Cmod_opp. lra. Qed.
Lemma approx_const eta c : approx eta (fun _ => c) (Cmod c).
Proof.
  intros eps He. exists [(c, 0%Z)]. unfold weight, ceval, term. cbn [fold_right fst snd]. split.
  - rewrite Rmult_0_l, cosh_0. lra.
  - intros t _. rewrite Rmult_0_l, cos_0. replace (c - (c * RtoC 1 + RtoC 0))%C with (RtoC 0) by ring. rewrite Cmod_0. lra.
Qed.
Lemma approx_cos eta : approx eta (fun t => RtoC (cos t)) (cosh eta).
Proof.
  intros eps He. exists [(RtoC 1, 1%Z)]. unfold weight, ceval, term. cbn [fold_right fst snd]. split.
  - rewrite Cmod_1, !Rmult_1_l. lra.
  - intros t _. rewrite Rmult_1_l. replace (RtoC (cos t) - (RtoC 1 * RtoC (cos t) + RtoC 0))%C with (RtoC 0) by ring. rewrite Cmod_0. lra.
Qed.
Lemma approx_mul eta f g M N : approx eta f M -> approx eta g N -> approx eta (fun t => f t * g t)%C (M * N).
Proof.
  intros Hf Hg eps He.
  assert (HM : 0 <= M). { destruct (Hf 1) as (l & H1 & _); [lra|]. assert (H := weight_pos eta l). lra. }
  assert (HN : 0 <= N). { destruct (Hg 1) as (l & H1 & _); [lra|]. assert (H := weight_pos eta l). lra. }
  set (d := Rmin 1 (eps / (M + N + 1))).
  assert (Hd : 0 < d).
  { unfold d. apply Rmin_glb_lt; [lra|]. apply Rdiv_lt_0_compat; lra. }
  assert (Hd1 : d <= 1) by apply Rmin_l.
  assert (Hd2 : d * (M + N + 1) <= eps).
  { apply Rle_trans with (eps / (M + N + 1) * (M + N + 1)).
    - apply Rmult_le_compat_r; [lra|apply Rmin_r].
    - apply Req_le. field. lra. }
  destruct (Hf d Hd) as (l & L1 & L2), (Hg d Hd) as (k & K1 & K2).
  exists (pmul l k). rewrite pmul_weight. split.
  - apply Rmult_le_compat; auto using weight_pos.
  - intros t Ht. rewrite pmul_eval. specialize (L2 t Ht). specialize (K2 t Ht).
    assert (B1 := ceval_bound eta l t). assert (B2 := ceval_bound eta k t).
    set (a := ceval l t) in *. set (b := ceval k t) in *.
    replace (f t * g t - a * b)%C with ((f t - a) * (g t - b) + ((f t - a) * b + a * (g t - b)))%C by ring.
    eapply Rle_trans; [apply Cmod_triangle|].
    assert (T := Cmod_triangle ((f t - a) * b)%C (a * (g t - b))%C).
    rewrite !Cmod_mult in *.
    assert (P1 := Cmod_ge_0 (f t - a)%C). assert (P2 := Cmod_ge_0 (g t - b)%C).
    assert (P3 := Cmod_ge_0 a). assert (P4 := Cmod_ge_0 b).
    assert (Q1 : Cmod (f t - a)%C * Cmod (g t - b)%C <= d * 1) by (apply Rmult_le_compat; lra).
    assert (Q2 : Cmod (f t - a)%C * Cmod b <= d * N) by (apply Rmult_le_compat; lra).
    assert (Q3 : Cmod a * Cmod (g t - b)%C <= M * d) by (apply Rmult_le_compat; lra).
    lra.
Qed.
Lemma approx_cospow eta l : approx eta (fun t => cpow (RtoC (cos t)) l) (cosh eta ^ l).
Proof.
  induction l as [|l IH]; cbn [cpow pow].
  - assert (H := approx_const eta (RtoC 1)). now rewrite Cmod_1 in H.
  - apply (approx_mul eta _ _ _ _ (approx_cos eta) IH) || (apply (approx_ext eta (fun t => RtoC (cos t) * cpow (RtoC (cos t)) l)%C); [intros; ring|]; apply (approx_mul eta _ _ _ _ (approx_cos eta) IH)).
Qed.

(** ** The coordinate w with 2 u = w + 1/w *)
Lemma joukowski u : 1 < half_sum u -> exists w, w <> RtoC 0 /\ (RtoC 2 * u = w + / w)%C /\ 1 < Cmod w /\
  half_sum u = (Cmod w + / Cmod w) / 2.
Proof.
  intro Hu. set (s := croot 2 (u * u - RtoC 1)%C).
  assert (Es : (s * s)%C = (u * u - RtoC 1)%C).
  { assert (H := croot_pow 2 (u * u - RtoC 1)%C ltac:(lia)). cbn [cpow] in H. unfold s. change (Z.of_nat 2) with 2%Z in H.
    rewrite <- H at 3. ring. }
  assert (C2 : RtoC 2 = (RtoC 1 + RtoC 1)%C) by (rewrite <- RtoC_plus; f_equal; ring).
  assert (Key : forall w w', (w * w')%C = RtoC 1 -> (w + w')%C = (RtoC 2 * u)%C ->
    w <> RtoC 0 /\ (RtoC 2 * u = w + / w)%C /\ half_sum u = (Cmod w + / Cmod w) / 2).
  { intros w w' H1 H2. assert (Hw : w <> RtoC 0).
    { intro E. rewrite E, Cmult_0_l in H1. apply (f_equal fst) in H1. cbn in H1. lra. }
    assert (Ew : w' = (/ w)%C).
    { replace w' with (/ w * (w * w'))%C by (field; easy). rewrite H1. ring. }
    split; [easy|]. split; [now rewrite <- H2, Ew|].
    assert (Hm : 0 < Cmod w) by now apply Cmod_gt_0.
    unfold half_sum.
    assert (E1 : (u - RtoC 1)%C = ((w - RtoC 1) * (w - RtoC 1) / (RtoC 2 * w))%C).
    { replace u with ((w + w') / RtoC 2)%C. 2:{ rewrite H2. field. intro E. apply (f_equal fst) in E. cbn in E. lra. }
      rewrite Ew, C2. field. split; [easy|]. intro E. apply (f_equal fst) in E. cbn in E. lra. }
    assert (E2 : (u + RtoC 1)%C = ((w + RtoC 1) * (w + RtoC 1) / (RtoC 2 * w))%C).
    { replace u with ((w + w') / RtoC 2)%C. 2:{ rewrite H2. field. intro E. apply (f_equal fst) in E. cbn in E. lra. }
      rewrite Ew, C2. field. split; [easy|]. intro E. apply (f_equal fst) in E. cbn in E. lra. }
    assert (N2 : (RtoC 2 * w)%C <> RtoC 0).
    { apply Cmult_neq_0'; [|easy]. intro E. apply (f_equal fst) in E. cbn in E. lra. }
    rewrite E1, E2, !Cmod_div, !Cmod_mult, Cmod_R, Rabs_pos_eq by (easy || lra).
    assert (S1 : forall z, Cmod z * Cmod z = fst z * fst z + snd z * snd z).
    { intro z. unfold Cmod. rewrite sqrt_sqrt; [ring|]. assert (A := pow2_ge_0 (fst z)). assert (B := pow2_ge_0 (snd z)). lra. }
    rewrite !S1. assert (S2 := S1 w). set (m := Cmod w) in *. destruct w as [x y].
    cbn [fst snd Cminus Cplus Copp RtoC] in *.
    transitivity (((x * x + y * y) + 1) / (2 * m)); [field; lra|]. rewrite <- S2. field. lra. }
  assert (Ha := Key (u + s)%C (u - s)%C). assert (Hb := Key (u - s)%C (u + s)%C).
  assert (P1 : ((u + s) * (u - s))%C = RtoC 1).
  { transitivity (u * u - s * s)%C; [ring|]. rewrite Es. ring. }
  assert (P2 : ((u - s) * (u + s))%C = RtoC 1) by (rewrite Cmult_comm; exact P1).
  assert (Q1 : (u + s + (u - s))%C = (RtoC 2 * u)%C) by (replace (RtoC 2) with (RtoC 1 + RtoC 1)%C by (rewrite <- RtoC_plus; f_equal; ring); ring).
  assert (Q2 : (u - s + (u + s))%C = (RtoC 2 * u)%C) by (rewrite <- Q1; ring).
  specialize (Ha P1 Q1). specialize (Hb P2 Q2).
  assert (Pm : Cmod (u + s)%C * Cmod (u - s)%C = 1) by (rewrite <- Cmod_mult, P1; apply Cmod_1).
  destruct Ha as (A1 & A2 & A3), Hb as (B1 & B2 & B3).
  apply Cmod_gt_0 in A1 as A1'. apply Cmod_gt_0 in B1 as B1'.
  set (a := Cmod (u + s)%C) in *. set (b := Cmod (u - s)%C) in *.
  destruct (Rlt_dec 1 a) as [L|L]; [now exists (u + s)%C|].
  exists (u - s)%C. split; [easy|]. split; [easy|]. split; [|easy]. fold b.
  apply Rnot_le_lt. intro Lb. assert (a = 1). { apply Rle_antisym; [lra|]. rewrite <- Pm. rewrite <- (Rmult_1_r a) at 2. apply Rmult_le_compat_l; lra. }
  rewrite H in A3. lra.
Qed.
