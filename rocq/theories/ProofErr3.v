(** The inverse square root of u - cos t is approximable on the ellipses avoiding u. *)
From Coq Require Import Reals Lra Lia List.
From Coquelicot Require Import Coquelicot.
From Verif Require Import CArg SpecGc ProofGauss ProofGc ProofErr1 ProofErr2.
Import ListNotations.
Local Open Scope R_scope.

(** ** Continuity by components *)
Definition ccont (f : R -> C) (t : R) : Prop :=
  continuous (fun t => fst (f t)) t /\ continuous (fun t => snd (f t)) t.
Lemma ccont_const c t : ccont (fun _ => c) t.
Proof. split; apply continuous_const. Qed.
Lemma cont_plus (f g : R -> R) t : continuous f t -> continuous g t -> continuous (fun t => f t + g t) t.
Proof. intros. now apply (continuous_plus f g). Qed.
Lemma cont_mult (f g : R -> R) t : continuous f t -> continuous g t -> continuous (fun t => f t * g t) t.
Proof. intros. now apply (continuous_mult f g). Qed.
Lemma cont_opp (f : R -> R) t : continuous f t -> continuous (fun t => - f t) t.
Proof. intros. now apply (continuous_opp f). Qed.
Lemma ccont_plus f g t : ccont f t -> ccont g t -> ccont (fun t => f t + g t)%C t.
Proof. intros [F1 F2] [G1 G2]. split; cbn [fst snd Cplus]; now apply cont_plus. Qed.
Lemma ccont_mult f g t : ccont f t -> ccont g t -> ccont (fun t => f t * g t)%C t.
Proof.
  intros [F1 F2] [G1 G2]. split; cbn [fst snd Cmult].
  - apply (cont_plus (fun t => fst (f t) * fst (g t)) (fun t => - (snd (f t) * snd (g t)))).
    + now apply cont_mult.
    + apply cont_opp. now apply cont_mult.
  - apply (cont_plus (fun t => fst (f t) * snd (g t)) (fun t => snd (f t) * fst (g t))); now apply cont_mult.
Qed.
Lemma ccont_R (f : R -> R) t : continuous f t -> ccont (fun t => RtoC (f t)) t.
Proof. intro H. split; cbn [fst snd RtoC]; [exact H|apply continuous_const]. Qed.
Lemma cont_cos a t : continuous (fun t => cos (a * t)) t.
Proof. apply (ex_derive_continuous (fun t => cos (a * t))). auto_derive. exact I. Qed.
Lemma ceval_cont l t : ccont (ceval l) t.
Proof.
  induction l as [|p l IH].
  - apply (ccont_const (RtoC 0)).
  - apply (ccont_plus (term p) (ceval l)); [|exact IH]. unfold term.
    apply (ccont_mult (fun _ => fst p)); [apply ccont_const|]. apply ccont_R, cont_cos.
Qed.

(** ** Double sums as cosine polynomials *)
Lemma ceval_tab n (g : nat -> list (C * Z)) t : ceval (flat_map g (seq 0 n)) t = csum n (fun p => ceval (g p) t).
Proof.
  induction n as [|n IH]; [reflexivity|]. rewrite seq_S, flat_map_app, ceval_app, IH. cbn [flat_map csum Nat.add].
  now rewrite app_nil_r.
Qed.
Lemma weight_tab eta n (g : nat -> list (C * Z)) : weight eta (flat_map g (seq 0 n)) = rsum n (fun p => weight eta (g p)).
Proof.
  induction n as [|n IH]; [reflexivity|]. rewrite seq_S, flat_map_app, weight_app, IH. cbn [flat_map rsum Nat.add].
  now rewrite app_nil_r.
Qed.
Lemma rsum_swap n k (f : nat -> nat -> R) : rsum n (fun i => rsum k (f i)) = rsum k (fun j => rsum n (fun i => f i j)).
Proof.
  induction n as [|n IH]; cbn [rsum].
  - symmetry. assert (E : rsum k (fun _ => 0) = 0) by (induction k as [|k IHk]; cbn [rsum]; [easy|rewrite IHk; ring]). exact E.
  - rewrite IH, rsum_add. reflexivity.
Qed.
Definition square (kap iw : C) (N : nat) : list (C * Z) :=
  flat_map (fun p => flat_map (fun q =>
    [(kap * (RtoC (coef p * coef q) * cpow iw (p + q)), (Z.of_nat p - Z.of_nat q)%Z)]%C) (seq 0 N)) (seq 0 N).
Lemma cpow_cis t p : cpow (cis t) p = cis (INR p * t).
Proof. apply cis_cpow. Qed.
Lemma cis_pm x : (cis x + cis (- x))%C = (RtoC 2 * RtoC (cos x))%C.
Proof. unfold cis, Cplus, Cmult, RtoC. cbn [fst snd]. rewrite cos_neg, sin_neg. f_equal; ring. Qed.
Lemma square_eval kap iw N t : ceval (square kap iw N) t = (kap * (psum N (cis t * iw) * psum N (cis (- t) * iw)))%C.
Proof.
  unfold square. rewrite ceval_tab.
  rewrite (csum_ext N _ (fun p => csum N (fun q => kap * (RtoC (coef p * coef q)%R * cpow iw (p + q)) * RtoC (cos ((INR p - INR q) * t)%R))%C)).
  2:{ intros p _. rewrite ceval_tab. apply csum_ext. intros q _. unfold ceval, term. cbn [fold_right fst snd].
      rewrite minus_IZR, <- !INR_IZR_INZ. ring. }
  set (f p q := (RtoC (coef p * coef q)%R * cpow iw (p + q) * cis ((INR p - INR q) * t)%R)%C).
  assert (E : forall x y, (psum N (cis x * iw) * psum N (cis y * iw))%C = csum N (fun p => csum N (fun q =>
     RtoC (coef p * coef q)%R * cpow iw (p + q) * cis (INR p * x + INR q * y)%R)%C)).
  { intros x y. unfold psum. rewrite csum_prod. apply csum_ext. intros p _. apply csum_ext. intros q _.
    rewrite !cpow_mul, !cpow_cis, cpow_add, cis_add, RtoC_mult. ring. }
  assert (E1 : (psum N (cis t * iw) * psum N (cis (- t) * iw))%C = csum N (fun p => csum N (fun q => f p q))).
  { rewrite E. apply csum_ext. intros p _. apply csum_ext. intros q _. unfold f. do 2 f_equal. ring. }
  assert (E2 : csum N (fun p => csum N (fun q => f p q)) = csum N (fun p => csum N (fun q => f q p))).
  { apply (csum_swap N N (fun p q => f p q)). }
  assert (N2 : RtoC 2 <> RtoC 0) by (intro H; apply (f_equal fst) in H; cbn in H; lra).
  assert (E3 : (psum N (cis t * iw) * psum N (cis (- t) * iw))%C =
    csum N (fun p => csum N (fun q => (RtoC (coef p * coef q)%R * cpow iw (p + q) * RtoC (cos ((INR p - INR q) * t)%R))%C))).
  { transitivity (RtoC (/ 2) * (csum N (fun p => csum N (fun q => f p q)) + csum N (fun p => csum N (fun q => f q p))))%C.
    - rewrite <- E2, E1. set (X := csum N _). transitivity (RtoC (/ 2 + / 2) * X)%C.
      + replace (/ 2 + / 2) with 1 by field. ring.
      + rewrite RtoC_plus. ring.
    - rewrite <- csum_add, <- csum_scal. apply csum_ext. intros p _. rewrite <- csum_add, <- csum_scal.
      apply csum_ext. intros q _. unfold f.
      replace ((INR q - INR p) * t)%R with (- ((INR p - INR q) * t))%R by ring.
      rewrite (Rmult_comm (coef q)), (Nat.add_comm q).
      transitivity (RtoC (/ 2) * (RtoC (coef p * coef q)%R * cpow iw (p + q) * (cis ((INR p - INR q) * t) + cis (- ((INR p - INR q) * t)))))%C; [ring|].
      rewrite cis_pm, RtoC_inv by lra. field. easy. }
  rewrite E3, <- csum_scal. apply csum_ext. intros p _. rewrite <- csum_scal. apply csum_ext. intros q _. ring.
Qed.
Lemma square_weight eta kap iw N : weight eta (square kap iw N) =
  Cmod kap * (rpsum N (exp eta * Cmod iw) * rpsum N (exp (- eta) * Cmod iw)).
Proof.
  unfold square. rewrite weight_tab. set (s := Cmod iw).
  rewrite (rsum_ext N _ (fun p => rsum N (fun q => Cmod kap * (coef p * coef q * s ^ (p + q) * cosh ((INR p - INR q) * eta))))).
  2:{ intros p _. rewrite weight_tab. apply rsum_ext. intros q _. unfold weight. cbn [fold_right fst snd].
      rewrite !Cmod_mult, cpow_mod, Cmod_R, Rabs_pos_eq.
      - rewrite minus_IZR, <- !INR_IZR_INZ. fold s. ring.
      - apply Rmult_le_pos; left; apply coef_pos. }
  set (f p q := coef p * coef q * s ^ (p + q) * exp ((INR p - INR q) * eta)).
  assert (P : forall p x, exp x ^ p = exp (INR p * x)).
  { intros p x. induction p as [|p IH]; [cbn; rewrite Rmult_0_l, exp_0; easy|].
    rewrite <- tech_pow_Rmult, IH, <- exp_plus, S_INR. f_equal. ring. }
  assert (E1 : rpsum N (exp eta * s) * rpsum N (exp (- eta) * s) = rsum N (fun p => rsum N (fun q => f p q))).
  { unfold rpsum. rewrite rsum_prod. apply rsum_ext. intros p _. apply rsum_ext. intros q _. unfold f.
    rewrite !Rpow_mult_distr, !P, pow_add.
    replace ((INR p - INR q) * eta) with (INR p * eta + INR q * - eta) by ring. rewrite exp_plus. ring. }
  assert (E2 : rsum N (fun p => rsum N (fun q => f p q)) = rsum N (fun p => rsum N (fun q => f q p))).
  { apply (rsum_swap N N (fun p q => f p q)). }
  assert (E3 : rpsum N (exp eta * s) * rpsum N (exp (- eta) * s) =
    / 2 * (rsum N (fun p => rsum N (fun q => f p q)) + rsum N (fun p => rsum N (fun q => f q p)))).
  { rewrite <- E2, E1. field. }
  rewrite E3, <- rsum_add, <- !rsum_scal. apply rsum_ext. intros p _. rewrite <- rsum_add, <- !rsum_scal.
  apply rsum_ext. intros q _. unfold f, cosh.
  replace ((INR q - INR p) * eta) with (- ((INR p - INR q) * eta)) by ring.
  rewrite (Nat.add_comm q). field.
Qed.

(** ** Choice of the root *)
Lemma sign_choice (q : R -> C) d : (forall t, ccont q t) -> d < 1 ->
  (forall t, 0 <= t <= PI -> Cmod (q t * q t - RtoC 1)%C <= d) ->
  exists sg, (sg = RtoC 1 \/ sg = RtoC (-1)) /\ forall t, 0 <= t <= PI -> Cmod (sg * q t - RtoC 1)%C <= d.
Proof.
  intros Hc Hd Hq. assert (HPI := PI_RGT_0).
  assert (NZ : forall t, 0 <= t <= PI -> fst (q t) <> 0).
  { intros t Ht E. specialize (Hq t Ht). assert (H : Rabs (fst (q t * q t - RtoC 1)%C) <= d).
    { eapply Rle_trans; [apply Rmax_l|]. eapply Rle_trans; [apply Rmax_Cmod|exact Hq]. }
    destruct (q t) as [a b]. cbn in E, H. subst a. replace (0 * 0 - b * b + - (1)) with (- (b * b + 1)) in H by ring.
    rewrite Rabs_Ropp in H. assert (H1 := Rle_0_sqr b). unfold Rsqr in H1. rewrite Rabs_pos_eq in H by lra. lra. }
  assert (SG : forall t, 0 <= t <= PI -> 0 < fst (q 0) * fst (q t)).
  { intros t Ht. apply Rnot_le_lt. intro L.
    destruct (IVT_cor (fun t => fst (q t)) 0 t) as (z & Hz & Ez); [|lra|exact L|].
    - intro x. apply continuity_pt_filterlim. apply Hc.
    - apply (NZ z); [lra|easy]. }
  assert (K : forall v, 0 < fst v -> Cmod (v * v - RtoC 1)%C <= d -> Cmod (v - RtoC 1)%C <= d).
  { intros v Hv H. replace (v * v - RtoC 1)%C with ((v - RtoC 1) * (v + RtoC 1))%C in H by ring.
    rewrite Cmod_mult in H. assert (H1 : 1 <= Cmod (v + RtoC 1)%C).
    { eapply Rle_trans; [|apply Rmax_Cmod]. eapply Rle_trans; [|apply Rmax_l]. destruct v as [a b]. cbn in *. rewrite Rabs_pos_eq; lra. }
    assert (H2 := Cmod_ge_0 (v - RtoC 1)%C).
    assert (H3 : Cmod (v - RtoC 1)%C * 1 <= Cmod (v - RtoC 1)%C * Cmod (v + RtoC 1)%C) by (apply Rmult_le_compat_l; lra). lra. }
  destruct (Rlt_dec 0 (fst (q 0))) as [P|P].
  - exists (RtoC 1). split; [now left|]. intros t Ht. rewrite Cmult_1_l. apply K; [|now apply Hq].
    specialize (SG t Ht). apply (Rmult_lt_reg_l (fst (q 0))); lra.
  - exists (RtoC (-1)). split; [now right|]. intros t Ht. apply K.
    + specialize (SG t Ht). assert (N0 := NZ 0). unfold Cmult, RtoC. cbn [fst snd]. rewrite Rmult_0_l.
      assert (fst (q t) < 0); [|lra]. apply Rnot_le_lt. intro L.
      assert (H : 0 <= - fst (q 0) * fst (q t)) by (apply Rmult_le_pos; lra). lra.
    + replace (RtoC (-1) * q t * (RtoC (-1) * q t) - RtoC 1)%C with (q t * q t - RtoC 1)%C.
      * now apply Hq.
      * replace (RtoC (-1)) with (- RtoC 1)%C by (rewrite <- RtoC_opp; reflexivity). ring.
Qed.

(** ** The inverse square root *)
Lemma half_sum_real x : -1 <= x <= 1 -> half_sum (RtoC x) = 1.
Proof.
  intro H. unfold half_sum. rewrite <- RtoC_minus, <- RtoC_plus, !Cmod_R.
  rewrite Rabs_left1, Rabs_pos_eq by lra. field.
Qed.
Lemma approx_root eta u (F : R -> C) sg : 0 <= eta -> cosh eta < half_sum u -> Cmod sg = 1 ->
  (forall t, ccont F t) -> (forall t, (F t * F t = sg * (u - RtoC (cos t)))%C) ->
  approx eta (fun t => / F t)%C (/ sqrt (half_sum u - cosh eta)).
Proof.
  intros He Hu Hsg HcF HF eps Heps.
  assert (Hu1 : 1 < half_sum u) by (assert (H := cosh_ge_1 eta); lra).
  destruct (joukowski u Hu1) as (w & Hw & Ew & Hw1 & Hh).
  set (iw := (/ w)%C). set (s := Cmod iw).
  assert (Es : s = / Cmod w) by (unfold s, iw; now apply Cmod_inv).
  assert (Hs : 0 < s < 1).
  { rewrite Es. split; [apply Rinv_0_lt_compat; lra|]. rewrite <- Rinv_1. apply Rinv_lt_contravar; lra. }
  assert (N2 : RtoC 2 <> RtoC 0) by (intro H; apply (f_equal fst) in H; cbn in H; lra).
  assert (Nsg : sg <> RtoC 0) by (intro H; rewrite H, Cmod_0 in Hsg; lra).
  set (kap := croot 2 (RtoC 2 / (sg * w))%C).
  assert (Ek : (kap * kap)%C = (RtoC 2 / (sg * w))%C).
  { assert (H := croot_pow 2 (RtoC 2 / (sg * w))%C ltac:(lia)). cbn [cpow] in H. change (Z.of_nat 2) with 2%Z in H.
    unfold kap. rewrite <- H at 3. ring. }
  assert (Mk : Cmod kap * Cmod kap = 2 * s).
  { rewrite <- Cmod_mult, Ek, Cmod_div by (now apply Cmult_neq_0'). rewrite Cmod_mult, Hsg, Cmod_R, Rabs_pos_eq by lra.
    rewrite Es. field. lra. }
  (* |F| is bounded below *)
  assert (HFm : forall t, half_sum u - 1 <= Cmod (F t) * Cmod (F t)).
  { intro t. rewrite <- Cmod_mult, HF, Cmod_mult, Hsg, Rmult_1_l.
    replace 1 with (half_sum (RtoC (cos t))) by (apply half_sum_real, COS_bound).
    replace (u - RtoC (cos t))%C with (- (RtoC (cos t) - u))%C by ring. rewrite Cmod_opp. apply half_sum_dist. }
  set (c := sqrt (half_sum u - 1)).
  assert (Hc : 0 < c) by (apply sqrt_lt_R0; lra).
  assert (HFc : forall t, c <= Cmod (F t)).
  { intro t. unfold c. rewrite <- (sqrt_square (Cmod (F t))) by apply Cmod_ge_0. apply sqrt_le_1_alt, HFm. }
  (* size of the remainder *)
  set (D := Rmin (/ 2) (eps * c)).
  assert (HD : 0 < D) by (unfold D; apply Rmin_glb_lt; [lra|now apply Rmult_lt_0_compat]).
  destruct (pow_lt_1_zero s) with (y := D * (1 - s) / 9) as (N & HN).
  { rewrite Rabs_pos_eq; lra. }
  { apply Rdiv_lt_0_compat; [apply Rmult_lt_0_compat; lra|lra]. }
  specialize (HN N (le_n _)). rewrite Rabs_pos_eq in HN by (apply pow_le; lra).
  set (del := 3 * s ^ N / (1 - s)).
  assert (Hdel : 0 <= del /\ 3 * del <= D).
  { assert (0 <= s ^ N) by (apply pow_le; lra). unfold del. split.
    - apply Rmult_le_pos; [lra|]. left. apply Rinv_0_lt_compat. lra.
    - apply (Rmult_le_reg_r (1 - s)); [lra|]. field_simplify; lra. }
  assert (HD2 : D <= / 2) by apply Rmin_l.
  assert (HD3 : D <= eps * c) by apply Rmin_r.
  set (l := square kap iw N).
  assert (Hq2 : forall t, 0 <= t <= PI -> Cmod (ceval l t * F t * (ceval l t * F t) - RtoC 1)%C <= D).
  { intros t _. unfold l. rewrite square_eval.
    set (z := (cis t * iw)%C). set (z' := (cis (- t) * iw)%C).
    assert (Mz : Cmod z = s) by (unfold z; rewrite Cmod_mult, cis_mod, Rmult_1_l; easy).
    assert (Mz' : Cmod z' = s) by (unfold z'; rewrite Cmod_mult, cis_mod, Rmult_1_l; easy).
    set (A := psum N z). set (A' := psum N z').
    assert (B := psum_sqr N z). assert (B' := psum_sqr N z'). fold A in B. fold A' in B'. rewrite Mz in B. rewrite Mz' in B'.
    fold del in B, B'. specialize (B (proj2 Hs)). specialize (B' (proj2 Hs)).
    set (d := ((RtoC 1 - z) * (A * A) - RtoC 1)%C) in *. set (d' := ((RtoC 1 - z') * (A' * A') - RtoC 1)%C) in *.
    assert (EF : (sg * (u - RtoC (cos t)))%C = (sg * w / RtoC 2 * ((RtoC 1 - z) * (RtoC 1 - z')))%C).
    { assert (Eu : u = ((w + iw) / RtoC 2)%C) by (unfold iw; rewrite <- Ew; field; easy).
      assert (Ec : RtoC (cos t) = ((cis t + cis (- t)) / RtoC 2)%C) by (rewrite cis_pm; field; easy).
      assert (Eo := cis_opp t). rewrite Eu, Ec. unfold z, z'.
      transitivity (sg * w / RtoC 2 * (RtoC 1 - (cis t + cis (- t)) * iw + (cis (- t) * cis t) * iw * iw))%C; [|ring].
      rewrite Eo. unfold iw. field. easy. }
    replace (kap * (A * A') * F t * (kap * (A * A') * F t) - RtoC 1)%C with (d * d' + (d + d'))%C.
    - eapply Rle_trans; [apply Cmod_triangle|]. assert (T := Cmod_triangle d d'). rewrite Cmod_mult.
      assert (P1 := Cmod_ge_0 d). assert (P2 := Cmod_ge_0 d').
      assert (Q : Cmod d * Cmod d' <= del * 1) by (apply Rmult_le_compat; lra). lra.
    - transitivity (kap * kap * (F t * F t) * (A * A * (A' * A')) - RtoC 1)%C; [|ring].
      rewrite HF, EF, Ek. unfold d, d'. field. split; [easy|]. split; easy. }
  destruct (sign_choice (fun t => ceval l t * F t)%C D) as (sq & Hsq & Hq).
  { intro t. apply ccont_mult; [apply ceval_cont|apply HcF]. }
  { lra. }
  { exact Hq2. }
  assert (Msq : Cmod sq = 1). { destruct Hsq as [-> | ->]; [apply Cmod_1|rewrite Cmod_R, Rabs_left by lra; ring]. }
  exists (square (sq * kap)%C iw N). split.
  - rewrite square_weight, Cmod_mult, Msq, Rmult_1_l.
    set (a := exp eta). assert (Ha : 1 <= a).
    { unfold a. destruct He as [He| <-]; [|rewrite exp_0; lra]. apply exp_increasing in He. rewrite exp_0 in He. lra. }
    rewrite exp_Ropp. fold a. fold s.
    assert (Ech : cosh eta = (a + / a) / 2) by (unfold cosh; rewrite exp_Ropp; reflexivity).
    assert (Hm : half_sum u = (/ s + s) / 2) by (rewrite Hh, Es, Rinv_inv; reflexivity).
    assert (Has : a * s < 1).
    { apply Rnot_le_lt. intro L. assert (L' : / s <= a).
      { apply (Rmult_le_reg_r s); [lra|]. rewrite Rinv_l; lra. }
      rewrite Ech, Hm in Hu. assert (Hs1 : 1 < / s) by (rewrite <- Rinv_1; apply Rinv_lt_contravar; lra).
      set (v := / s) in *. assert (Ev : s = / v) by (unfold v; now rewrite Rinv_inv). rewrite Ev in Hu.
      (* a + 1/a is increasing *)
      assert (H : 0 <= (a - v) * (1 - / (a * v))).
      { apply Rmult_le_pos; [lra|]. assert (1 <= a * v) by (replace 1 with (1 * 1) by ring; apply Rmult_le_compat; lra).
        assert (/ (a * v) <= / 1) by (apply Rinv_le_contravar; lra). rewrite Rinv_1 in H0. lra. }
      replace ((a - v) * (1 - / (a * v))) with ((a + / a) - (v + / v)) in H by (field; lra). lra. }
    assert (Has' : 0 < / a * s < 1).
    { assert (0 < / a <= 1). { split; [apply Rinv_0_lt_compat; lra|]. rewrite <- Rinv_1. apply Rinv_le_contravar; lra. }
      split; [apply Rmult_lt_0_compat; lra|]. assert (/ a * s <= 1 * s) by (apply Rmult_le_compat_r; lra). lra. }
    assert (Has0 : 0 < a * s) by (apply Rmult_lt_0_compat; lra).
    assert (B1 := rpsum_le N (a * s) (conj (Rlt_le _ _ Has0) Has)). assert (B2 := rpsum_le N (/ a * s) (conj (Rlt_le _ _ (proj1 Has')) (proj2 Has'))).
    assert (P1 := rpsum_pos N (a * s) (Rlt_le _ _ Has0)). assert (P2 := rpsum_pos N (/ a * s) (Rlt_le _ _ (proj1 Has'))).
    eapply Rle_trans; [apply Rmult_le_compat_l; [apply Cmod_ge_0|apply Rmult_le_compat; eassumption]|].
    rewrite <- (sqrt_square (Cmod kap)) by apply Cmod_ge_0. rewrite Mk. rewrite <- !sqrt_inv.
    rewrite <- sqrt_mult by (left; apply Rinv_0_lt_compat; lra).
    rewrite <- sqrt_mult.
    2:{ lra. }
    2:{ apply Rmult_le_pos; left; apply Rinv_0_lt_compat; lra. }
    apply Req_le. f_equal. rewrite Hm, Ech.
    replace ((/ s + s) / 2 - (a + / a) / 2) with ((1 - a * s) * (1 - / a * s) / (2 * s)) by (field; lra).
    set (X := 1 - a * s) in *. set (Y := 1 - / a * s) in *. assert (0 < X /\ 0 < Y) by (unfold X, Y; lra).
    field. lra.
  - intros t Ht. specialize (Hq t Ht). cbv beta in Hq.
    assert (El : ceval (square (sq * kap)%C iw N) t = (sq * ceval l t)%C) by (unfold l; rewrite !square_eval; ring).
    rewrite El. assert (HFt := HFc t). assert (NF : F t <> RtoC 0) by (intro E; rewrite E, Cmod_0 in HFt; lra).
    replace (/ F t - sq * ceval l t)%C with (- (sq * (ceval l t * F t) - RtoC 1) / F t)%C by (field; easy).
    rewrite Cmod_div, Cmod_opp by easy.
    apply (Rmult_le_reg_r (Cmod (F t))); [lra|]. unfold Rdiv. rewrite Rmult_assoc, Rinv_l, Rmult_1_r by lra.
    assert (eps * c <= eps * Cmod (F t)) by (apply Rmult_le_compat_l; lra). lra.
Qed.
