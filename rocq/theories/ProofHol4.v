(** The trapezoidal rule on a segment for functions holomorphic in a strip: error bound. *)
From Coq Require Import Reals Lra Lia.
From Coquelicot Require Import Coquelicot.
From Verif Require Import CArg SpecDe ProofGauss ProofErr1 ProofErr2 ProofErr3 ProofErr4 ProofErr5 ProofHol1 ProofHol2 ProofHol3.
Local Open Scope R_scope.

Definition node (h : R) (n k : nat) : R := IZR (Z.of_nat k - Z.of_nat n) * h.
Lemma fejer_chain h f n : 0 < h -> (forall t, Rabs t <= (INR n + / 2) * h -> ccont f t) -> forall p, (p <= 2 * n + 1)%nat -> forall e, 0 < e ->
  exists N0, (1 <= N0)%nat /\ forall N, (N0 <= N)%nat ->
    Cmod (CInt (fun t => f t * RtoC (fejer h N t))%C (- ((INR n + / 2) * h))%R (- ((INR n + / 2) * h) + INR p * h)%R
          - RtoC h * csum p (fun k => f (node h n k)))%C <= e.
Proof.
  intros Hh Hf. induction p as [|p IH]; intros Hp e He.
  - exists 1%nat. split; [lia|]. intros N HN. cbn [INR csum]. replace (- ((INR n + / 2) * h) + 0 * h) with (- ((INR n + / 2) * h)) by ring.
    rewrite (cint_unique _ _ _ (RtoC 0)).
    2:{ split; cbn [fst snd RtoC]; apply (is_RInt_point (V := R_NormedModule)). }
    replace (RtoC 0 - RtoC h * RtoC 0)%C with (RtoC 0) by ring. rewrite Cmod_0. lra.
  - destruct (IH ltac:(lia) (e / 2) ltac:(lra)) as (N1 & HN1 & H1).
    set (kk := (Z.of_nat p - Z.of_nat n)%Z).
    assert (Ek : IZR kk = INR p - INR n) by (unfold kk; rewrite minus_IZR, <- !INR_IZR_INZ; reflexivity).
    assert (Ea : - ((INR n + / 2) * h) + INR p * h = IZR kk * h - h / 2) by (rewrite Ek; field).
    assert (Eb : - ((INR n + / 2) * h) + INR (S p) * h = IZR kk * h + h / 2) by (rewrite Ek, S_INR; field).
    assert (Hp1 : 0 <= INR p <= 2 * INR n).
    { split; [apply pos_INR|]. assert (H := le_INR p (2 * n) ltac:(lia)). rewrite mult_INR in H. exact H. }
    assert (Hin : forall t, Rabs (t - IZR kk * h) <= h / 2 -> Rabs t <= (INR n + / 2) * h).
    { intros t Ht. apply Rabs_le_between in Ht. rewrite Ek in Ht. apply Rabs_le. nra. }
    destruct (fejer_limit h f kk (e / 2) Hh ltac:(lra) (fun t Ht => Hf t (Hin t Ht))) as (N2 & HN2 & H2).
    exists (Nat.max N1 N2). split; [lia|]. intros N HN. specialize (H1 N ltac:(lia)). specialize (H2 N ltac:(lia)).
    assert (Hc : forall t, Rabs t <= (INR n + / 2) * h -> ccont (fun t => f t * RtoC (fejer h N t))%C t).
    { intros t Ht. apply ccont_mult; [now apply Hf|]. apply ccont_R, fejer_cont. }
    assert (I1 : cint (fun t => f t * RtoC (fejer h N t))%C (- ((INR n + / 2) * h)) (- ((INR n + / 2) * h) + INR p * h)
      (CInt (fun t => f t * RtoC (fejer h N t))%C (- ((INR n + / 2) * h)) (- ((INR n + / 2) * h) + INR p * h))).
    { apply cint_ex. intros t Ht. apply Hc. unfold between in Ht. rewrite Rmin_left, Rmax_right in Ht by nra. apply Rabs_le. nra. }
    rewrite Ea in I1, H1.
    assert (I2 : cint (fun t => f t * RtoC (fejer h N t))%C (IZR kk * h - h / 2) (IZR kk * h + h / 2)
      (CInt (fun t => f t * RtoC (fejer h N t))%C (IZR kk * h - h / 2) (IZR kk * h + h / 2))).
    { apply cint_ex. intros t Ht. apply Hc, Hin. unfold between in Ht. rewrite Rmin_left, Rmax_right in Ht by lra. apply Rabs_le. lra. }
    rewrite Eb, (cint_unique _ _ _ _ (cint_chasles _ _ _ _ _ _ I1 I2)). cbn [csum]. unfold node at 2. fold kk.
    match goal with |- Cmod ((?a + ?b) - RtoC h * (?s + ?x))%C <= e => replace ((a + b) - RtoC h * (s + x))%C with ((a - RtoC h * s) + (b - RtoC h * x))%C by ring end.
    eapply Rle_trans; [apply Cmod_triangle|]. lra.
Qed.
Lemma fejer_nodes h f n e : 0 < h -> 0 < e -> (forall t, Rabs t <= (INR n + / 2) * h -> ccont f t) -> exists N, (1 <= N)%nat /\
    Cmod (CInt (fun t => f t * RtoC (fejer h N t))%C (- ((INR n + / 2) * h))%R ((INR n + / 2) * h)%R
          - RtoC h * csum (2 * n + 1) (fun k => f (node h n k)))%C <= e.
Proof.
  intros Hh He Hf. destruct (fejer_chain h f n Hh Hf (2 * n + 1) ltac:(lia) e He) as (N & HN & H). exists N. split; [exact HN|].
  specialize (H N ltac:(lia)). replace (- ((INR n + / 2) * h) + INR (2 * n + 1) * h) with ((INR n + / 2) * h) in H; [exact H|].
  rewrite inr_odd. field.
Qed.

(** ** The positive and negative frequencies of the kernel *)
Definition kq (s : R) (z : C) : C := cexp (Ci * RtoC s * z)%C.
Definition kd (s : R) (M : nat) (z : C) : C := csum M (fun n => cpow (kq s z) (S n)).
Definition kD (s : R) (N : nat) (z : C) : C := (RtoC (/ INR N) * csum N (fun M => kd s M z))%C.
Lemma analytic_id D : analytic D (fun z => z).
Proof. exists (fun _ => RtoC 1). intros z _. apply holo_id. Qed.
Lemma analytic_csum D n (f : nat -> C -> C) : (forall k, analytic D (f k)) -> analytic D (fun z => csum n (fun k => f k z)).
Proof. intro H. induction n as [|n IH]; cbn [csum]; [exact (analytic_const D (RtoC 0))|]. exact (analytic_plus D _ _ IH (H n)). Qed.
Lemma kD_analytic D s N : analytic D (kD s N).
Proof.
  unfold kD, kd. apply analytic_scal. apply (analytic_csum D N (fun M z => csum M (fun n => cpow (kq s z) (S n)))). intro M.
  apply (analytic_csum D M (fun n z => cpow (kq s z) (S n))). intro n. apply (analytic_pow D (kq s) (S n)). unfold kq. apply analytic_exp. apply analytic_scal, analytic_id.
Qed.
Lemma kq_real s t : kq s (t, 0) = cis (s * t).
Proof. unfold kq, cexp, cis, Ci, RtoC, Cmult. cbn [fst snd]. replace ((0 * s - 1 * 0) * t - (0 * 0 + 1 * s) * 0) with 0 by ring. rewrite exp_0. replace ((0 * s - 1 * 0) * 0 + (0 * 0 + 1 * s) * t) with (s * t) by ring. f_equal; ring. Qed.
Lemma kq_mod s z : Cmod (kq s z) = exp (- (s * snd z)).
Proof. unfold kq. rewrite Cmod_cexp. unfold Ci, RtoC, Cmult. cbn [fst snd]. f_equal. ring. Qed.
Lemma kq_side s x u (q : Z) : s * x = PI + 2 * IZR q * PI -> kq s (x, u) = RtoC (- exp (- (s * u))).
Proof.
  intro E. unfold kq, cexp, Ci, RtoC, Cmult. cbn [fst snd]. replace ((0 * s - 1 * 0) * x - (0 * 0 + 1 * s) * u) with (- (s * u)) by ring.
  replace ((0 * s - 1 * 0) * u + (0 * 0 + 1 * s) * x) with (s * x) by ring. rewrite E.
  assert (S0 : sin (IZR q * PI) = 0) by (apply sin_eq_0_1; now exists q).
  assert (E2 : sin (2 * IZR q * PI) = 0 /\ cos (2 * IZR q * PI) = 1).
  { replace (2 * IZR q * PI) with (2 * (IZR q * PI)) by ring. rewrite sin_2a, cos_2a_sin, S0. split; ring. }
  rewrite sin_plus, cos_plus, (proj1 E2), (proj2 E2), sin_PI, cos_PI. f_equal; ring.
Qed.
Lemma kernel_real h N t : (1 <= N)%nat -> RtoC (fejer h N t) = (RtoC 1 + kD (2 * PI / h) N (t, 0)%R + kD (- (2 * PI / h)) N (t, 0)%R)%C.
Proof.
  intro HN. assert (PN : 0 < INR N) by (apply lt_0_INR; lia).
  assert (E : forall M, RtoC (dirichlet h M t) = (RtoC 1 + kd (2 * PI / h) M (t, 0)%R + kd (- (2 * PI / h)) M (t, 0)%R)%C).
  { intro M. unfold dirichlet, kd. set (w := 2 * PI / h). rewrite RtoC_plus, <- Cplus_assoc. f_equal. rewrite <- csum_add.
    rewrite (csum_ext M _ (fun n => RtoC (2 * cos (INR (S n) * w * t)))).
    2:{ intros n _. rewrite !kq_real, !cpow_cis. replace (INR (S n) * (- w * t)) with (- (INR (S n) * w * t)) by ring.
        replace (INR (S n) * (w * t)) with (INR (S n) * w * t) by ring. rewrite cis_pm. now rewrite RtoC_mult. }
    induction M as [|M IH]; cbn [rsum csum]; [now rewrite Rmult_0_r|]. rewrite <- IH, <- RtoC_plus. f_equal. ring. }
  unfold fejer, kD. rewrite <- Cplus_assoc, <- Cmult_plus_distr_l, <- csum_add.
  assert (ES : forall K, RtoC (rsum K (fun M => dirichlet h M t)) = (RtoC (INR K) + csum K (fun k => kd (2 * PI / h) k (t, 0)%R + kd (- (2 * PI / h)) k (t, 0)%R))%C).
  { induction K as [|K IH]; cbn [rsum csum]; [cbn [INR]; ring|]. rewrite RtoC_plus, IH, E, S_INR, RtoC_plus. ring. }
  unfold Rdiv. rewrite RtoC_mult, ES. rewrite Cmult_plus_distr_r. rewrite <- RtoC_mult, Rinv_r by lra. f_equal. apply Cmult_comm.
Qed.
Lemma kD_bound s N z B : (1 <= N)%nat -> (forall M, Cmod (kd s M z) <= B) -> Cmod (kD s N z) <= B.
Proof.
  intros HN H. assert (PN : 0 < INR N) by (apply lt_0_INR; lia). unfold kD. rewrite Cmod_mult, Cmod_R, Rabs_pos_eq by (left; now apply Rinv_0_lt_compat).
  apply Rmult_le_reg_l with (INR N); [exact PN|]. rewrite <- Rmult_assoc, Rinv_r, Rmult_1_l by lra.
  clear HN PN. induction N as [|N IH]; [cbn; rewrite Cmod_0; lra|]. rewrite S_INR. cbn [csum]. eapply Rle_trans; [apply Cmod_triangle|]. specialize (H N). lra.
Qed.
Lemma kd_geom s M z : ((RtoC 1 - kq s z) * kd s M z)%C = (kq s z * (RtoC 1 - cpow (kq s z) M))%C.
Proof.
  assert (E : kd s M z = (csum M (fun n => cpow (kq s z) n) * kq s z)%C) by (unfold kd; rewrite <- csum_scal_r; reflexivity).
  rewrite E, <- (geom_c M (kq s z)). ring.
Qed.
Lemma Cmod_cpow_le z n : Cmod z <= 1 -> Cmod (cpow z n) <= 1.
Proof. intro H. induction n as [|n IH]; cbn [cpow]; [rewrite Cmod_1; lra|]. rewrite Cmod_mult. assert (P := Cmod_ge_0 z). assert (P' := Cmod_ge_0 (cpow z n)). nra. Qed.
Lemma kd_line s M z : 0 < s * snd z -> Cmod (kd s M z) <= / (exp (s * snd z) - 1).
Proof.
  intro Hp. set (y := Cmod (kq s z)). assert (Hy : y = / exp (s * snd z)) by (unfold y; now rewrite kq_mod, exp_Ropp).
  assert (He : 1 < exp (s * snd z)) by (rewrite <- exp_0; now apply exp_increasing).
  assert (Hy1 : 0 < y < 1). { rewrite Hy. split; [apply Rinv_0_lt_compat; lra|]. rewrite <- Rinv_1. apply Rinv_lt_contravar; lra. }
  assert (Hs : (1 - y) * Cmod (kd s M z) <= y).
  { unfold kd. assert (H : Cmod (csum M (fun n => cpow (kq s z) (S n))) <= rsum M (fun n => y ^ (S n))).
    { eapply Rle_trans; [apply csum_mod|]. apply rsum_le. intros k _. right. unfold y. clear. induction (S k) as [|n IH]; cbn [cpow pow]; [apply Cmod_1|]. rewrite Cmod_mult, IH. ring. }
    assert (G : (1 - y) * rsum M (fun n => y ^ (S n)) = y - y * y ^ M).
    { clear H. induction M as [|M IH]; cbn [rsum]; [cbn [pow]; ring|]. rewrite Rmult_plus_distr_l, IH. cbn [pow]. ring. }
    assert (0 <= y ^ M) by (apply pow_le; lra). nra. }
  replace (/ (exp (s * snd z) - 1)) with (y / (1 - y)) by (rewrite Hy; field; lra). apply Rle_div_r; [lra|]. lra.
Qed.
Lemma kd_side s M x u (q : Z) : s * x = PI + 2 * IZR q * PI -> 0 <= s * u -> Cmod (kd s M (x, u)) <= 1.
Proof.
  intros E Hu. assert (G := kd_geom s M (x, u)). rewrite (kq_side s x u q E) in G. set (y := exp (- (s * u))) in *.
  assert (Hy : 0 < y <= 1). { split; [apply exp_pos|]. unfold y. rewrite <- exp_0. destruct Hu as [Hu|Hu]; [left; apply exp_increasing; lra|right; f_equal; lra]. }
  apply (f_equal Cmod) in G. rewrite !Cmod_mult in G. rewrite <- RtoC_minus, !Cmod_R in G. rewrite Rabs_pos_eq in G by lra.
  rewrite (Rabs_left1 (- y)) in G by lra.
  assert (H2 : Cmod (RtoC 1 - cpow (RtoC (- y)) M)%C <= 2).
  { eapply Rle_trans; [apply Cmod_minus_le|]. rewrite Cmod_1. assert (H := Cmod_cpow_le (RtoC (- y)) M). rewrite Cmod_R, Rabs_left1 in H by lra. specialize (H ltac:(lra)). lra. }
  assert (P := Cmod_ge_0 (kd s M (x, u))). nra.
Qed.
Lemma Cmod_Ci : Cmod Ci = 1.
Proof. unfold Cmod, Ci. cbn [fst snd]. replace (0 ^ 2 + 1 ^ 2) with 1 by ring. apply sqrt_1. Qed.
Lemma CInt_side f v M : (forall u, between 0 v u -> ccont f u /\ Cmod (f u) <= M) -> Cmod (CInt f 0 v) <= Rabs v * M.
Proof.
  intro H. assert (HI := cint_ex f 0 v (fun u Hu => proj1 (H u Hu))). destruct (Rle_dec 0 v) as [Hv|Hv].
  - rewrite Rabs_pos_eq by exact Hv. replace (v * M) with ((v - 0) * M) by ring. apply (cint_bound_const f 0 v); [exact Hv|exact HI|].
    intros t Ht. apply H. unfold between. rewrite Rmin_left, Rmax_right by lra. lra.
  - assert (HI' : cint f v 0 (- CInt f 0 v)%C).
    { destruct HI as [I1 I2]. split; cbn [fst snd Copp]; [apply (is_RInt_swap (V := R_NormedModule)) in I1; exact I1|apply (is_RInt_swap (V := R_NormedModule)) in I2; exact I2]. }
    rewrite <- Cmod_opp, Rabs_left by lra. replace (- v * M) with ((0 - v) * M) by ring. apply (cint_bound_const f v 0); [lra|exact HI'|].
    intros t Ht. apply H. unfold between. rewrite Rmin_right, Rmax_left by lra. lra.
Qed.
Lemma holo_x f f' t v : holo f f' (t, v) -> ccont (fun t => f (t, v)) t.
Proof. intros (_ & _ & H & _). exact (cont2_x f (t, v) H). Qed.
Lemma holo_y f f' t v : holo f f' (t, v) -> ccont (fun u => f (t, u)) v.
Proof. intros (_ & _ & H & _). exact (cont2_y f (t, v) H). Qed.
Lemma one_side g r0 s v L (q q' : Z) N B J S : analytic (strip r0) g -> Rabs v < r0 -> 0 <= L -> 0 < s * v -> (1 <= N)%nat ->
  s * L = PI + 2 * IZR q * PI -> s * (- L) = PI + 2 * IZR q' * PI ->
  is_RInt B (- L) L J -> (forall t, - L < t < L -> Cmod (g (t, v)) <= B t) ->
  (forall u, between 0 v u -> Cmod (g (L, u)) <= S /\ Cmod (g (- L, u)) <= S) ->
  Cmod (CInt (fun t => g (t, 0)%R * kD s N (t, 0)%R)%C (- L) L) <= J / (exp (s * v) - 1) + 2 * Rabs v * S.
Proof.
  intros Hg Hv HL Hsv HN E1 E2 HB Hb HS.
  assert (HF : analytic (strip r0) (fun z => g z * kD s N z)%C) by (apply analytic_mult; [exact Hg|apply kD_analytic]).
  destruct HF as (F' & HF). assert (HR := rectangle _ F' r0 (- L) L v HF Hv). cbn beta in HR.
  set (A := CInt (fun t => g (t, v)%R * kD s N (t, v)%R)%C (- L) L) in *. set (Z0 := CInt (fun t => g (t, 0)%R * kD s N (t, 0)%R)%C (- L) L) in *.
  set (P := CInt (fun u => g (L, u)%R * kD s N (L, u)%R)%C 0 v) in *. set (Q := CInt (fun u => g (- L, u)%R * kD s N (- L, u)%R)%C 0 v) in *.
  assert (EZ : Z0 = (A - Ci * (P - Q))%C) by (rewrite <- HR; ring). rewrite EZ.
  assert (Hr : forall u, between 0 v u -> Rabs u < r0) by (intros; now apply (between_abs v)).
  assert (He : 1 < exp (s * v)) by (rewrite <- exp_0; now apply exp_increasing).
  assert (Hsu : forall u, between 0 v u -> 0 <= s * u).
  { intros u Hu. unfold between in Hu. destruct (Rle_dec 0 v) as [H|H].
    - rewrite Rmin_left, Rmax_right in Hu by lra. assert (0 < s) by nra. nra.
    - rewrite Rmin_right, Rmax_left in Hu by lra. assert (s < 0) by nra. nra. }
  assert (BA : Cmod A <= J / (exp (s * v) - 1)).
  { assert (HA : cint (fun t => g (t, v)%R * kD s N (t, v)%R)%C (- L) L A).
    { apply cint_ex. intros t _. apply (holo_x (fun z => g z * kD s N z)%C F'). apply HF. exact Hv. }
    assert (HB' : is_RInt (fun t => / (exp (s * v) - 1) * B t) (- L) L (/ (exp (s * v) - 1) * J)) by (apply (is_RInt_scal (V := R_NormedModule)); exact HB).
    assert (HLL : - L <= L) by lra.
    replace (J / (exp (s * v) - 1)) with (/ (exp (s * v) - 1) * J) by (unfold Rdiv; ring). apply (cint_bound _ _ _ _ _ _ HLL HA HB').
    intros t Ht. rewrite Cmod_mult, Rmult_comm. apply Rmult_le_compat; try apply Cmod_ge_0; [|now apply Hb].
    apply kD_bound; [exact HN|]. intro M. exact (kd_line s M (t, v) Hsv). }
  assert (side : forall x (p : Z), s * x = PI + 2 * IZR p * PI -> (forall u, between 0 v u -> Cmod (g (x, u)) <= S) ->
     Cmod (CInt (fun u => g (x, u)%R * kD s N (x, u)%R)%C 0 v) <= Rabs v * S).
  { intros x p Ex Hx. apply CInt_side. intros u Hu. split.
    - apply (holo_y (fun z => g z * kD s N z)%C F'). apply HF. now apply Hr.
    - rewrite Cmod_mult. assert (H1 := Hx u Hu). assert (H2 : Cmod (kD s N (x, u)) <= 1) by (apply kD_bound; [exact HN|]; intro M; apply (kd_side s M x u p Ex); now apply Hsu).
      assert (P1 := Cmod_ge_0 (g (x, u))). assert (P2 := Cmod_ge_0 (kD s N (x, u))). nra. }
  assert (BP := side L q E1 (fun u Hu => proj1 (HS u Hu))). assert (BQ := side (- L) q' E2 (fun u Hu => proj2 (HS u Hu))). fold P in BP. fold Q in BQ.
  eapply Rle_trans; [apply Cmod_minus_le|]. rewrite Cmod_mult, Cmod_Ci, Rmult_1_l.
  assert (H3 := Cmod_minus_le P Q). lra.
Qed.
Theorem trapezoid g r0 r h n Bp Jp Bm Jm S : analytic (strip r0) g -> 0 < r < r0 -> 0 < h -> let L := (INR n + / 2) * h in
  is_RInt Bp (- L) L Jp -> (forall t, - L < t < L -> Cmod (g (t, r)) <= Bp t) ->
  is_RInt Bm (- L) L Jm -> (forall t, - L < t < L -> Cmod (g (t, - r)) <= Bm t) ->
  (forall u, Rabs u <= r -> Cmod (g (L, u)) <= S /\ Cmod (g (- L, u)) <= S) ->
  Cmod (RtoC h * csum (2 * n + 1) (fun k => g (node h n k, 0%R)) - CInt (fun t => g (t, 0%R)) (- L) L)%C <= (Jp + Jm) / (exp (2 * PI * r / h) - 1) + 4 * r * S.
Proof.
  intros Hg Hr Hh L HBp Hbp HBm Hbm HS. assert (HP := PI_RGT_0). assert (Pn := pos_INR n).
  assert (HL : 0 <= L) by (unfold L; nra). set (w := 2 * PI / h). assert (Hw : 0 < w) by (apply Rdiv_lt_0_compat; lra).
  assert (EwL : w * L = PI + 2 * IZR (Z.of_nat n) * PI) by (unfold w, L; rewrite <- INR_IZR_INZ; field; lra).
  assert (EwL' : w * - L = PI + 2 * IZR (- Z.of_nat n - 1) * PI).
  { replace (w * - L) with (- (w * L)) by ring. rewrite EwL, minus_IZR, opp_IZR. ring. }
  assert (cg : forall t, ccont (fun t => g (t, 0)) t).
  { intro t. destruct Hg as (g' & Hg). apply (holo_x g g'), Hg. unfold strip. cbn [snd]. rewrite Rabs_R0. lra. }
  apply le_epsilon. intros e He.
  destruct (fejer_nodes h (fun t => g (t, 0)) n e Hh He (fun t _ => cg t)) as (N & HN & H). fold L in H.
  assert (B1 : Cmod (CInt (fun t => g (t, 0)%R * kD w N (t, 0)%R)%C (- L) L) <= Jp / (exp (w * r) - 1) + 2 * Rabs r * S).
  { apply (one_side g r0 w r L (Z.of_nat n) (- Z.of_nat n - 1) N Bp Jp S); try assumption.
    - rewrite Rabs_pos_eq; lra. - nra. - intros u Hu. apply HS. unfold between in Hu. rewrite Rmin_left, Rmax_right in Hu by lra. apply Rabs_le. lra. }
  assert (B2 : Cmod (CInt (fun t => g (t, 0)%R * kD (- w) N (t, 0)%R)%C (- L) L) <= Jm / (exp (- w * - r) - 1) + 2 * Rabs (- r) * S).
  { apply (one_side g r0 (- w) (- r) L (- Z.of_nat n - 1) (Z.of_nat n) N Bm Jm S); try assumption.
    - rewrite Rabs_Ropp, Rabs_pos_eq; lra. - nra. - rewrite <- EwL'. ring. - rewrite <- EwL. ring.
    - intros u Hu. apply HS. unfold between in Hu. rewrite Rmin_right, Rmax_left in Hu by lra. apply Rabs_le. lra. }
  rewrite Rabs_Ropp in B2. rewrite Rabs_pos_eq in B1, B2 by lra. replace (- w * - r) with (w * r) in B2 by ring.
  replace (w * r) with (2 * PI * r / h) in B1, B2 by (unfold w; field; lra).
  assert (cD : forall s t, ccont (fun t => g (t, 0)%R * kD s N (t, 0)%R)%C t).
  { intros s t. apply ccont_mult; [apply cg|]. destruct (kD_analytic (fun _ => True) s N) as (f' & Hf). apply (holo_x _ f'). now apply Hf. }
  set (I0 := CInt (fun t => g (t, 0)) (- L) L) in *. set (I1 := CInt (fun t => g (t, 0)%R * kD w N (t, 0)%R)%C (- L) L) in *.
  set (I2 := CInt (fun t => g (t, 0)%R * kD (- w) N (t, 0)%R)%C (- L) L) in *.
  assert (EI : CInt (fun t => g (t, 0)%R * RtoC (fejer h N t))%C (- L) L = (I0 + I1 + I2)%C).
  { apply cint_unique. apply (cint_ext (fun t => g (t, 0)%R + g (t, 0)%R * kD w N (t, 0)%R + g (t, 0)%R * kD (- w) N (t, 0)%R)%C).
    { intros t _. rewrite kernel_real by exact HN. fold w. ring. }
    apply cint_plus; [apply cint_plus|]; apply cint_ex; intros t _; [apply cg|apply cD|apply cD]. }
  rewrite EI in H. set (Sm := (RtoC h * csum (2 * n + 1) (fun k => g (node h n k, 0%R)))%C) in *.
  replace (Sm - I0)%C with ((I1 + I2) - (I0 + I1 + I2 - Sm))%C by ring.
  eapply Rle_trans; [apply Cmod_minus_le|]. assert (H4 := Cmod_triangle I1 I2).
  assert (E5 : (Jp + Jm) / (exp (2 * PI * r / h) - 1) = Jp / (exp (2 * PI * r / h) - 1) + Jm / (exp (2 * PI * r / h) - 1)) by (unfold Rdiv; ring).
  lra.
Qed.
