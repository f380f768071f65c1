(** Truncation of the double exponential sums, and the parameters chosen. *)
From Coq Require Import Reals Lra Lia.
From Coquelicot Require Import Coquelicot.
From Verif Require Import CArg ModelDe SpecDe ProofDe.
Local Open Scope R_scope.

Lemma cosh_ge_exp y : exp y / 2 < cosh y.
Proof. unfold cosh. assert (H := exp_pos (- y)). lra. Qed.
Lemma cosh_gt_sinh y : sinh y < cosh y.
Proof. unfold cosh, sinh. assert (H := exp_pos (- y)). lra. Qed.
Lemma cosh_pos y : 0 < cosh y.
Proof. unfold cosh. assert (H := exp_pos (- y)). assert (H1 := exp_pos y). lra. Qed.
Lemma sinh_incr x y : x < y -> sinh x < sinh y.
Proof. intro H. unfold sinh. assert (H1 := exp_increasing _ _ H).
  assert (- y < - x) by lra. assert (H2 := exp_increasing _ _ H0). lra. Qed.
Lemma sinh_le x y : x <= y -> sinh x <= sinh y.
Proof. intros [H| ->]; [left; now apply sinh_incr|lra]. Qed.
Lemma cosh_le x y : 0 <= x <= y -> cosh x <= cosh y.
Proof.
  intros [H1 H2]. destruct H2 as [H2| ->]; [|lra].
  destruct (MVT_cor2 cosh sinh x y H2) as (c & E & Hc).
  { intros c _. apply derivable_pt_lim_cosh. }
  assert (H3 : 0 < sinh c) by (apply sinh_pos; lra).
  assert (0 <= sinh c * (y - x)) by (apply Rmult_le_pos; lra). lra.
Qed.

(** h times the weights of index N+1 .. N+K, on one side *)
Fixpoint tail (h l a : R) (N K : nat) : R :=
  match K with
  | O => 0
  | S K => tail h l a N K + h * weight l a (INR (N + S K) * h)
  end.
Section Tail.
  Context (h l a : R) (Hh : 0 < h) (Hl : 0 < l) (Ha : 0 < a).
  Let G t := Rpower 2 (2 * a) / (2 * a) * exp (- (2 * a * l * sinh t)).
  Let v t := Rpower 2 (2 * a) * l * cosh t * exp (- (2 * a * l * sinh t)).
  Lemma weight_le t : weight l a t <= v t.
  Proof.
    unfold weight, v. assert (Hc := cosh_pos t).
    assert (H2 : Rpower (exp (l * sinh t) / 2) (2 * a) <= Rpower (cosh (l * sinh t)) (2 * a)).
    { apply Rle_Rpower_l; [lra|]. assert (H := exp_pos (l * sinh t)). assert (H' := cosh_ge_exp (l * sinh t)). lra. }
    assert (E : Rpower (exp (l * sinh t) / 2) (2 * a) = / (Rpower 2 (2 * a) * exp (- (2 * a * l * sinh t)))).
    { unfold Rpower. rewrite <- exp_plus, <- exp_Ropp. f_equal.
      unfold Rdiv. rewrite ln_mult, ln_exp, ln_Rinv by (try apply exp_pos; lra). ring. }
    replace (Rpower 2 (2 * a) * l * cosh t * exp (- (2 * a * l * sinh t)))
      with (l * cosh t * (Rpower 2 (2 * a) * exp (- (2 * a * l * sinh t)))) by ring.
    unfold Rdiv. apply Rmult_le_compat_l; [apply Rlt_le, Rmult_lt_0_compat; lra|].
    rewrite E in H2. rewrite <- (Rinv_inv (Rpower 2 (2 * a) * exp (- (2 * a * l * sinh t)))).
    apply Rinv_le_contravar; [|exact H2]. rewrite <- E. apply Rpower_pos.
  Qed.
  Lemma G_derive t : derivable_pt_lim G t (- v t).
  Proof.
    apply is_derive_Reals. unfold G, v, sinh, cosh. auto_derive; [easy|].
    change ((exp t + - exp (- t)) * / 2) with ((exp t - exp (- t)) / 2).
    set (E := exp (- (2 * a * l * ((exp t - exp (- t)) / 2)))). field. lra.
  Qed.
  Lemma v_derive t : derivable_pt_lim v t
    (Rpower 2 (2 * a) * l * exp (- (2 * a * l * sinh t)) * (sinh t - 2 * a * l * cosh t * cosh t)).
  Proof.
    apply is_derive_Reals. unfold v, sinh, cosh. auto_derive; [easy|].
    change ((exp t + - exp (- t)) * / 2) with ((exp t - exp (- t)) / 2).
    set (E := exp (- (2 * a * l * ((exp t - exp (- t)) / 2)))). field.
  Qed.
  Lemma v_decr s t : 0 <= s -> 1 <= 2 * a * l * cosh s -> s < t -> v t <= v s.
  Proof.
    intros Hs H1 Hst. destruct (MVT_cor2 v _ s t Hst (fun c _ => v_derive c)) as (c & E & Hc).
    assert (H2 : cosh s <= cosh c) by (apply cosh_le; lra).
    assert (H3 : 1 <= 2 * a * l * cosh c).
    { eapply Rle_trans; [exact H1|]. apply Rmult_le_compat_l; [|easy].
      apply Rlt_le, Rmult_lt_0_compat; lra. }
    assert (H4 : sinh c - 2 * a * l * cosh c * cosh c <= 0).
    { assert (H5 := cosh_gt_sinh c). assert (H6 := cosh_pos c).
      assert (1 * cosh c <= 2 * a * l * cosh c * cosh c) by (apply Rmult_le_compat_r; lra). lra. }
    assert (H5 : 0 < Rpower 2 (2 * a) * l * exp (- (2 * a * l * sinh c))).
    { apply Rmult_lt_0_compat; [|apply exp_pos]. apply Rmult_lt_0_compat; [apply Rpower_pos|easy]. }
    set (Y := sinh c - 2 * a * l * cosh c * cosh c) in *.
    set (A := Rpower 2 (2 * a) * l * exp (- (2 * a * l * sinh c))) in *.
    assert (0 <= A * (- Y) * (t - s)).
    { apply Rmult_le_pos; [|lra]. apply Rmult_le_pos; lra. }
    assert (A * - Y * (t - s) = - (A * Y * (t - s))) by ring. lra.
  Qed.
  Lemma step_le s : 0 <= s -> 1 <= 2 * a * l * cosh s -> h * weight l a (s + h) <= G s - G (s + h).
  Proof.
    intros Hs H1. assert (Hlt : s < s + h) by lra.
    destruct (MVT_cor2 G (fun t => - v t) s (s + h) Hlt (fun c _ => G_derive c)) as (c & E & Hc).
    replace (s + h - s) with h in E by ring.
    assert (H2 : v (s + h) <= v c).
    { apply v_decr; [lra| |lra]. eapply Rle_trans; [exact H1|].
      apply Rmult_le_compat_l; [apply Rlt_le, Rmult_lt_0_compat; lra|]. apply cosh_le. lra. }
    assert (H3 := weight_le (s + h)).
    assert (h * weight l a (s + h) <= h * v c) by (apply Rmult_le_compat_l; lra). lra.
  Qed.
  Lemma tail_le N K : 1 <= 2 * a * l * cosh (INR N * h) ->
    tail h l a N K <= G (INR N * h) - G (INR (N + K) * h).
  Proof.
    intro H. induction K as [|K IH].
    - rewrite Nat.add_0_r. cbn. lra.
    - cbn [tail]. assert (H1 := pos_INR N). assert (H2 := pos_INR K).
      assert (H3 := step_le (INR (N + K) * h)).
      replace (INR (N + S K) * h) with (INR (N + K) * h + h)
        by (rewrite !plus_INR, S_INR; ring).
      assert (H5 : INR N * h <= INR (N + K) * h) by (apply Rmult_le_compat_r; [lra|]; rewrite plus_INR; lra).
      assert (H6 : 0 <= INR N * h) by (apply Rmult_le_pos; lra).
      enough (h * weight l a (INR (N + K) * h + h) <= G (INR (N + K) * h) - G (INR (N + K) * h + h)) by lra.
      apply H3; [lra|]. eapply Rle_trans; [exact H|].
      apply Rmult_le_compat_l; [apply Rlt_le, Rmult_lt_0_compat; lra|]. apply cosh_le. lra.
  Qed.
  Lemma G_pos t : 0 < G t.
  Proof. unfold G. apply Rmult_lt_0_compat; [|apply exp_pos]. apply Rdiv_lt_0_compat; [apply Rpower_pos|lra]. Qed.
  Lemma truncation N K m1 : 0 <= m1 -> 1 <= 2 * a * l * cosh (INR N * h) ->
    2 * m1 * tail h l a N K <= e_T h l N m1 a.
  Proof.
    intros Hm H. assert (H1 := tail_le N K H). assert (H2 := G_pos (INR (N + K) * h)).
    replace (e_T h l N m1 a) with (2 * m1 * G (INR N * h)).
    - apply Rmult_le_compat_l; lra.
    - unfold e_T, G. field. lra.
  Qed.
  Lemma weight_pos t : 0 < weight l a t.
  Proof.
    unfold weight. apply Rdiv_lt_0_compat; [|apply Rpower_pos].
    apply Rmult_lt_0_compat; [easy|apply cosh_pos].
  Qed.
  Lemma tanh_range y : -1 <= tanh y <= 1.
  Proof.
    unfold tanh. assert (H := cosh_pos y). assert (H1 := exp_pos y). assert (H2 := exp_pos (- y)).
    unfold cosh, sinh in *. split; [apply Rle_div_r|apply Rle_div_l]; lra.
  Qed.
  Lemma omitted_le N K m1 f : (forall x, -1 <= x <= 1 -> Cmod (f x) <= m1) ->
    1 <= 2 * a * l * cosh (INR N * h) -> Cmod (omitted h l a N K f) <= e_T h l N m1 a.
  Proof.
    intros Hf H. assert (Hm : 0 <= m1).
    { eapply Rle_trans; [apply Cmod_ge_0|]. apply (Hf 0). lra. }
    eapply Rle_trans; [|apply (truncation N K m1 Hm H)]. clear H.
    induction K as [|K IH]; cbn [omitted tail]; [rewrite Cmod_0; lra|]. cbv zeta.
    eapply Rle_trans; [apply Cmod_triangle|]. rewrite Rmult_plus_distr_l. apply Rplus_le_compat; [easy|].
    set (t := INR (N + S K) * h). assert (Hw := weight_pos t).
    assert (Hhw : 0 < h * weight l a t) by now apply Rmult_lt_0_compat.
    rewrite Cmod_mult, Cmod_R, Rabs_pos_eq by lra. rewrite (Rmult_comm (2 * m1)).
    apply Rmult_le_compat_l; [lra|]. eapply Rle_trans; [apply Cmod_triangle|].
    assert (Hr := tanh_range (l * sinh t)).
    assert (F1 := Hf _ Hr). assert (F2 := Hf (- tanh (l * sinh t))). lra.
  Qed.
End Tail.

(** ** Parameters chosen *)
Definition lam : R := PI / 2.
Lemma lam_bounds : 3 / 2 < lam <= 2.
Proof. unfold lam. assert (H := PI2_3_2). assert (H1 := PI_4). lra. Qed.
Lemma choose_r_range rk r : choose_r rk = Done r -> 0 < r <= 126 / 100.
Proof.
  unfold choose_r. assert (H : forall rk r0 r, 0 < r0 <= 14 / 10 -> smallest_r rk r0 = Done r -> 0 < r <= 14 / 10).
  { clear. induction rk as [|x rk IH]; cbn; intros r0 r H0 H; [now injection H as <-|].
    destruct (Rle_dec x 0); [easy|]. eapply IH; [|exact H]. destruct (Rlt_dec x r0); lra. }
  destruct (smallest_r rk _) as [x| | |] eqn:E; cbn; try easy.
  apply H in E; [|lra]. intro I. injection I as <-. lra.
Qed.
Lemma choose_r_below rk r x : choose_r rk = Done r -> In x rk -> r < x.
Proof.
  unfold choose_r. assert (H : forall rk r0 r, 0 < r0 -> smallest_r rk r0 = Done r ->
    0 < r <= r0 /\ (forall x, In x rk -> r <= x)).
  { clear. induction rk as [|x rk IH]; cbn; intros r0 r H0 H.
    - injection H as <-. split; [lra|easy].
    - destruct (Rle_dec x 0); [easy|]. apply IH in H; [|destruct (Rlt_dec x r0); lra].
      destruct H as [[H1 H2] H3]. destruct (Rlt_dec x r0).
      + split; [lra|]. intros y [<-|Hy]; [lra|now apply H3].
      + split; [lra|]. intros y [<-|Hy]; [lra|now apply H3]. }
  destruct (smallest_r rk _) as [y| | |] eqn:E; cbn; try easy.
  apply H in E; [|lra]. destruct E as [E1 E2]. intros I Hx. injection I as <-. apply E2 in Hx. lra.
Qed.
Lemma choose_r_done rk : Forall (fun x => 0 < x) rk -> exists r, choose_r rk = Done r.
Proof.
  intro H. unfold choose_r.
  enough (forall r0, exists r, smallest_r rk r0 = Done r) as G.
  { destruct (G (14 / 10)) as [r ->]. now eexists. }
  induction H as [|x rk Hx H IH]; intro r0; cbn; [now eexists|].
  destruct (Rle_dec x 0); [lra|]. apply IH.
Qed.
Lemma sin_lam r : 0 < r <= 126 / 100 -> 0 < r < PI / 2 /\ lam * sin r < PI / 2.
Proof.
  intro H. assert (HP := PI2_3_2). split; [lra|].
  assert (sin r < 1).
  { rewrite <- sin_PI2. apply sin_increasing_1; lra. }
  unfold lam. assert (0 < PI / 2) by lra. assert (PI / 2 * sin r < PI / 2 * 1) by now apply Rmult_lt_compat_l. lra.
Qed.
Lemma b_d_eq r a : 0 < a -> 0 < r <= 126 / 100 -> de_constant_b_d lam r a = B_r lam r a.
Proof.
  intros Ha Hr. destruct (sin_lam r Hr) as [H1 H2]. unfold de_constant_b_d, B_r, X_r. cbv zeta.
  assert (0 < sin r) by (apply sin_gt_0; lra). assert (HL := lam_bounds).
  replace (PI / 2 / (lam * sin r)) with (PI / (2 * lam * sin r)) by (field; lra).
  rewrite !Rpower_Ropp. f_equal. f_equal. unfold Rdiv. rewrite <- Rinv_mult. f_equal. ring.
Qed.

Section Chosen.
  Context (r : R) (m prec : Z) (Hr : 0 < r <= 126 / 100) (Hm : (1 < m)%Z) (Hp : (0 <= prec)%Z).
  Let a := alpha 1 m.
  Let B := B_r lam r a.
  Let D := IZR prec * ln 2.
  Let h := 2 * PI * r / (D + ln (2 * B + 1)).
  Let x0 := (D + ln (32 / a)) / (2 * a * lam).
  Let n := (- Int_part (- (arcsinh x0 / h)))%Z.
  Lemma a_range : 0 < a < 1.
  Proof. apply alpha_range. lia. Qed.
  Lemma B_pos : 0 < B.
  Proof. destruct (sin_lam r Hr). assert (HL := lam_bounds). apply b_pos; [lra|easy|easy|lia]. Qed.
  Lemma ln2_pos : 0 < ln 2.
  Proof. rewrite <- ln_1. apply ln_increasing; lra. Qed.
  Lemma D_nonneg : 0 <= D.
  Proof. unfold D. apply Rmult_le_pos; [now apply IZR_le|]. assert (H := ln2_pos). lra. Qed.
  Lemma L1_pos : 0 < ln (2 * B + 1).
  Proof. assert (H := B_pos). rewrite <- ln_1. apply ln_increasing; lra. Qed.
  Lemma h_pos : 0 < h.
  Proof.
    assert (H1 := D_nonneg). assert (H2 := L1_pos). assert (H3 := PI_RGT_0). unfold h.
    apply Rdiv_lt_0_compat; [|lra]. apply Rmult_lt_0_compat; lra.
  Qed.
  Lemma c32 : 1 <= ln (32 / a).
  Proof.
    assert (Ha := a_range). rewrite <- (ln_exp 1).
    assert (H3 := exp_le_3). assert (H0 := exp_pos 1).
    assert (3 < 32 / a) by (apply Rlt_div_r; lra).
    apply Rlt_le, ln_increasing; lra.
  Qed.
  Lemma x0_pos : 0 < x0.
  Proof.
    assert (Ha := a_range). assert (H := c32). assert (H1 := D_nonneg). assert (HL := lam_bounds).
    unfold x0. apply Rdiv_lt_0_compat; [lra|]. apply Rmult_lt_0_compat; lra.
  Qed.
  Lemma n_bounds : arcsinh x0 <= IZR n * h <= arcsinh x0 + h.
  Proof.
    assert (Hh := h_pos). destruct (base_Int_part (- (arcsinh x0 / h))) as [H1 H2].
    unfold n. rewrite opp_IZR. set (i := IZR (Int_part _)) in *. set (y := arcsinh x0) in *.
    clearbody i y h.
    assert (E : y = y / h * h) by (field; lra).
    split.
    - rewrite E at 1. apply Rmult_le_compat_r; lra.
    - replace (y + h) with ((y / h + 1) * h) by (field; lra). apply Rmult_le_compat_r; lra.
  Qed.
  Lemma arcsinh_nonneg : 0 < arcsinh x0.
  Proof.
    destruct (Rlt_dec 0 (arcsinh x0)) as [H|H]; [easy|exfalso].
    assert (H1 := sinh_le (arcsinh x0) 0). rewrite sinh_arcsinh, sinh_0 in H1.
    assert (H2 := x0_pos). lra.
  Qed.
  Lemma n_pos : (0 < n)%Z.
  Proof.
    apply lt_IZR. assert (H := n_bounds). assert (H1 := arcsinh_nonneg). assert (H2 := h_pos).
    apply (Rmult_lt_reg_r h); lra.
  Qed.
  Lemma n_INR : INR (Z.to_nat n) = IZR n.
  Proof. assert (H := n_pos). rewrite INR_IZR_INZ, Z2Nat.id by lia. easy. Qed.
  Lemma sinh_nh : x0 <= sinh (IZR n * h).
  Proof. rewrite <- (sinh_arcsinh x0) at 1. apply sinh_le, n_bounds. Qed.
  Lemma sinh_nh' : D + ln (32 / a) <= 2 * a * lam * sinh (IZR n * h).
  Proof.
    assert (Ha := a_range). assert (HL := lam_bounds).
    assert (Hp2 : 0 < 2 * a * lam) by (apply Rmult_lt_0_compat; lra).
    assert (H : 2 * a * lam * x0 <= 2 * a * lam * sinh (IZR n * h)) by (apply Rmult_le_compat_l; [lra|apply sinh_nh]).
    replace (2 * a * lam * x0) with (D + ln (32 / a)) in H; [easy|]. unfold x0. field. lra.
  Qed.
  Lemma chosen_cosh : 1 <= 2 * a * lam * cosh (INR (Z.to_nat n) * h).
  Proof.
    rewrite n_INR. assert (H := sinh_nh'). assert (H1 := c32). assert (H2 := D_nonneg).
    assert (H3 := cosh_gt_sinh (IZR n * h)). assert (Ha := a_range). assert (HL := lam_bounds).
    assert (Hp2 : 0 < 2 * a * lam) by (apply Rmult_lt_0_compat; lra).
    assert (2 * a * lam * sinh (IZR n * h) < 2 * a * lam * cosh (IZR n * h)) by now apply Rmult_lt_compat_l.
    lra.
  Qed.
  Lemma chosen_T m1 : 0 <= m1 -> e_T h lam (Z.to_nat n) m1 a <= m1 / 8 * exp (- D).
  Proof.
    intro Hm1. unfold e_T. rewrite n_INR. assert (H := sinh_nh'). assert (Ha := a_range).
    assert (E : exp (- (2 * a * lam * sinh (IZR n * h))) <= exp (- D) * (a / 32)).
    { replace (a / 32) with (exp (- ln (32 / a))).
      - rewrite <- exp_plus. destruct H as [H|H].
        + apply Rlt_le, exp_increasing. lra.
        + right. f_equal. lra.
      - rewrite exp_Ropp, exp_ln; [field; lra|]. apply Rdiv_lt_0_compat; lra. }
    assert (P : Rpower 2 (2 * a) <= 4).
    { replace 4 with (Rpower 2 2).
      - apply Rle_Rpower; lra.
      - replace 2 with (INR 2) at 2 by (cbn; ring). rewrite Rpower_pow by lra. ring. }
    assert (Hq : 0 <= Rpower 2 (2 * a) * m1 / a).
    { apply Rmult_le_pos; [|left; apply Rinv_0_lt_compat; lra].
      apply Rmult_le_pos; [left; apply Rpower_pos|easy]. }
    eapply Rle_trans; [apply Rmult_le_compat_l; [exact Hq|exact E]|].
    replace (Rpower 2 (2 * a) * m1 / a * (exp (- D) * (a / 32)))
      with (Rpower 2 (2 * a) * (m1 * exp (- D) / 32)) by (field; lra).
    replace (m1 / 8 * exp (- D)) with (4 * (m1 * exp (- D) / 32)) by field.
    apply Rmult_le_compat_r; [|easy]. assert (He := exp_pos (- D)).
    apply Rmult_le_pos; [|lra]. apply Rmult_le_pos; lra.
  Qed.
  Lemma chosen_Q m2 : 0 <= m2 -> e_Q h lam r m2 a <= m2 * exp (- D).
  Proof.
    intro Hm2. unfold e_Q. fold B. assert (HB := B_pos). assert (HD := D_nonneg).
    replace (2 * PI * r / h) with (D + ln (2 * B + 1)).
    2:{ unfold h. assert (H2 := L1_pos). assert (H3 := PI_RGT_0). field. lra. }
    rewrite exp_plus, exp_ln by lra.
    assert (E : 1 <= exp D) by (rewrite <- exp_0; destruct HD as [HD| <-]; [apply Rlt_le, exp_increasing; lra|lra]).
    assert (Hpos : 0 < 2 * B * exp D) by (apply Rmult_lt_0_compat; lra).
    assert (Hpos2 : 2 * B * exp D <= exp D * (2 * B + 1) - 1) by (rewrite Rmult_plus_distr_l; lra).
    apply Rle_div_l; [lra|]. rewrite exp_Ropp.
    replace (2 * m2 * B) with (m2 * / exp D * (2 * B * exp D)) by (field; lra).
    apply Rmult_le_compat_l; [|easy]. apply Rmult_le_pos; [easy|]. left. apply Rinv_0_lt_compat. lra.
  Qed.
  Lemma chosen_ok m1 m2 : 0 <= m1 -> 0 <= m2 ->
    published h lam (Z.to_nat n) r m1 m2 a <= (m1 / 8 + m2) * exp (- D).
  Proof.
    intros H1 H2. unfold published. rewrite Rmult_plus_distr_r.
    apply Rplus_le_compat; [now apply chosen_T|now apply chosen_Q].
  Qed.
End Chosen.
Lemma exp_D prec : (0 <= prec)%Z -> exp (- (IZR prec * ln 2)) = / 2 ^ Z.to_nat prec.
Proof.
  intro H. rewrite exp_Ropp. f_equal. rewrite <- Rpower_pow by lra.
  rewrite INR_IZR_INZ, Z2Nat.id by easy. easy.
Qed.
Lemma de_params_d_eq rk m prec r h n : (1 < m)%Z -> de_params_d rk m prec = Done (r, h, n) ->
  choose_r rk = Done r /\
  h = 2 * PI * r / (IZR prec * ln 2 + ln (2 * B_r lam r (alpha 1 m) + 1)) /\
  n = (- Int_part (- (arcsinh ((IZR prec * ln 2 + ln (32 / alpha 1 m)) / (2 * alpha 1 m * lam)) / h)))%Z.
Proof.
  intros Hm. unfold de_params_d. destruct (choose_r rk) as [x| | |] eqn:E; cbn [bind]; try easy.
  assert (Hx := choose_r_range rk x E). rewrite alpha_eq by lia.
  fold lam. rewrite b_d_eq by (try easy; apply alpha_range; lia).
  cbv zeta. rewrite !Rmult_1_r.
  intro I. assert (I1 : x = r) by now injection I.
  subst x. split; [easy|].
  assert (I2 : 2 * PI * r / (IZR prec * ln 2 + ln (2 * B_r lam r (alpha 1 m) + 1)) = h) by congruence.
  split; [easy|].
  assert (I3 := f_equal (fun o => match o with Done q => snd q | _ => 0%Z end) I).
  cbn [snd] in I3. rewrite I2 in I3. now rewrite <- I3.
Qed.

(** ** The other exponents *)
Lemma exp_le a b : a <= b -> exp a <= exp b.
Proof. intros [H| ->]; [left; now apply exp_increasing|lra]. Qed.
Lemma sinh_plus x y : sinh (x + y) = sinh x * cosh y + cosh x * sinh y.
Proof.
  unfold sinh, cosh. rewrite Ropp_plus_distr, !exp_plus. field.
Qed.
Lemma cosh_le_sinh x : 0 <= x -> cosh x <= sinh x + 1.
Proof.
  intro H. assert (E := exp_le (- x) 0). rewrite exp_0 in E. unfold cosh, sinh. lra.
Qed.
Lemma exp_small x : 0 <= x <= 1 / 2 -> exp x <= 1 + 2 * x.
Proof.
  intro H. assert (E := exp_ineq1_le (- x)). rewrite exp_Ropp in E.
  assert (H1 := exp_pos x).
  assert (E2 : (1 - x) * exp x <= 1).
  { replace 1 with (/ exp x * exp x) at 2 by (field; lra). apply Rmult_le_compat_r; lra. }
  assert (E3 : (1 - x) * (1 + 2 * x) = 1 + x * (1 - 2 * x)) by ring.
  assert (0 <= x * (1 - 2 * x)) by (apply Rmult_le_pos; lra).
  apply (Rmult_le_reg_l (1 - x)); lra.
Qed.
Lemma exp_quarter x : 0 <= x -> x * x / 4 <= exp x.
Proof.
  intro H. replace x with (x / 2 + x / 2) at 3 by field. rewrite exp_plus.
  assert (E := exp_ineq1_le (x / 2)). replace (x * x / 4) with (x / 2 * (x / 2)) by field.
  apply Rmult_le_compat; lra.
Qed.
Lemma cosh_ge_1 x : 1 <= cosh x.
Proof.
  unfold cosh. assert (H := exp_pos x). rewrite exp_Ropp. 
  assert (E : exp x + / exp x - 2 = (exp x - 1) * (exp x - 1) * / exp x) by (field; lra).
  assert (0 <= (exp x - 1) * (exp x - 1) * / exp x).
  { apply Rmult_le_pos; [apply Rle_0_sqr|]. left. now apply Rinv_0_lt_compat. }
  lra.
Qed.
Lemma cosh_le_exp x : 0 <= x -> cosh x <= exp x.
Proof. intro H. assert (E := exp_le (- x) x). unfold cosh. lra. Qed.
Lemma weight_lower l a t : 0 < l -> 0 < a -> 0 <= t ->
  l * exp (- (2 * a * l * sinh t)) <= weight l a t.
Proof.
  intros Hl Ha Ht. unfold weight. assert (Hs : 0 <= sinh t) by (rewrite <- sinh_0; now apply sinh_le).
  assert (Hls : 0 <= l * sinh t) by (apply Rmult_le_pos; lra).
  assert (H1 := cosh_pos (l * sinh t)).
  assert (H2 : Rpower (cosh (l * sinh t)) (2 * a) <= exp (2 * a * l * sinh t)).
  { replace (exp (2 * a * l * sinh t)) with (Rpower (exp (l * sinh t)) (2 * a)).
    - apply Rle_Rpower_l; [lra|]. split; [easy|now apply cosh_le_exp].
    - unfold Rpower. rewrite ln_exp. f_equal. ring. }
  rewrite exp_Ropp. unfold Rdiv. assert (H3 := cosh_ge_1 t). assert (H4 := exp_pos (2 * a * l * sinh t)).
  apply Rmult_le_compat.
  - lra.
  - left. now apply Rinv_0_lt_compat.
  - rewrite <- (Rmult_1_r l) at 1. apply Rmult_le_compat_l; lra.
  - apply Rinv_le_contravar; [apply Rpower_pos|easy].
Qed.

Section Other.
  Context (r : R) (m : Z) (Hr : 0 < r <= 126 / 100) (Hm : (2 < m)%Z).
  Let a := alpha 1 m.
  Let B := B_r lam r a.
  Let L1 := ln (2 * B + 1).
  Let c := ln (32 / a).
  Let K := 2 * (2 * PI * r / (2 * a * lam) * (1 + c)) + 1.
  Let kappa := 2 * PI * r * lam * exp (- (c / IZR (m - 1)) - 2 * lam / IZR m * K).
  Let D prec := IZR prec * ln 2.
  Let h prec := 2 * PI * r / (D prec + L1).
  Let x0 prec := (D prec + c) / (2 * a * lam).
  Let n prec := (- Int_part (- (arcsinh (x0 prec) / h prec)))%Z.
  Lemma kappa_pos : 0 < kappa.
  Proof.
    unfold kappa. assert (HL := lam_bounds). assert (HP := PI_RGT_0). apply Rmult_lt_0_compat; [|apply exp_pos].
    apply Rmult_lt_0_compat; [|lra]. apply Rmult_lt_0_compat; lra.
  Qed.
  Lemma sinh_upper prec : (0 <= prec)%Z -> 1 <= D prec -> h prec <= 1 / 2 ->
    sinh (IZR (n prec) * h prec) <= x0 prec + K.
  Proof.
    intros Hp HD Hh. assert (Hm1 : (1 < m)%Z) by lia.
    assert (N := n_bounds r m prec Hr Hm1 Hp). fold a B L1 c (D prec) (h prec) (x0 prec) (n prec) in N.
    assert (H0 := h_pos r m prec Hr Hm1 Hp). fold a B L1 (D prec) (h prec) in H0.
    assert (HL1 := L1_pos r m 0%Z Hr Hm1). fold a B L1 in HL1.
    assert (Hc := c32 r m 0%Z Hm1). fold a c in Hc.
    assert (Ha := a_range r m 0%Z Hm1). fold a in Ha. assert (HL := lam_bounds).
    assert (Hx := x0_pos r m prec Hm1 Hp). fold a c (D prec) (x0 prec) in Hx.
    assert (HA := arcsinh_nonneg r m prec Hm1 Hp). fold a c (D prec) (x0 prec) in HA.
    eapply Rle_trans; [apply sinh_le, N|]. rewrite sinh_plus, sinh_arcsinh.
    assert (C := cosh_le_sinh (arcsinh (x0 prec))). rewrite sinh_arcsinh in C.
    assert (E := exp_small (h prec)).
    assert (Hsp := sinh_pos (h prec) H0).
    assert (S1 : cosh (arcsinh (x0 prec)) * sinh (h prec) <= (x0 prec + 1) * sinh (h prec))
      by (apply Rmult_le_compat_r; lra).
    assert (S2 : x0 prec * cosh (h prec) + x0 prec * sinh (h prec) = x0 prec * exp (h prec))
      by (unfold sinh, cosh; field).
    assert (S3 : x0 prec * exp (h prec) <= x0 prec * (1 + 2 * h prec)) by (apply Rmult_le_compat_l; lra).
    assert (S4 : sinh (h prec) <= 1).
    { unfold sinh. assert (H5 := exp_pos (- h prec)). lra. }
    assert (S5 : h prec * x0 prec <= 2 * PI * r / (2 * a * lam) * (1 + c)).
    { unfold h, x0. assert (HP := PI_RGT_0).
      assert (0 < 2 * a * lam) by (apply Rmult_lt_0_compat; lra).
      replace (2 * PI * r / (D prec + L1) * ((D prec + c) / (2 * a * lam)))
        with (2 * PI * r / (2 * a * lam) * ((D prec + c) / (D prec + L1))) by (field; lra).
      apply Rmult_le_compat_l.
      - apply Rlt_le, Rdiv_lt_0_compat; [|lra]. apply Rmult_lt_0_compat; lra.
      - apply Rle_div_l; [lra|]. assert (1 * 1 <= D prec * 1) by lra.
        assert (0 <= c * (D prec - 1)) by (apply Rmult_le_pos; lra).
        assert (0 <= L1 * (1 + c)) by (apply Rmult_le_pos; lra). lra. }
    unfold K. lra.
  Qed.
  Lemma omitted_lower prec : (0 <= prec)%Z -> 1 <= D prec -> h prec <= 1 / 2 ->
    kappa / (D prec + L1) * exp (- (D prec / IZR (m - 1)))
    <= h prec * weight lam (alpha (m - 1) m) (IZR (n prec) * h prec).
  Proof.
    intros Hp HD Hh. assert (Hm1 : (1 < m)%Z) by lia.
    assert (U := sinh_upper prec Hp HD Hh).
    assert (H0 := h_pos r m prec Hr Hm1 Hp). fold a B L1 (D prec) (h prec) in H0.
    assert (HN := n_pos r m prec Hr Hm1 Hp). fold a B L1 c (D prec) (h prec) (x0 prec) (n prec) in HN.
    assert (HL1 := L1_pos r m 0%Z Hr Hm1). fold a B L1 in HL1.
    assert (Ha := a_range r m 0%Z Hm1). fold a in Ha. assert (HL := lam_bounds).
    assert (Hm0 : 2 < IZR m) by now apply IZR_lt.
    assert (Hmm : IZR (m - 1) = IZR m - 1) by now rewrite minus_IZR.
    assert (Ea : a * IZR m = IZR (m - 1)) by (unfold a, alpha; rewrite Hmm; field; lra).
    assert (E1 : alpha (m - 1) m = / IZR m) by (unfold alpha; rewrite Hmm; field; lra).
    rewrite E1. assert (Hi : 0 < / IZR m) by (apply Rinv_0_lt_compat; lra).
    assert (Ht : 0 <= IZR (n prec) * h prec).
    { apply Rmult_le_pos; [apply IZR_le; lia|lra]. }
    assert (W := weight_lower lam (/ IZR m) (IZR (n prec) * h prec)).
    eapply Rle_trans; [|apply Rmult_le_compat_l; [lra|apply W; lra]].
    assert (E2 : exp (- (c / IZR (m - 1)) - 2 * lam / IZR m * K) * exp (- (D prec / IZR (m - 1)))
      <= exp (- (2 * / IZR m * lam * sinh (IZR (n prec) * h prec)))).
    { rewrite <- exp_plus. apply exp_le.
      assert (E3 : 2 * / IZR m * lam * x0 prec = (D prec + c) / IZR (m - 1)).
      { unfold x0. rewrite <- Ea. field. lra. }
      assert (E4 : 2 * / IZR m * lam * sinh (IZR (n prec) * h prec) <= 2 * / IZR m * lam * (x0 prec + K)).
      { apply Rmult_le_compat_l; [|easy]. apply Rmult_le_pos; lra. }
      rewrite Rmult_plus_distr_l, E3 in E4.
      replace (2 * / IZR m * lam * K) with (2 * lam / IZR m * K) in E4 by (unfold Rdiv; ring).
      unfold Rdiv in *. lra. }
    unfold kappa, h at 1.
    replace (2 * PI * r * lam * exp (- (c / IZR (m - 1)) - 2 * lam / IZR m * K) / (D prec + L1)
       * exp (- (D prec / IZR (m - 1))))
      with (2 * PI * r / (D prec + L1) * (lam * (exp (- (c / IZR (m - 1)) - 2 * lam / IZR m * K)
       * exp (- (D prec / IZR (m - 1)))))) by (unfold Rdiv; ring).
    apply Rmult_le_compat_l; [|apply Rmult_le_compat_l; lra].
    change (0 <= h prec). lra.
  Qed.
  Lemma exceeds Cst m1 m2 : 0 <= Cst -> 0 <= m1 -> 0 <= m2 -> exists p0 : Z, (0 <= p0)%Z /\ forall prec, (p0 <= prec)%Z ->
    Cst * ((m1 / 8 + m2) * exp (- D prec)) < h prec * weight lam (alpha (m - 1) m) (IZR (n prec) * h prec).
  Proof.
    intros HC H1 H2. assert (Hm1 : (1 < m)%Z) by lia. assert (Hk := kappa_pos).
    assert (HL1 := L1_pos r m 0%Z Hr Hm1). fold a B L1 in HL1.
    set (A := Cst * (m1 / 8 + m2)). assert (HA : 0 <= A) by (apply Rmult_le_pos; lra).
    set (D0 := 16 * A * (1 + L1) / kappa + 4 * PI * r + 1).
    assert (HP := PI_RGT_0).
    assert (HPr : 0 < PI * r) by (apply Rmult_lt_0_compat; lra).
    assert (HD0 : 0 <= 16 * A * (1 + L1) / kappa).
    { apply Rmult_le_pos; [|left; now apply Rinv_0_lt_compat]. apply Rmult_le_pos; lra. }
    assert (Hl2 := ln2_pos).
    exists (up (D0 / ln 2)). assert (Hup := proj1 (archimed (D0 / ln 2))).
    assert (HD0p : 0 < D0) by (unfold D0; lra).
    assert (Hpos : 0 < D0 / ln 2) by now apply Rdiv_lt_0_compat.
    split. { apply le_IZR. lra. }
    intros prec Hp.
    assert (HD : D0 < D prec).
    { unfold D. replace D0 with (D0 / ln 2 * ln 2) by (field; lra). apply Rmult_lt_compat_r; [easy|].
      apply IZR_le in Hp. lra. }
    assert (Hp0 : (0 <= prec)%Z).
    { apply IZR_le in Hp. apply le_IZR. lra. }
    assert (HD1 : 1 <= D prec) by (unfold D0 in HD; lra).
    assert (Hh : h prec <= 1 / 2).
    { unfold h. apply Rle_div_l; [lra|]. unfold D0 in HD. lra. }
    eapply Rlt_le_trans; [|apply (omitted_lower prec Hp0 HD1 Hh)].
    rewrite <- Rmult_assoc. fold A.
    assert (Hm2 : 2 <= IZR (m - 1)) by (apply IZR_le; lia).
    set (d := D prec) in *. clearbody d. clear Hh Hup Hp.
    apply (Rmult_lt_reg_r (exp d * (d + L1))). { apply Rmult_lt_0_compat; [apply exp_pos|lra]. }
    rewrite exp_Ropp. assert (Hed := exp_pos d).
    replace (A * / exp d * (exp d * (d + L1))) with (A * (d + L1)) by (field; lra).
    replace (kappa / (d + L1) * exp (- (d / IZR (m - 1))) * (exp d * (d + L1)))
      with (kappa * (exp (- (d / IZR (m - 1))) * exp d)) by (field; lra).
    rewrite <- exp_plus.
    assert (E : d / 2 <= - (d / IZR (m - 1)) + d).
    { assert (d / IZR (m - 1) <= d / 2); [|lra].
      unfold Rdiv. apply Rmult_le_compat_l; [lra|]. apply Rinv_le_contravar; lra. }
    assert (E2 := exp_quarter (d / 2)). assert (E3 := exp_le _ _ E).
    assert (E4 : kappa * (d * d / 16) <= kappa * exp (- (d / IZR (m - 1)) + d)).
    { apply Rmult_le_compat_l; [lra|]. replace (d * d / 16) with (d / 2 * (d / 2) / 4) by field. lra. }
    eapply Rlt_le_trans; [|exact E4].
    assert (E5 : A * (d + L1) <= A * (1 + L1) * d).
    { replace (A * (1 + L1) * d) with (A * (d + L1 * d)) by ring. apply Rmult_le_compat_l; [easy|].
      assert (0 <= L1 * (d - 1)) by (apply Rmult_le_pos; lra). lra. }
    assert (E6 : 16 * A * (1 + L1) < d * kappa).
    { apply Rlt_div_l; [easy|]. unfold D0 in HD. lra. }
    assert (E7 : 16 * A * (1 + L1) * d < d * kappa * d) by (apply Rmult_lt_compat_r; lra).
    lra.
  Qed.
End Other.
