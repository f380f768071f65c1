(** The double exponential rule with the parameters chosen: order of the error. *)
From Coq Require Import Reals Lra Lia List.
From Coquelicot Require Import Coquelicot.
From Verif Require Import CArg ModelCurve ProofCurve ModelVec SpecVec ProofVec ModelQuad SpecQuad SpecEdge ProofTrap SpecErr ModelDe SpecDe ProofDe ProofDe2 ProofDe3 ProofErr3 ProofErr4 ProofErr5
  ProofHol1 ProofHol2 ProofHol3 ProofHol4 ProofHol5 ProofHol6 ProofHol7 ProofHol8 ProofHol9.
Import ListNotations.
Local Open Scope R_scope.

Lemma is_int_unique f I J : is_int f I -> is_int f J -> I = J.
Proof.
  intros [H1 H2] [K1 K2]. apply injective_projections.
  - rewrite <- (is_RInt_gen_unique (V := R_CompleteNormedModule) _ _ H1). apply (is_RInt_gen_unique (V := R_CompleteNormedModule) _ _ K1).
  - rewrite <- (is_RInt_gen_unique (V := R_CompleteNormedModule) _ _ H2). apply (is_RInt_gen_unique (V := R_CompleteNormedModule) _ _ K2).
Qed.

(** ** The strip chosen *)
Lemma choose_r_scaled rk r : choose_r rk = Done r -> 0 < r <= 126 / 100 /\ forall x, In x rk -> r * (10 / 9) <= x.
Proof.
  intro Hr. split; [now apply (choose_r_range rk)|]. revert Hr.
  unfold choose_r. assert (H : forall rk r0 r, 0 < r0 -> smallest_r rk r0 = Done r ->
    0 < r <= r0 /\ (forall x, In x rk -> r <= x)).
  { clear. induction rk as [|x rk IH]; cbn; intros r0 r H0 H.
    - injection H as <-. split; [lra|easy].
    - destruct (Rle_dec x 0); [easy|]. apply IH in H; [|destruct (Rlt_dec x r0); lra].
      destruct H as [[H1 H2] H3]. destruct (Rlt_dec x r0).
      + split; [lra|]. intros y [<-|Hy]; [lra|now apply H3].
      + split; [lra|]. intros y [<-|Hy]; [lra|now apply H3]. }
  destruct (smallest_r rk _) as [y| | |] eqn:E; cbn; try easy.
  apply H in E; [|lra]. destruct E as [E1 E2]. intros I x Hx. injection I as <-. apply E2 in Hx. lra.
Qed.
Definition points (ws : list C) (rk : list R) : Prop := Forall2 (fun w x => exists z, principal lam w z /\ x = Rabs (snd z)) ws rk.
Lemma points_in ws rk w : points ws rk -> In w ws -> exists x z, In x rk /\ principal lam w z /\ x = Rabs (snd z).
Proof.
  intro H. induction H as [|a b la lb H HF IH]; cbn; [easy|]. intros [<-|Hw].
  - destruct H as (z & P). exists b, z. split; [now left|exact P].
  - destruct (IH Hw) as (x & z & Hx & Hy). exists x, z. split; [now right|easy].
Qed.
Lemma principal_ends w z : principal lam w z -> w <> RtoC 1 /\ w <> RtoC (-1).
Proof.
  intros (P1 & P2 & _). fold (lsinh lam z) in P1. fold (cmap lam) in P2.
  assert (E1 := cmap_one lam z P1). assert (Q : 0 < Cmod (ccosh (lsinh lam z))) by now apply Cmod_gt_0.
  split; intro E.
  - rewrite P2, E in E1. replace (RtoC 1 - RtoC 1)%C with (RtoC 0) in E1 by ring. rewrite Cmod_0 in E1.
    assert (0 < exp (- fst (lsinh lam z)) / Cmod (ccosh (lsinh lam z))) by (apply Rdiv_lt_0_compat; [apply exp_pos|exact Q]). lra.
  - assert (P1' : ccosh (lsinh lam (- z)%C) <> RtoC 0) by (rewrite lsinh_opp, ccosh_opp; exact P1).
    assert (E2 := cmap_one lam (- z)%C P1'). rewrite cmap_opp, P2, E in E2 by exact P1.
    replace (- RtoC (-1) - RtoC 1)%C with (RtoC 0) in E2 by (unfold RtoC, Copp, Cminus, Cplus; apply injective_projections; cbn; ring). rewrite Cmod_0 in E2.
    assert (0 < Cmod (ccosh (lsinh lam (- z)%C))) by now apply Cmod_gt_0.
    assert (0 < exp (- fst (lsinh lam (- z)%C)) / Cmod (ccosh (lsinh lam (- z)%C))) by (apply Rdiv_lt_0_compat; [apply exp_pos|assumption]). lra.
Qed.
Lemma open_strip ws rk r : choose_r rk = Done r -> points ws rk ->
  let r0 := r * (10 / 9) in
  0 < r < r0 /\ r0 <= PI / 2 /\ lam * sin r0 <= PI / 2 /\ (forall z p, strip r0 z -> In p ws -> cmap lam z <> p) /\
  forall p, In p ws -> p <> RtoC 1 /\ p <> RtoC (-1).
Proof.
  intros Hr Hp r0. destruct (choose_r_scaled rk r Hr) as (H1 & H2). assert (HP := PI2_3_2). assert (HL := lam_bounds).
  assert (Hr0 : 0 < r < r0) by (unfold r0; lra). assert (Hr1 : r0 <= PI / 2) by (unfold r0; lra).
  assert (Hs : lam * sin r0 <= PI / 2). { assert (S := SIN_bound r0). unfold lam in *. nra. }
  split; [exact Hr0|]. split; [exact Hr1|]. split; [exact Hs|]. split.
  - intros z p Hz Hq E. destruct (points_in ws rk p Hp Hq) as (x & z' & Hx & HP' & Ex).
    assert (Hn : ccosh (lsinh lam z) <> RtoC 0) by (apply (strip_nonzero lam r0); lra || assumption).
    assert (HS := principal_smallest lam p z z' ltac:(lra) HP' Hn E). assert (Hlt := H2 x Hx). unfold strip in Hz. fold r0 in Hlt. lra.
  - intros p Hq. destruct (points_in ws rk p Hp Hq) as (x & z' & _ & HP' & _). now apply (principal_ends p z').
Qed.

(** ** One fewer node *)
Lemma sinh_le_mul x : 0 <= x -> sinh x <= x * cosh x.
Proof.
  intro H. destruct (MVT_gen (fun x => x * cosh x - sinh x) 0 x (fun x => x * sinh x)) as (c & Hc & E).
  - intros y _. assert (D1 : is_derive cosh y (sinh y)) by (exact (proj2 (is_derive_Reals cosh y (sinh y)) (derivable_pt_lim_cosh y))).
    assert (D2 : is_derive sinh y (cosh y)) by (exact (proj2 (is_derive_Reals sinh y (cosh y)) (derivable_pt_lim_sinh y))).
    assert (D3 := der_mult (fun x => x) cosh y 1 (sinh y) (is_derive_id y) D1). assert (D4 := der_minus _ _ y _ _ D3 D2). cbv beta in D4.
    replace (y * sinh y) with (1 * cosh y + y * sinh y - cosh y) by ring. exact D4.
  - intros y _. apply continuity_pt_filterlim. apply (ex_derive_continuous (V := R_NormedModule) (fun x => x * cosh x - sinh x)). unfold cosh, sinh. auto_derive. trivial.
  - rewrite Rmin_left, Rmax_right in Hc by lra. rewrite sinh_0 in E. rewrite Rmult_0_l, Rminus_0_r, Rminus_0_r in E.
    assert (S := sinh_ge_id c ltac:(lra)). assert (0 <= c * sinh c * x) by (apply Rmult_le_pos; [apply Rmult_le_pos; lra|lra]). lra.
Qed.
Section Params.
  Context (r : R) (m : Z) (Hr : 0 < r <= 126 / 100) (Hm : (1 < m)%Z).
  Let a := alpha 1 m.
  Let B := B_r lam r a.
  Let L1 := ln (2 * B + 1).
  Let c := ln (32 / a).
  Let D (prec : Z) := IZR prec * ln 2.
  Definition p_h (prec : Z) : R := 2 * PI * r / (D prec + L1).
  Let x0 (prec : Z) := (D prec + c) / (2 * a * lam).
  Definition p_n (prec : Z) : Z := (- Int_part (- (arcsinh (x0 prec) / p_h prec)))%Z.
  Let hm := 2 * PI * r / L1.
  Definition p_K : R := cosh hm * (2 * PI * r / (2 * a * lam) * (1 + c / L1)) + sinh hm.
  Lemma p_h_max prec : (0 <= prec)%Z -> 0 < p_h prec <= hm.
  Proof using Hr Hm.
    intro Hp. assert (H0 := h_pos r m prec Hr Hm Hp). fold a B L1 (D prec) (p_h prec) in H0. split; [exact H0|].
    assert (HD := D_nonneg prec Hp). fold (D prec) in HD. assert (HL1 := L1_pos r m prec Hr Hm). fold a B L1 in HL1. assert (HP := PI_RGT_0).
    unfold p_h, hm. apply Rmult_le_compat_l; [apply Rmult_le_pos; lra|]. apply Rinv_le_contravar; lra.
  Qed.
  Lemma p_n_pos prec : (0 <= prec)%Z -> (0 < p_n prec)%Z.
  Proof using Hr Hm. intro Hp. exact (n_pos r m prec Hr Hm Hp). Qed.
  Lemma p_last prec : (0 <= prec)%Z -> x0 prec - p_K <= sinh (INR (Z.to_nat (p_n prec) - 1) * p_h prec).
  Proof using Hr Hm.
    intro Hp. assert (N := n_bounds r m prec Hr Hm Hp). fold a B L1 c (D prec) (p_h prec) (x0 prec) (p_n prec) in N.
    destruct (p_h_max prec Hp) as [H0 H1]. assert (Hn := p_n_pos prec Hp).
    assert (HL1 := L1_pos r m prec Hr Hm). fold a B L1 in HL1.
    assert (Hc := c32 r m prec Hm). fold a c in Hc.
    assert (Ha := a_range r m prec Hm). fold a in Ha. assert (HL := lam_bounds).
    assert (Hx := x0_pos r m prec Hm Hp). fold a c (D prec) (x0 prec) in Hx.
    assert (HA := arcsinh_nonneg r m prec Hm Hp). fold a c (D prec) (x0 prec) in HA.
    assert (HD := D_nonneg prec Hp). fold (D prec) in HD.
    assert (EN : INR (Z.to_nat (p_n prec) - 1) = IZR (p_n prec) - 1).
    { rewrite INR_IZR_INZ. rewrite Nat2Z.inj_sub by lia. rewrite Z2Nat.id by lia. rewrite minus_IZR. reflexivity. }
    rewrite EN. set (h := p_h prec) in *. set (A := arcsinh (x0 prec)) in *.
    eapply Rle_trans; [|apply (sinh_le (A - h)); lra].
    assert (ES : sinh (A - h) = sinh A * cosh h - cosh A * sinh h).
    { unfold Rminus. rewrite sinh_plus, sinh_Ropp, cosh_Ropp. ring. }
    rewrite ES. unfold A at 1. rewrite sinh_arcsinh. assert (Cc := cosh_le_sinh A ltac:(lra)). unfold A at 2 in Cc. rewrite sinh_arcsinh in Cc.
    assert (C1 := ProofDe2.cosh_ge_1 h). assert (Sp := sinh_pos h H0).
    assert (S2 : sinh h <= sinh hm) by (apply sinh_le; exact H1).
    assert (S3 : sinh h <= h * cosh hm).
    { eapply Rle_trans; [apply sinh_le_mul; lra|]. apply Rmult_le_compat_l; [lra|]. apply ProofDe2.cosh_le. lra. }
    assert (S5 : h * x0 prec <= 2 * PI * r / (2 * a * lam) * (1 + c / L1)).
    { unfold h, p_h, x0. assert (HP := PI_RGT_0).
      assert (0 < 2 * a * lam) by (apply Rmult_lt_0_compat; lra).
      replace (2 * PI * r / (D prec + L1) * ((D prec + c) / (2 * a * lam)))
        with (2 * PI * r / (2 * a * lam) * ((D prec + c) / (D prec + L1))) by (field; lra).
      apply Rmult_le_compat_l.
      - apply Rlt_le, Rdiv_lt_0_compat; [|lra]. apply Rmult_lt_0_compat; lra.
      - apply Rle_div_l; [lra|]. replace ((1 + c / L1) * (D prec + L1)) with (D prec + L1 + D prec * (c / L1) + c) by (field; lra).
        assert (0 <= D prec * (c / L1)) by (apply Rmult_le_pos; [lra|apply Rdiv_le_0_compat; lra]). lra. }
    assert (T1 : x0 prec * 1 <= x0 prec * cosh h) by (apply Rmult_le_compat_l; lra).
    assert (T2 : cosh A * sinh h <= (x0 prec + 1) * sinh h) by (apply Rmult_le_compat_r; lra).
    assert (T3 : x0 prec * sinh h <= x0 prec * (h * cosh hm)) by (apply Rmult_le_compat_l; lra).
    assert (T4 : cosh hm * (h * x0 prec) <= cosh hm * (2 * PI * r / (2 * a * lam) * (1 + c / L1))).
    { apply Rmult_le_compat_l; [left; apply ProofDe2.cosh_pos|exact S5]. }
    unfold p_K. lra.
  Qed.
  Context (j : Z) (Hj : (1 <= j < m)%Z).
  Let aj := alpha j m.
  Lemma p_aj : 0 < aj <= a.
  Proof using Hj Hm.
    split; [apply alpha_range; lia|]. unfold aj, a, alpha. assert (0 < IZR m) by (apply IZR_lt; lia). assert (1 <= IZR j) by (apply IZR_le; lia).
    assert (1 / IZR m <= IZR j / IZR m); [|lra]. apply Rmult_le_compat_r; [left; now apply Rinv_0_lt_compat|lra].
  Qed.
  Lemma p_exponent prec : (0 <= prec)%Z -> aj / a * D prec - 2 * aj * lam * p_K <= 2 * aj * lam * sinh (INR (Z.to_nat (p_n prec) - 1) * p_h prec).
  Proof using Hr Hm Hj.
    intro Hp. assert (H := p_last prec Hp). destruct p_aj as [A1 A2]. assert (HL := lam_bounds). assert (Hc := c32 r m prec Hm). fold a c in Hc.
    assert (P : 0 < 2 * aj * lam) by (apply Rmult_lt_0_compat; lra).
    assert (2 * aj * lam * (x0 prec - p_K) <= 2 * aj * lam * sinh (INR (Z.to_nat (p_n prec) - 1) * p_h prec)) by (apply Rmult_le_compat_l; lra).
    assert (E : 2 * aj * lam * x0 prec = aj / a * D prec + aj / a * c) by (unfold x0; field; lra).
    assert (0 <= aj / a * c) by (apply Rmult_le_pos; [apply Rdiv_le_0_compat; lra|lra]). lra.
  Qed.
  Lemma p_T m1 prec : (0 <= prec)%Z -> 0 <= m1 ->
    e_T (p_h prec) lam (Z.to_nat (p_n prec) - 1) m1 aj <= Rpower 2 (2 * aj) * m1 / aj * exp (2 * aj * lam * p_K) * exp (- (aj / a * D prec)).
  Proof using Hr Hm Hj.
    intros Hp H1. unfold e_T. rewrite (Rmult_assoc (Rpower 2 (2 * aj) * m1 / aj)), <- exp_plus. destruct p_aj as [A1 A2]. apply Rmult_le_compat_l.
    - apply Rmult_le_pos; [|left; now apply Rinv_0_lt_compat]. apply Rmult_le_pos; [left; apply Rpower_pos|exact H1].
    - apply ProofDe2.exp_le. assert (H := p_exponent prec Hp). lra.
  Qed.
  Lemma p_Q m2 prec : (0 <= prec)%Z -> 0 <= m2 -> e_Q (p_h prec) lam r m2 aj <= m2 * (B_r lam r aj / B) * exp (- (aj / a * D prec)).
  Proof using Hr Hm Hj.
    intros Hp H2. unfold e_Q. assert (HB := B_pos r m prec Hr Hm). fold a B in HB. assert (HD := D_nonneg prec Hp). fold (D prec) in HD.
    assert (HL1 := L1_pos r m prec Hr Hm). fold a B L1 in HL1. assert (HP := PI_RGT_0). destruct p_aj as [A1 A2].
    assert (HBj : 0 < B_r lam r aj). { destruct (sin_lam r Hr). assert (HL := lam_bounds). apply b_pos; [lra|easy|easy|lia]. }
    replace (2 * PI * r / p_h prec) with (D prec + L1) by (unfold p_h; field; lra).
    unfold L1. rewrite exp_plus, exp_ln by lra.
    assert (E : 1 <= exp (D prec)) by (rewrite <- exp_0; now apply ProofDe2.exp_le).
    assert (Hpos : 0 < 2 * B * exp (D prec)) by (apply Rmult_lt_0_compat; lra).
    assert (Hpos2 : 2 * B * exp (D prec) <= exp (D prec) * (2 * B + 1) - 1) by (rewrite Rmult_plus_distr_l; lra).
    apply Rle_trans with (m2 * (B_r lam r aj / B) * exp (- D prec)).
    - apply Rle_div_l; [lra|]. rewrite exp_Ropp.
      replace (2 * m2 * B_r lam r aj) with (m2 * (B_r lam r aj / B) * / exp (D prec) * (2 * B * exp (D prec))) by (field; lra).
      apply Rmult_le_compat_l; [|easy]. apply Rmult_le_pos; [apply Rmult_le_pos; [easy|apply Rdiv_le_0_compat; lra]|]. left. apply Rinv_0_lt_compat. lra.
    - apply Rmult_le_compat_l; [apply Rmult_le_pos; [easy|apply Rdiv_le_0_compat; lra]|]. apply ProofDe2.exp_le.
      assert (aj / a <= 1) by (apply Rle_div_l; lra). assert (aj / a * D prec <= 1 * D prec) by (apply Rmult_le_compat_r; lra). lra.
  Qed.
  Lemma p_cosh : exists p0 : Z, (0 <= p0)%Z /\ forall prec, (p0 <= prec)%Z -> 1 <= 2 * aj * lam * cosh (INR (Z.to_nat (p_n prec) - 1) * p_h prec).
  Proof using Hr Hm Hj.
    destruct p_aj as [A1 A2]. assert (HL := lam_bounds). set (X := (1 + 2 * aj * lam * p_K) * a / (aj * ln 2)).
    assert (H2 := ln2_pos). exists (Z.max 0 (up X)). split; [lia|]. intros prec Hp.
    assert (H := p_exponent prec ltac:(lia)). assert (C := cosh_gt_sinh (INR (Z.to_nat (p_n prec) - 1) * p_h prec)).
    assert (P : 0 < 2 * aj * lam) by (apply Rmult_lt_0_compat; lra).
    assert (2 * aj * lam * sinh (INR (Z.to_nat (p_n prec) - 1) * p_h prec) < 2 * aj * lam * cosh (INR (Z.to_nat (p_n prec) - 1) * p_h prec)) by now apply Rmult_lt_compat_l.
    assert (HX : X <= IZR prec). { destruct (archimed X) as [U _]. assert (IZR (up X) <= IZR prec) by (apply IZR_le; lia). lra. }
    assert (E : aj / a * (X * ln 2) = 1 + 2 * aj * lam * p_K) by (unfold X; field; lra).
    assert (aj / a * (X * ln 2) <= aj / a * D prec).
    { apply Rmult_le_compat_l; [apply Rdiv_le_0_compat; lra|]. unfold D. apply Rmult_le_compat_r; lra. }
    lra.
  Qed.
End Params.

(** ** One moment *)
Lemma finite_max (f : nat -> R) n : exists M, 0 <= M /\ forall k, (k < n)%nat -> f k <= M.
Proof.
  induction n as [|n (M & HM & H)]; [exists 0; split; [lra|lia]|].
  exists (Rmax M (f n)). split; [eapply Rle_trans; [exact HM|apply Rmax_l]|]. intros k Hk.
  destruct (Nat.eq_dec k n) as [->|E]; [apply Rmax_r|]. eapply Rle_trans; [apply H; lia|apply Rmax_l].
Qed.
Lemma y_inside l r0 ws m n1 x : 0 < l -> 0 < r0 <= PI / 2 -> l * sin r0 <= PI / 2 -> (1 <= m)%Z -> (forall z p, strip r0 z -> In p ws -> cmap l z <> p) ->
  -1 < x < 1 -> y_tilde m ws n1 (RtoC x) <> RtoC 0.
Proof.
  intros Hl Hr Hs Hm Hu Hx. destruct (integrand_holo l r0 Hl Hr Hs m Hm ws n1 0 0 Hu) as (_ & _ & _ & Hy & _).
  assert (H := Hy (de_inv l x, 0) (st_real r0 Hr _)). rewrite cmap_real, de_map_inv in H by assumption. exact H.
Qed.
(** the error for given parameters *)
Theorem de_error_bound l r r0 h m ws n1 j i m1 m2 : 1 <= l -> 0 < r < r0 -> r0 <= PI / 2 -> l * sin r0 <= PI / 2 -> 0 < h -> (0 <= Z.of_nat j < m)%Z ->
  (forall z p, strip r0 z -> In p ws -> cmap l z <> p) ->
  (forall t, -1 < t < 1 -> Cmod (cratio m ws n1 j i (RtoC t)) <= m1) ->
  (forall z, Rabs (snd z) <= r -> Cmod (cratio m ws n1 j i (cmap l z)) <= m2) ->
  let f := SpecQuad.integrand m (fun t => y_tilde m ws n1 (RtoC t)) j i in
  exists I, is_int f I /\ forall N, 1 <= 2 * alpha (Z.of_nat j) m * l * cosh (INR N * h) ->
    Cmod (de_rule l h N f - I)%C <= e_T h l N m1 (alpha (Z.of_nat j) m) + 4 / 3 * e_Q h l r m2 (alpha (Z.of_nat j) m).
Proof.
  intros Hl Hr Hr0 Hs Hh Hj Hu H1 H2 f.
  destruct (integrand_holo l r0 ltac:(lra) ltac:(lra) Hs m ltac:(lia) ws n1 j i Hu) as (F & HF & EF & _ & ER).
  assert (Ha : 0 < alpha (Z.of_nat j) m).
  { unfold alpha. assert (0 < IZR m) by (apply IZR_lt; lia). assert (IZR (Z.of_nat j) / IZR m < 1); [|lra]. apply Rlt_div_l; [assumption|]. rewrite Rmult_1_l. apply IZR_lt. lia. }
  assert (Hsr : l * sin r < PI / 2).
  { apply Rlt_le_trans with (l * sin r0); [|exact Hs]. apply Rmult_lt_compat_l; [lra|]. assert (HP := PI_RGT_0). apply sin_increasing_1; lra. }
  apply (de_moment l r h r0 m1 m2 m (fun t => y_tilde m ws n1 (RtoC t)) j i F); try assumption; try lra; try lia.
  - intros x Hx. apply (y_inside l r0); try lra; try lia; assumption.
  - intro t. rewrite EF by (apply st_real; lra). rewrite cmap_real. apply H1, de_map_range.
  - intros z Hz. rewrite EF by (unfold strip; lra). now apply H2.
Qed.
Lemma ratio_exp j m prec : (1 <= j < m)%Z -> exp (- (alpha j m / alpha 1 m * (IZR prec * ln 2))) = Rpower 2 (- (IZR prec * IZR (m - j) / IZR (m - 1))).
Proof.
  intro H. unfold Rpower. f_equal. unfold alpha. rewrite !minus_IZR. assert (0 < IZR m) by (apply IZR_lt; lia). assert (1 < IZR m) by (apply IZR_lt; lia). field. lra.
Qed.
Theorem de_single ws rk r1 r m n1 j i : choose_r rk = Done r1 -> points ws rk -> 0 < r <= r1 -> (1 <= Z.of_nat j < m)%Z ->
  let f := SpecQuad.integrand m (fun t => y_tilde m ws n1 (RtoC t)) j i in
  exists K I, 0 <= K /\ is_int f I /\ forall prec, (0 <= prec)%Z ->
    Cmod (de_rule lam (p_h r m prec) (Z.to_nat (p_n r m prec) - 1) f - I)%C <= K * Rpower 2 (- (IZR prec * IZR (m - Z.of_nat j) / IZR (m - 1))).
Proof.
  intros Hr1 Hp Hr Hj f. assert (Hm : (1 < m)%Z) by lia. assert (HL := lam_bounds). assert (HP := PI2_3_2).
  destruct (open_strip ws rk r1 Hr1 Hp) as (Q1 & Q2 & Q3 & Q4 & O5). assert (Hrr1 := choose_r_range rk r1 Hr1).
  assert (Hrr : 0 < r <= 126 / 100) by lra. set (r0 := r * (10 / 9)) in *.
  assert (O1 : 0 < r < r0) by (unfold r0; lra). assert (O2 : r0 <= PI / 2) by (unfold r0; lra).
  assert (O3 : lam * sin r0 <= PI / 2).
  { assert (B := SIN_bound r0). replace (PI / 2) with (lam * 1) by (unfold lam; ring). apply Rmult_le_compat_l; lra. }
  assert (O4 : forall z p, strip r0 z -> In p ws -> cmap lam z <> p).
  { intros z p Hz. apply Q4. unfold strip in *. unfold r0 in Hz. lra. }
  destruct (ratio_bounded lam r r0 m ws n1 j i ltac:(lra) O1 O2 O3 ltac:(lia) O4 O5) as (M & HM & HB).
  assert (HB1 : forall t, -1 < t < 1 -> Cmod (cratio m ws n1 j i (RtoC t)) <= M).
  { intros t Ht. rewrite <- (de_map_inv lam t) by lra. rewrite <- cmap_real. apply HB. cbn [snd]. rewrite Rabs_R0. lra. }
  assert (HE := fun h Hh => de_error_bound lam r r0 h m ws n1 j i M M ltac:(lra) O1 O2 O3 Hh ltac:(lia) O4 HB1 HB). cbv zeta in HE. fold f in HE.
  destruct (HE 1 Rlt_0_1) as (I & HI & _).
  assert (HE' : forall prec, (0 <= prec)%Z -> forall N, 1 <= 2 * alpha (Z.of_nat j) m * lam * cosh (INR N * p_h r m prec) ->
    Cmod (de_rule lam (p_h r m prec) N f - I)%C <= e_T (p_h r m prec) lam N M (alpha (Z.of_nat j) m) + 4 / 3 * e_Q (p_h r m prec) lam r M (alpha (Z.of_nat j) m)).
  { intros prec Hpr N HN. destruct (HE (p_h r m prec) (proj1 (p_h_max r m Hrr Hm prec Hpr))) as (I' & HI' & H'). rewrite (is_int_unique f I I' HI HI'). now apply H'. }
  destruct (p_cosh r m Hrr Hm (Z.of_nat j) Hj) as (p0 & Hp0 & HC).
  set (g := fun prec => exp (- (alpha (Z.of_nat j) m / alpha 1 m * (IZR prec * ln 2)))).
  set (er := fun prec => Cmod (de_rule lam (p_h r m prec) (Z.to_nat (p_n r m prec) - 1) f - I)%C).
  assert (Hg : forall prec, 0 < g prec) by (intro; apply exp_pos).
  destruct (finite_max (fun k => er (Z.of_nat k) / g (Z.of_nat k)) (Z.to_nat p0)) as (K1 & HK1 & H1).
  set (aj := alpha (Z.of_nat j) m) in *. destruct (p_aj m Hm (Z.of_nat j) Hj) as (A1 & A2). fold aj in A1, A2.
  set (K2 := Rpower 2 (2 * aj) * M / aj * exp (2 * aj * lam * p_K r m)). set (K3 := 4 / 3 * (M * (B_r lam r aj / B_r lam r (alpha 1 m)))).
  assert (HK2 : 0 <= K2).
  { unfold K2. apply Rmult_le_pos; [|left; apply exp_pos]. apply Rmult_le_pos; [|left; now apply Rinv_0_lt_compat]. apply Rmult_le_pos; [left; apply Rpower_pos|exact HM]. }
  assert (HK3 : 0 <= K3).
  { unfold K3. destruct (sin_lam r Hrr) as [S1 S2]. assert (0 < B_r lam r aj) by (apply b_pos; [lra|easy|easy|lia]). assert (0 < B_r lam r (alpha 1 m)) by (apply b_pos; [lra|easy|easy|lia]).
    apply Rmult_le_pos; [lra|]. apply Rmult_le_pos; [exact HM|]. apply Rdiv_le_0_compat; lra. }
  exists (K1 + (K2 + K3)), I. split; [lra|]. split; [exact HI|]. intros prec Hpr. rewrite <- ratio_exp by exact Hj. fold aj. fold (er prec).
  change (exp (- (aj / alpha 1 m * (IZR prec * ln 2)))) with (g prec). assert (Hgp := Hg prec).
  destruct (Z_lt_dec prec p0) as [Q|Q].
  - assert (E := H1 (Z.to_nat prec) ltac:(lia)). cbv beta in E. rewrite Z2Nat.id in E by lia. apply Rle_div_l in E; [|exact Hgp].
    assert (0 <= (K2 + K3) * g prec) by (apply Rmult_le_pos; lra). lra.
  - assert (E := HE' prec Hpr _ (HC prec ltac:(lia))). fold (er prec) in E.
    assert (T1 := p_T r m Hrr Hm (Z.of_nat j) Hj M prec Hpr HM). fold aj in T1. fold K2 in T1. cbv beta in T1. change (exp (- (aj / alpha 1 m * (IZR prec * ln 2)))) with (g prec) in T1.
    assert (T2 := p_Q r m Hrr Hm (Z.of_nat j) Hj M prec Hpr HM). fold aj in T2. cbv beta in T2. change (exp (- (aj / alpha 1 m * (IZR prec * ln 2)))) with (g prec) in T2.
    assert (0 <= K1 * g prec) by (apply Rmult_le_pos; lra). unfold K3. lra.
Qed.
