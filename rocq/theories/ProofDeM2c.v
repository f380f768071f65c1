(** A point close to the edge: the constant M2 does not bound the lower powers. *)
From Coq Require Import Reals Lra Lia List.
From Coquelicot Require Import Coquelicot.
From Verif Require Import CArg ModelMag ModelGc ModelDe SpecMag SpecDe ModelDeM2 SpecDeM2 SpecEdge ProofMag ProofDe2 ProofDe3 ProofHol1 ProofHol5 ProofStrip ProofDeM2 ProofDeM2b.
Import ListNotations.
Local Open Scope R_scope.

Lemma cos_low x : 1 - x * x / 2 <= cos x.
Proof.
  replace (cos x) with (cos (2 * (x / 2))) by (f_equal; field). rewrite cos_2a_sin.
  assert (S : sin (x / 2) * sin (x / 2) <= x / 2 * (x / 2)); [|nra].
  assert (H : Rabs (sin (x / 2)) <= Rabs (x / 2)).
  { assert (G : forall y, 0 <= y -> Rabs (sin y) <= y).
    { intros y Hy. destruct (Rle_dec y 1) as [L|L].
      - assert (P := PI2_3_2). rewrite Rabs_pos_eq by (apply sin_ge_0; lra). destruct (Req_dec y 0) as [->|N]; [rewrite sin_0; lra|]. left. apply sin_lt_x. lra.
      - assert (B := SIN_bound y). apply Rabs_le. lra. }
    destruct (Rle_dec 0 (x / 2)) as [L|L]; [rewrite (Rabs_pos_eq (x / 2)) by exact L; now apply G|].
    rewrite (Rabs_left (x / 2)) by lra. rewrite <- Rabs_Ropp, <- sin_neg. apply G. lra. }
  assert (P := Rabs_pos (sin (x / 2))).
  rewrite <- (Rabs_pos_eq (sin (x / 2) * sin (x / 2))), <- (Rabs_pos_eq (x / 2 * (x / 2))) by nra. rewrite !Rabs_mult. apply Rmult_le_compat; lra.
Qed.
Lemma sin_low x : 0 <= x <= 1 -> x * (1 - x * x / 2) <= sin x.
Proof. intro H. assert (P := PI2_3_2). eapply Rle_trans; [|apply sin_ge_cos; lra]. apply Rmult_le_compat_l; [lra|apply cos_low]. Qed.
Lemma sin_up x : 0 <= x -> sin x <= x.
Proof. intro H. destruct (Req_dec x 0) as [->|N]; [rewrite sin_0; lra|]. left. apply sin_lt_x. lra. Qed.

Lemma cos_near x : 0 < x <= 1 / 100 -> 99 / 100 <= cos x.
Proof. intro H. assert (C := cos_low x). assert (x * x <= 1 / 100 * (1 / 100)) by (apply Rmult_le_compat; lra). lra. Qed.
Lemma sin_near x : 0 <= x <= 1 -> x / 2 <= sin x.
Proof. intro H. eapply Rle_trans; [|apply sin_low, H]. unfold Rdiv at 1. apply Rmult_le_compat_l; [lra|]. assert (x * x <= 1 * 1) by (apply Rmult_le_compat; lra). lra. Qed.
Lemma sq_small e : 0 < e <= 1 / 250 -> 2 * e * (2 * e) <= 1 / 100 /\ 2 * e * (2 * e) * (2 * e * (2 * e)) <= 1 / 100 * e.
Proof.
  intro H. assert (H1 : e * e <= 1 / 250 * e) by (apply Rmult_le_compat_r; lra). assert (H0 : 0 <= e * e) by (apply Rmult_le_pos; lra). split; [lra|].
  replace (2 * e * (2 * e) * (2 * e * (2 * e))) with (16 * (e * e) * (e * e)) by ring. apply Rle_trans with (16 * (1 / 250) * (e * e)); [apply Rmult_le_compat_r; lra|lra].
Qed.
Lemma Cmod_Im_ge z : Rabs (snd z) <= Cmod z.
Proof. eapply Rle_trans; [|apply Rmax_Cmod]. apply Rmax_r. Qed.

Section Near.
Variable rho : R.
Hypothesis Hrho : 0 < rho <= 1 / 1000.
Definition nA : R := lam * sin rho.
Definition eta : R := tan nA.
Definition nr : R := rho * (9 / 10).
Definition npt : C := (0, eta).


Lemma nA_bounds : rho * (199 / 200) * lam <= nA <= rho * lam /\ 0 < nA <= 1 / 500.
Proof.
  assert (HL := lam_bounds). assert (S := sin_low rho ltac:(lra)). assert (U := sin_up rho ltac:(lra)).
  assert (S' : rho * (199 / 200) <= sin rho) by nra. unfold nA. split; [split; [rewrite Rmult_comm; apply Rmult_le_compat_l; lra|rewrite Rmult_comm; apply Rmult_le_compat_r; lra]|].
  assert (0 < sin rho) by lra. split; [nra|]. nra.
Qed.
Lemma cosA : 99 / 100 <= cos nA.
Proof. destruct nA_bounds as (_ & H). assert (C := cos_low nA). nra. Qed.
Lemma eta_bounds : 0 < eta <= 2 * nA /\ eta <= 4 * rho.
Proof.
  destruct nA_bounds as (H1 & H). assert (C := cosA). assert (U := sin_up nA ltac:(lra)). assert (L := sin_low nA ltac:(lra)). assert (HL := lam_bounds).
  assert (S0 : 0 < sin nA) by nra.
  assert (E : eta * cos nA = sin nA) by (unfold eta, tan; field; lra).
  assert (E0 : 0 < eta) by (unfold eta, tan; apply Rdiv_lt_0_compat; lra). assert (E1 : eta <= 102 / 100 * nA) by nra.
  split; [lra|]. nra.
Qed.
Lemma nr_bounds : 0 < nr < PI / 2 /\ lam * sin nr < PI / 2 /\ lam * sin nr <= 9 / 10 * (lam * rho) /\ 0 < lam * sin nr /\ 99 / 100 <= cos nr.
Proof.
  assert (HL := lam_bounds). assert (P := PI2_3_2). assert (U := sin_up nr ltac:(unfold nr; lra)). assert (C := cos_low nr).
  assert (S0 : 0 < sin nr) by (apply sin_gt_0; unfold nr; lra). unfold nr in *. repeat split; try nra.
Qed.
(** the path stays away from the point *)
Lemma near_path t : let z := SpecDe.de_map lam (t, nr) in
  0 < Cmod (z - npt)%C /\ Cmod z * Cmod z * (Cmod z * Cmod z) <= 169 * Cmod (z - npt)%C.
Proof.
  cbv zeta. destruct nr_bounds as (R1 & R2 & R3 & R4 & R5). destruct nA_bounds as (A1 & A2). destruct eta_bounds as (E1 & E2). assert (HL := lam_bounds). assert (P := PI2_3_2).
  set (w := (t, nr) : C). assert (N : ccosh (lsinh lam w) <> RtoC 0) by (apply (strip_cosh lam nr); [lra|lra|lra|]; change (snd w) with nr; rewrite Rabs_pos_eq; lra).
  assert (M := tanh_mod _ N). assert (Co := tanh_coords _ N). assert (CQ := ccosh_sq (lsinh lam w)). unfold SpecDe.de_map. fold (lsinh lam w).
  assert (EX := lsinh_fst lam w). assert (EY := lsinh_snd lam w). change (fst w) with t in EX, EY. change (snd w) with nr in EX, EY.
  set (v := lsinh lam w) in *. set (z := ctanh v) in *. rewrite CQ in Co. set (X := fst v) in *. set (Y := snd v) in *.
  assert (SC := sin2_cos2 Y). unfold Rsqr in SC. set (a := sinh X * sinh X) in *. assert (A0 : 0 <= a) by (unfold a; nra).
  assert (DEN : 0 < a + cos Y * cos Y). { rewrite <- CQ. assert (0 < Cmod (ccosh v)) by now apply Cmod_gt_0. nra. }
  assert (Z0 := Cmod_ge_0 z). set (q := Cmod z) in *.
  assert (TR : q - eta <= Cmod (z - npt)%C).
  { assert (T := Cmod_triangle (z - npt)%C npt). replace (z - npt + npt)%C with z in T by ring. fold q in T.
    assert (Cmod npt = eta). { unfold npt, Cmod. cbn [fst snd]. replace (0 ^ 2 + eta ^ 2) with (Rsqr eta) by (unfold Rsqr; ring). apply sqrt_Rsqr. lra. } lra. }
  destruct (Rle_dec (cosh t) (104 / 100)) as [Hct|Hct].
  - assert (HY : 0 < Y <= 95 / 100 * nA).
    { rewrite EY. assert (C1 := ProofDe2.cosh_ge_1 t). replace (lam * cosh t * sin nr) with (cosh t * (lam * sin nr)) by ring. split; [nra|].
      apply Rle_trans with (104 / 100 * (9 / 10 * (lam * rho))); [apply Rmult_le_compat; lra|]. lra. }
    assert (SY : 0 < sin Y) by (apply sin_gt_0; lra). assert (UY := sin_up Y ltac:(lra)). assert (CY := cos_low Y). assert (CY2 : 99 / 100 <= cos Y) by (apply cos_near; lra).
    assert (Q1 : q * q <= 1). { apply (Rmult_le_reg_r (a + cos Y * cos Y)); [exact DEN|]. rewrite M. assert (99 / 100 * (99 / 100) <= cos Y * cos Y) by (apply Rmult_le_compat; lra). lra. }
    assert (IM : snd z * cos Y <= sin Y).
    { rewrite Co. cbn [snd]. apply (Rmult_le_reg_r (a + cos Y * cos Y)); [exact DEN|]. unfold Rdiv. replace (sin Y * cos Y * / (a + cos Y * cos Y) * cos Y * (a + cos Y * cos Y)) with (sin Y * (cos Y * cos Y)) by (field; lra). apply Rmult_le_compat_l; lra. }
    assert (CA := cosA). assert (EA : eta * cos nA = sin nA) by (unfold eta, tan; field; lra).
    assert (SD := sin_minus nA Y). assert (SL := sin_low (nA - Y) ltac:(lra)).
    assert (D0 : 0 < nA - Y) by lra. assert (SL2 : (nA - Y) / 2 <= sin (nA - Y)) by (apply sin_near; lra).
    assert (GAP : nA / 80 <= (eta - snd z) * (cos nA * cos Y)).
    { assert (sin nA * cos Y - cos nA * sin Y <= (eta - snd z) * (cos nA * cos Y)); [|lra].
      replace ((eta - snd z) * (cos nA * cos Y)) with ((eta * cos nA) * cos Y - cos nA * (snd z * cos Y)) by ring. rewrite EA. apply Rplus_le_compat_l. apply Ropp_le_contravar. apply Rmult_le_compat_l; lra. }
    assert (CAB := COS_bound nA). assert (CYB := COS_bound Y).
    assert (CC : 0 < cos nA * cos Y <= 1) by (split; [apply Rmult_lt_0_compat; lra|]; rewrite <- (Rmult_1_l 1); apply Rmult_le_compat; lra).
    assert (D1 : 0 < eta - snd z). { apply Rnot_le_lt. intro L. assert ((eta - snd z) * (cos nA * cos Y) <= 0) by nra. lra. }
    assert (D2 : nA / 80 <= eta - snd z) by (eapply Rle_trans; [exact GAP|]; rewrite <- (Rmult_1_r (eta - snd z)) at 2; apply Rmult_le_compat_l; lra).
    assert (D3 : eta - snd z <= Cmod (z - npt)%C).
    { eapply Rle_trans; [|apply Cmod_Im_ge]. change (snd (z - npt)%C) with (snd z + - eta). rewrite <- Rabs_Ropp. eapply Rle_trans; [|apply Rle_abs]. lra. }
    split; [lra|]. assert (q <= 1) by (apply Rnot_lt_le; intro; nra). destruct (Rle_dec (2 * eta) q) as [L|L].
    + assert (q * q * (q * q) <= 1 * (q * 1)) by (apply Rmult_le_compat; [nra|nra|lra|apply Rmult_le_compat_l; lra]). lra.
    + apply Rnot_le_lt in L. assert (Q2 : q * q <= 2 * eta * (2 * eta)) by nra. assert (q * q * (q * q) <= 2 * eta * (2 * eta) * (2 * eta * (2 * eta))) by (apply Rmult_le_compat; nra).
      assert (eta <= 1 / 250) by lra. destruct (sq_small eta ltac:(lra)) as [K1 K2]. lra.
  - apply Rnot_le_lt in Hct. assert (CS := cosh_sqr t). assert (S2 : 8 / 100 <= sinh t * sinh t) by nra.
    assert (X2 : 16 / 100 <= X * X).
    { rewrite EX. replace (lam * sinh t * cos nr * (lam * sinh t * cos nr)) with ((sinh t * sinh t) * ((lam * cos nr) * (lam * cos nr))) by ring.
      assert (148 / 100 <= lam * cos nr) by (apply Rle_trans with (3 / 2 * (99 / 100)); [lra|apply Rmult_le_compat; lra]). assert (148 / 100 * (148 / 100) <= lam * cos nr * (lam * cos nr)) by (apply Rmult_le_compat; lra). nra. }
    assert (AX : 16 / 100 <= a).
    { unfold a. assert (G : forall x, x * x <= sinh x * sinh x).
      { intro x. replace (sinh x * sinh x) with (sinh (Rabs x) * sinh (Rabs x)) by (unfold Rabs; destruct (Rcase_abs x); rewrite ?sinh_Ropp; ring).
        replace (x * x) with (Rabs x * Rabs x) by (unfold Rabs; destruct (Rcase_abs x); ring). assert (H := sinh_ge_id (Rabs x) (Rabs_pos x)). assert (H0 := Rabs_pos x). apply Rmult_le_compat; lra. }
      specialize (G X). lra. }
    assert (SY2 : 0 <= sin Y * sin Y) by nra. assert (CY2 : 0 <= cos Y * cos Y) by nra.
    assert (QQ : 0 <= q * q) by nra.
    assert (QU : q * q <= 725 / 100).
    { apply Rnot_lt_le. intro L. assert (725 / 100 * a < q * q * a) by (apply Rmult_lt_compat_r; lra). assert (0 <= q * q * (cos Y * cos Y)) by (apply Rmult_le_pos; lra). lra. }
    assert (QL : 1369 / 10000 <= q * q).
    { apply Rnot_lt_le. intro L. assert (q * q * (a + cos Y * cos Y) <= q * q * (a + 1)) by (apply Rmult_le_compat_l; lra).
      assert (q * q * (a + 1) < 1369 / 10000 * (a + 1)) by (apply Rmult_lt_compat_r; lra). lra. }
    assert (Q3 : 37 / 100 <= q) by (apply Rnot_lt_le; intro L; assert (q * q < 37 / 100 * (37 / 100)) by (apply Rmult_le_0_lt_compat; lra); lra).
    assert (q * q * (q * q) <= 725 / 100 * (725 / 100)) by (apply Rmult_le_compat; nra). split; lra.
Qed.

Lemma near_principal : principal lam npt (0, rho).
Proof.
  destruct nA_bounds as (A1 & A2). assert (CA := cosA). assert (P := PI2_3_2).
  assert (E : (RtoC lam * csinh (0, rho))%C = (0, nA)).
  { unfold csinh, nA. cbn [fst snd]. rewrite sinh_0, cosh_0. apply injective_projections; cbn; ring. }
  unfold principal, SpecDe.de_map. rewrite E.
  assert (C : ccosh (0, nA) = RtoC (cos nA)). { unfold ccosh. cbn [fst snd]. rewrite sinh_0, cosh_0. apply injective_projections; cbn; ring. }
  assert (N : ccosh (0, nA) <> RtoC 0) by (rewrite C; intro X; apply RtoC_inj in X; lra).
  split; [exact N|]. split; [|cbn [snd]; rewrite !Rabs_pos_eq by lra; lra].
  rewrite tanh_coords by exact N. rewrite ccosh_sq. cbn [fst snd]. rewrite sinh_0, cosh_0. unfold npt, eta, tan. f_equal; field; lra.
Qed.
Lemma near_corner : SpecDe.de_map lam (0, nr) = (0, tan (lam * sin nr)) /\ 0 < tan (lam * sin nr) < eta.
Proof.
  destruct nr_bounds as (R1 & R2 & R3 & R4 & R5). destruct nA_bounds as (A1 & A2). assert (P := PI2_3_2). assert (HL := lam_bounds).
  assert (E : (RtoC lam * csinh (0, nr))%C = (0, lam * sin nr)).
  { unfold csinh. cbn [fst snd]. rewrite sinh_0, cosh_0. apply injective_projections; cbn; ring. }
  assert (C0 : 0 < cos (lam * sin nr)) by (apply cos_gt_0; lra).
  assert (C : ccosh (0, lam * sin nr) = RtoC (cos (lam * sin nr))). { unfold ccosh. cbn [fst snd]. rewrite sinh_0, cosh_0. apply injective_projections; cbn; ring. }
  assert (N : ccosh (0, lam * sin nr) <> RtoC 0) by (rewrite C; intro X; apply RtoC_inj in X; lra).
  split.
  - unfold SpecDe.de_map. rewrite E, tanh_coords by exact N. rewrite ccosh_sq. cbn [fst snd]. rewrite sinh_0, cosh_0. unfold tan. f_equal; field; lra.
  - split; [apply tan_gt_0; lra|]. unfold eta. apply tan_increasing; lra.
Qed.

(** a sound evaluation for this case: every value is in [0, 13] *)
Definition near_f (r l : R) (u : list C) (i : nat) (m : Z) (b : ModelMag.ball) : option ModelMag.ball :=
  if Req_EM_T r nr then
    if Req_EM_T l lam then
      if list_eq_dec Ceq_dec u [npt] then if Nat.eq_dec i 2 then if Z.eq_dec m 2 then Some (13 / 2, 13 / 2) else None else None else None
    else None
  else None.
Lemma rroot_two x : 0 <= x -> rroot 2 x * rroot 2 x = x.
Proof. intro H. assert (E := rroot_pow 2 x ltac:(lia) H). cbn [pow] in E. rewrite Rmult_1_r in E. exact E. Qed.
Lemma near_f_sound r l u i m : encloses_some (near_f r l u i m) (max_f l r u i m).
Proof.
  intros t y E x _. unfold near_f in E. destruct (Req_EM_T r nr) as [->|]; [|discriminate]. destruct (Req_EM_T l lam) as [->|]; [|discriminate].
  destruct (list_eq_dec Ceq_dec u [npt]) as [->|]; [|discriminate]. destruct (Nat.eq_dec i 2) as [->|]; [|discriminate]. destruct (Z.eq_dec m 2) as [->|]; [|discriminate].
  injection E as <-. destruct (near_path x) as [H1 H2]. set (z := SpecDe.de_map lam (x, nr)) in *.
  unfold max_f. rewrite mf_map. fold z. cbn [mf_product]. destruct (Ceq_dec (z - npt)%C (RtoC 0)) as [E|E]; [rewrite E, Cmod_0 in H1; lra|].
  eexists. split; [reflexivity|]. rewrite Rmult_1_l. set (q := Cmod z) in *. set (e := Cmod (z - npt)%C) in *. assert (Q := rroot_two e ltac:(lra)). assert (P := rroot_pos 2 e H1).
  set (s := rroot 2 e) in *. assert (Z0 : 0 <= q) by apply Cmod_ge_0. unfold inb. cbn [fst snd pow]. rewrite Rmult_1_r.
  assert (B : q * q <= 13 * s). { apply Rnot_lt_le. intro L. assert (13 * s * (13 * s) < q * q * (q * q)) by (apply Rmult_le_0_lt_compat; lra). nra. }
  split.
  - replace (13 / 2 - 13 / 2) with 0 by field. apply Rdiv_le_0_compat; nra.
  - replace (13 / 2 + 13 / 2) with 13 by field. apply Rle_div_l; lra.
Qed.
Lemma pieces_const f sub t step b n : (forall t, f t = Some b) -> exact_union b b = b ->
  pieces exact_add exact_union f (fun _ => true) sub t step n (Some b) = Done (Some b).
Proof.
  intros Hf Hb. revert t. induction n as [|n IH]; intro t; cbn [pieces]; [reflexivity|]. rewrite Hf. cbn [bind]. rewrite Hb. apply IH.
Qed.
Lemma pieces_first f sub t step b n : (forall t, f t = Some b) -> exact_union b b = b ->
  pieces exact_add exact_union f (fun _ => true) sub t step (S n) None = Done (Some b).
Proof. intros Hf Hb. cbn [pieces]. rewrite Hf. cbn [bind]. apply pieces_const; assumption. Qed.
Definition exact_interval (a b : R) : ModelMag.ball := ((a + b) / 2, (b - a) / 2).
Lemma exact_interval_sound : sound_interval exact_interval.
Proof. intros a b x H. unfold exact_interval, inb. cbn [fst snd]. lra. Qed.
Lemma near_m2 : de_constant_m2 exact_div exact_mid (fun r => r) exact_add exact_union (fun _ => true) exact_interval near_f (fun x => x) lam [npt] nr 2 2 = Done (13 / 2, 13 / 2).
Proof.
  destruct nr_bounds as (R1 & R2 & R3 & R4 & R5). destruct eta_bounds as (E1 & E2). assert (P := PI2_3_2). assert (HL := lam_bounds).
  unfold de_constant_m2. destruct (Rle_dec nr 0); [lra|]. cbv zeta. replace (sin nr * lam) with (lam * sin nr) by ring.
  assert (Q : 1 < PI / (2 * (lam * sin nr))) by (apply Rlt_div_r; lra).
  destruct (Rlt_dec _ 1); [lra|]. assert (A := ProofGc.acosh_pos _ Q). unfold bound_func_arf. destruct (Rlt_dec _ 0); [lra|].
  assert (EV : vec_abs [npt] = [npt]). { unfold vec_abs, npt. cbn [map fst snd]. rewrite Rabs_R0, Rabs_pos_eq by lra. reflexivity. }
  rewrite EV. assert (F : forall b, near_f nr lam [npt] 2 2 b = Some (13 / 2, 13 / 2)).
  { intro b. unfold near_f. destruct (Req_EM_T nr nr); [|easy]. destruct (Req_EM_T lam lam); [|easy]. destruct (list_eq_dec Ceq_dec [npt] [npt]); [|easy]. reflexivity. }
  assert (U : exact_union (13 / 2, 13 / 2) (13 / 2, 13 / 2) = (13 / 2, 13 / 2)).
  { unfold exact_union. cbn [fst snd]. rewrite Rmin_left, Rmax_left by lra. f_equal; field. }
  cbn [bound_func]. unfold exact_interval at 1. cbn [snd]. destruct (Req_EM_T _ 0); [lra|].
  destruct (subdivide _ _ _ _ _) as [t step]. rewrite (pieces_first _ _ _ _ _ 29 F U). reflexivity.
Qed.
Lemma near_value c : 676 * (c * c) * rho < 1 -> forall n1, c * 13 < Cmod (cpow (SpecDe.de_map lam (0, nr)) 0 / cpow (y_tilde 2 [npt] n1 (SpecDe.de_map lam (0, nr))) 1)%C.
Proof.
  intros Hc n1. destruct near_corner as [E1 E2]. rewrite E1. set (z := (0, tan (lam * sin nr)) : C).
  assert (D : Cmod (dprod [npt] z) = eta - tan (lam * sin nr)).
  { unfold dprod. cbn [SpecEdge.cprod]. rewrite Cmod_mult, Cmod_R, Rabs_R1, Rmult_1_r. unfold z, npt, Cmod. cbn [Cminus Cplus Copp fst snd].
    replace ((0 + - 0) ^ 2 + (tan (lam * sin nr) + - eta) ^ 2) with (Rsqr (eta - tan (lam * sin nr))) by (unfold Rsqr; ring). apply sqrt_Rsqr. lra. }
  rewrite ratio_val by (intro E; rewrite E, Cmod_0 in D; lra). unfold val. cbn [pow]. rewrite D. set (e := eta - tan (lam * sin nr)) in *.
  destruct eta_bounds as (B1 & B2). assert (He : 0 < e) by (unfold e; lra). assert (Q := rroot_two e ltac:(lra)). assert (P := rroot_pos 2 e He). set (s := rroot 2 e) in *.
  apply (Rlt_div_r (c * 13) 1 s); [lra|]. apply Rnot_le_lt. intro L. assert (L2 : 1 * 1 <= c * 13 * s * (c * 13 * s)) by (apply Rmult_le_compat; lra).
  replace (c * 13 * s * (c * 13 * s)) with (169 * (c * c) * (s * s)) in L2 by ring. rewrite Q in L2. assert (e <= 4 * rho) by (unfold e; lra). assert (0 <= c * c) by nra. nra.
Qed.
End Near.

Lemma near_params rho prec : 0 < rho <= 1 / 1000 -> exists h n, de_params_d [rho] 2 prec = Done (nr rho, h, n).
Proof.
  intro H. unfold de_params_d, choose_r. cbn [smallest_r]. destruct (Rle_dec rho 0); [lra|]. destruct (Rlt_dec rho (14 / 10)); [|lra]. cbn [bind]. eexists. eexists. reflexivity.
Qed.
Lemma near_forall2 rho : 0 < rho <= 1 / 1000 -> Forall2 (fun w x => exists z, principal (PI / 2) w z /\ x = Rabs (snd z)) [npt rho] [rho].
Proof.
  intro H. apply Forall2_cons; [|apply Forall2_nil]. exists (0, rho). split; [apply (near_principal rho H)|]. cbn [snd]. rewrite Rabs_pos_eq; lra.
Qed.
Lemma near_outside rho prec : 0 < rho <= 1 / 1000 -> forall h n, de_params_d [rho] 2 prec = Done (nr rho, h, n) -> outside (PI / 2) (nr rho) [npt rho].
Proof.
  intros H h n E. destruct (de_params_d_eq [rho] 2 prec _ h n ltac:(lia) E) as (E1 & _). exact (chosen_outside [npt rho] [rho] _ E1 (near_forall2 rho H)).
Qed.
Lemma near_refuted c prec : exists f ws rk r h n M,
  (forall r l u i m, encloses_some (f r l u i m) (max_f l r u i m)) /\
  Forall2 (fun w x => exists z, principal (PI / 2) w z /\ x = Rabs (snd z)) ws rk /\
  de_params_d rk 2 prec = Done (r, h, n) /\ outside (PI / 2) r ws /\
  de_constant_m2 exact_div exact_mid (fun r => r) exact_add exact_union (fun _ => true) exact_interval f (fun x => x) (PI / 2) ws r 2 2 = Done M /\
  length ws = 1%nat /\ 0 < upper M /\
  exists w, Rabs (snd w) <= r /\ forall n1,
    c * upper M < Cmod (cpow (SpecDe.de_map (PI / 2) w) 0 / cpow (y_tilde 2 ws n1 (SpecDe.de_map (PI / 2) w)) 1)%C.
Proof.
  set (rho := / (1000 * (c * c + 1))). assert (C0 : 0 <= c * c) by nra.
  assert (H : 0 < rho <= 1 / 1000).
  { unfold rho. split; [apply Rinv_0_lt_compat; lra|]. replace (1 / 1000) with (/ 1000) by field. apply Rinv_le_contravar; lra. }
  assert (K : 676 * (c * c) * rho < 1). { unfold rho. apply Rlt_div_l; lra. }
  destruct (near_params rho prec H) as (h & n & E). exists (near_f rho), [npt rho], [rho], (nr rho), h, n, (13 / 2, 13 / 2).
  split; [exact (near_f_sound rho H)|]. split; [exact (near_forall2 rho H)|]. split; [exact E|]. split; [exact (near_outside rho prec H h n E)|].
  split; [exact (near_m2 rho H)|]. split; [reflexivity|]. unfold upper. cbn [fst snd]. split; [lra|].
  exists (0, nr rho). split; [cbn [snd]; destruct (nr_bounds rho H) as (R1 & _); rewrite Rabs_pos_eq; lra|].
  intro n1. replace (13 / 2 + 13 / 2) with 13 by field. exact (near_value rho H c K n1).
Qed.
Lemma near_nonvacuous : exists f ws rk r h n M,
  sound_add exact_add /\ sound_union exact_union /\ sound_interval exact_interval /\
  (forall b n, 0 < snd b -> (0 < n)%nat -> let '(t, step) := subdivide exact_div exact_mid (fun r => r) b n in covers b t step n) /\
  (forall r l u i m, encloses_some (f r l u i m) (max_f l r u i m)) /\
  Forall2 (fun w x => exists z, principal (PI / 2) w z /\ x = Rabs (snd z)) ws rk /\
  de_params_d rk 2 64 = Done (r, h, n) /\ outside (PI / 2) r ws /\
  0 < PI / 2 /\ r < PI / 2 /\ PI / 2 * sin r < PI / 2 /\ length ws = 1%nat /\
  de_constant_m2 exact_div exact_mid (fun r => r) exact_add exact_union (fun _ => true) exact_interval f (fun x => x) (PI / 2) ws r 2 2 = Done M.
Proof.
  assert (H : 0 < 1 / 1000 <= 1 / 1000) by lra. destruct (near_params _ 64 H) as (h & n & E).
  exists (near_f (1 / 1000)), [npt (1 / 1000)], [1 / 1000], (nr (1 / 1000)), h, n, (13 / 2, 13 / 2).
  split; [exact exact_add_sound|]. split; [exact exact_union_sound|]. split; [exact exact_interval_sound|].
  split; [intros b k; apply covers_exact; intro; lra|]. split; [exact (near_f_sound _ H)|]. split; [exact (near_forall2 _ H)|]. split; [exact E|].
  split; [exact (near_outside _ 64 H h n E)|]. destruct (nr_bounds _ H) as (R1 & R2 & R3 & R4 & R5). assert (P := PI2_3_2). assert (HL := lam_bounds). unfold lam in *.
  split; [lra|]. split; [lra|]. split; [lra|]. split; [reflexivity|]. exact (near_m2 _ H).
Qed.
