(** Functions on real discs that meet the contract of SpecBallGc, and a run of the choice of the
    parameters on a point. *)
From Coq Require Import Reals Lra Lia List.
From Coquelicot Require Import Coquelicot.
From Verif Require Import CArg ModelTree ModelCurve ModelGc SpecGc ProofGc ModelBall SpecBall ModelBallGc SpecBallGc ProofBallGc ProofMid ProofMid2.
Import ListNotations.
Local Open Scope R_scope.

Definition lift_on (P : R -> Prop) (dec : forall r, {P r} + {~ P r}) (f : R -> R) (X : disc) : disc :=
  match X with Some (c, r) => if Req_EM_T r 0 then if dec (fst c) then point (RtoC (f (fst c))) else None else None | None => None end.
Definition d_quot (X Y : disc) : disc :=
  match X, Y with
  | Some (c, r), Some (c', r') =>
      if Req_EM_T r 0 then if Req_EM_T r' 0 then if Req_EM_T (fst c') 0 then None else point (RtoC (fst c / fst c')) else None else None
  | _, _ => None
  end.
Definition d_overlaps (X Y : disc) : bool :=
  match X, Y with Some (c, r), Some (c', r') => yes (Rle_dec (Cmod (c - c')%C) (r + r')) | _, _ => true end.
Definition d_abs (X : disc) : disc := match X with Some (c, r) => Some (RtoC (Cmod c), r) | None => None end.
Definition d_low (X : disc) : R := match X with Some (c, r) => fst c - r | None => 0 end.
Definition d_up (X : disc) : option R := match X with Some (c, r) => Some (fst c + r) | None => None end.
Definition d_mag (X : disc) : option R := match X with Some (c, r) => Some (Cmod c + r) | None => None end.
Definition d_reals : reals discs := Build_reals discs
  (fun _ => d_abs)
  (fun _ => lift_on (fun r => 0 < r) (Rlt_dec 0) ln)
  (fun _ => lift_on (fun _ => 0 = 0) (fun _ => Req_EM_T 0 0) exp)
  (fun _ => lift_on (fun r => 1 <= r) (Rle_dec 1) acosh)
  (fun _ => d_quot)
  (fun _ => point (RtoC (ln (sqrt (2 * PI)))))
  (fun _ => point (RtoC (ln 2)))
  (d_test (fun c r => yes (Rlt_dec r (fst c))) false)
  d_overlaps (fun _ => d_low) (fun _ => d_up) d_mag.

Lemma lift_on_mem (P : R -> Prop) dec f (X : disc) r : disc_mem X (RtoC r) -> P r -> disc_mem (lift_on P dec f X) (RtoC (f r)).
Proof.
  destruct X as [[c s]|]; [|easy]. cbn [disc_mem lift_on]. intros H Hr. destruct (Req_EM_T s 0) as [->|]; [|easy].
  apply Cmod_zero_eq in H. subst c. cbn [fst RtoC]. destruct (dec r); [|easy]. apply point_mem.
Qed.
Lemma d_reals_sound : rsound discs d_reals disc_mem.
Proof.
  constructor; cbn [d_reals d_low d_up d_mag d_abs r_abs r_log r_exp r_acosh r_div r_lsq2pi r_log2 r_pos r_overlaps r_low r_up r_mag discs ball].
  - intros p [[c s]|] x; [|easy]. cbn [disc_mem d_abs]. intro H. rewrite <- RtoC_minus, Cmod_R. eapply Rle_trans; [|exact H].
    assert (H1 := Cmod_triangle (x - c)%C c). replace (x - c + c)%C with x in H1 by ring.
    assert (H2 := Cmod_triangle (c - x)%C x). replace (c - x + x)%C with c in H2 by ring.
    replace (c - x)%C with (- (x - c))%C in H2 by ring. rewrite Cmod_opp in H2. apply Rabs_le. lra.
  - intros p X r H Hr. exact (lift_on_mem _ (Rlt_dec 0) ln X r H Hr).
  - intros p X r H. exact (lift_on_mem (fun _ => 0 = 0) _ exp X r H eq_refl).
  - intros p X r H Hr. exact (lift_on_mem _ (Rle_dec 1) acosh X r H Hr).
  - intros p [[c s]|] [[c' s']|] r q; cbn [disc_mem d_quot]; try easy.
    + intros H H' Hq. destruct (Req_EM_T s 0) as [->|]; [|easy]. destruct (Req_EM_T s' 0) as [->|]; [|easy].
      apply Cmod_zero_eq in H. apply Cmod_zero_eq in H'. subst. cbn [fst RtoC]. destruct (Req_EM_T q 0); [easy|]. apply point_mem.
  - intros p [[c s]|] r q; cbn [disc_mem lift_on]; [|easy]. intros H Hr. destruct (Req_EM_T s 0) as [->|]; [|easy].
    apply Cmod_zero_eq in H. subst c. cbn [fst RtoC]. destruct (Rle_dec 1 r); [lra|easy].
  - intros p [[c s]|] [[c' s']|] q; cbn [disc_mem d_quot]; try easy.
    intro H. destruct (Req_EM_T s 0) as [->|]; [|easy]. destruct (Req_EM_T s' 0) as [->|]; [|easy].
    apply Cmod_zero_eq in H. subst c'. cbn [fst RtoC]. destruct (Req_EM_T 0 0); [easy|lra].
  - intro p. apply point_mem.
  - intro p. apply point_mem.
  - intros [[c s]|] r; cbn [disc_mem d_test]; [|easy]. unfold yes. destruct (Rlt_dec s (fst c)); [|easy]. intros _ H.
    destruct (parts_within _ _ _ H) as [H1 _]. cbn in H1. lra.
  - intros [[c s]|] [[c' s']|] r; cbn [disc_mem d_overlaps]; try easy. intros H H'. unfold yes. destruct (Rle_dec _ _) as [|N]; [reflexivity|].
    exfalso. apply N. replace (c - c')%C with ((RtoC r - c') + - (RtoC r - c))%C by ring. eapply Rle_trans; [apply Cmod_triangle|]. rewrite Cmod_opp. lra.
  - intros p [[c s]|] r H; cbn [disc_mem d_low] in *; [|apply Rabs_pos]. destruct (parts_within _ _ _ H) as [H1 _]. cbn in H1. assert (G := Rle_abs r). lra.
  - intros p [[c s]|] r t E H; cbn [disc_mem d_up d_mag] in *; [|discriminate]. injection E as <-. destruct (parts_within _ _ _ H) as [H1 _]. cbn in H1. lra.
  - intros [[c s]|] r e E H; cbn [disc_mem d_up d_mag] in *; [|discriminate]. injection E as <-.
    assert (H1 := Cmod_triangle (RtoC r - c)%C c). replace (RtoC r - c + c)%C with (RtoC r) in H1 by ring. rewrite Cmod_R in H1. lra.
Qed.

(** ** The point -3: half sum 3, ellipse of half sum 2 *)
Definition two : R -> disc -> nat -> option R := fun _ _ _ => Some 2.
Lemma pt_abs p z : r_abs discs d_reals p (point z) = point (RtoC (Cmod z)).
Proof. reflexivity. Qed.
Lemma pt_log p r : 0 < r -> r_log discs d_reals p (point (RtoC r)) = point (RtoC (ln r)).
Proof. intro H. cbn. destruct (Req_EM_T 0 0); [|lra]. destruct (Rlt_dec 0 r); [reflexivity|lra]. Qed.
Lemma pt_exp p r : r_exp discs d_reals p (point (RtoC r)) = point (RtoC (exp r)).
Proof. cbn. destruct (Req_EM_T 0 0); [reflexivity|lra]. Qed.
Lemma pt_acosh p r : 1 <= r -> r_acosh discs d_reals p (point (RtoC r)) = point (RtoC (acosh r)).
Proof. intro H. cbn -[acosh]. destruct (Req_EM_T 0 0); [|lra]. destruct (Rle_dec 1 r); [reflexivity|lra]. Qed.
Lemma pt_div p r s : s <> 0 -> r_div discs d_reals p (point (RtoC r)) (point (RtoC s)) = point (RtoC (r / s)).
Proof. intro H. cbn. destruct (Req_EM_T 0 0); [|lra]. destruct (Req_EM_T s 0); [lra|reflexivity]. Qed.
Notation PS := discs_point_sound.

Lemma run_point d prec : (0 <= Z.of_nat d <= 100)%Z -> (2 <= prec <= 2 ^ 60)%Z -> exists n e,
  b_gc_params discs d_reals two 2 [point (RtoC (-3))] d prec = Done (n, Some e, 3, 2) /\ (0 < n)%Z.
Proof.
  intros Hd Hp. assert (HPI := PI_RGT_0).
  assert (Ef : b_func_r_gc discs d_reals (point (RtoC (-3))) = Done (point (RtoC 3))).
  { unfold b_func_r_gc. 
    assert (E1 : b_add discs pp (point (RtoC (-3))) (b_int discs 1) = point (RtoC (-2))).
    { replace (-2) with (-3 + 1) by ring. exact (m_add discs is_point PS pp _ _ (-3) 1 eq_refl eq_refl). }
    assert (E2 : b_add discs pp (point (RtoC (-3))) (b_int discs (-1)) = point (RtoC (-4))).
    { replace (-4) with (-3 + -1) by ring. exact (m_add discs is_point PS pp _ _ (-3) (-1) eq_refl eq_refl). }
    rewrite E1, E2, !pt_abs, !Cmod_R, !Rabs_left by lra.
    assert (E3 : b_2exp discs (b_add discs pp (point (RtoC (- -4))) (point (RtoC (- -2)))) (-1) = point (RtoC 3)).
    { assert (E0 : 3 = (- -4 + - -2) * powerRZ 2 (-1)) by (change (powerRZ 2 (-1)) with (/ (2 * 1)); field). rewrite E0. apply (m_2exp discs is_point PS). exact (m_add discs is_point PS pp _ _ (- -4) (- -2) eq_refl eq_refl). }
    rewrite E3.
    assert (E4 : b_sub discs pp (point (RtoC 3)) (b_int discs 1) = point (RtoC (3 - 1))) by exact (m_sub discs is_point PS pp _ _ 3 1 eq_refl eq_refl).
    rewrite E4. cbn. unfold yes. destruct (Rlt_dec 0 (3 - 1)); [reflexivity|lra]. }
  unfold b_gc_params, b_vec_r. rewrite Ef. cbn [bind fst snd].
  assert (Elow : r_low discs d_reals pp (point (RtoC 3)) = 3) by (cbn; ring). rewrite Elow.
  set (M0 := b_addmul_int discs pp _ (r_log2 discs d_reals pp) prec).
  assert (EM0 : M0 = point (RtoC (m0_of d prec 3))).
  { unfold M0, m0_of. rewrite (Rmult_comm 2), (Rmult_comm (INR d)), (Rmult_comm (IZR prec)), INR_IZR_INZ.
    replace (ln (sqrt (2 * PI)) * 2) with (ln (sqrt (2 * PI)) * powerRZ 2 1) by (change (powerRZ 2 1) with (2 * 1); ring).
    apply (m_addmul_int discs is_point PS); [apply (m_addmul_int discs is_point PS)|reflexivity].
    - now apply (m_2exp discs is_point PS).
    - apply pt_log. lra. }
  set (rb := b_err discs (b_real discs 3) _). cbn [b_gc_loop].
  assert (E1 : exists m, b_maj_yr discs d_reals M0 rb 3 (@cons (ball discs) (point (RtoC 3)) nil) = Done (1%nat, m)).
  { unfold b_maj_yr, rb. rewrite (proj2 (Z.eqb_neq prec 0)) by lia. cbn [b_maj_prod].
    assert (Eo : r_overlaps discs d_reals (b_err discs (b_real discs 3) (Some (Rabs (2 / IZR prec)))) (point (RtoC 3)) = true).
    { cbn. unfold yes. destruct (Rle_dec _ _) as [|N]; [reflexivity|]. exfalso. apply N. replace (RtoC 3 - RtoC 3)%C with (RtoC 0) by (apply injective_projections; cbn; ring).
      rewrite Cmod_0. assert (G := Rabs_pos (2 / IZR prec)). lra. }
    rewrite Eo. eexists. reflexivity. }
  destruct E1 as (m1 & ->). cbn [bind]. unfold two at 1. destruct (Rlt_dec 2 1) as [N21|_]; [lra|].
  assert (E2 : b_maj_yr discs d_reals M0 (b_real discs 2) 2 (@cons (ball discs) (point (RtoC 3)) nil) = Done (0%nat, point (RtoC (m0_of d prec 3)))).
  { unfold b_maj_yr. cbn [b_maj_prod].
    assert (Eo : r_overlaps discs d_reals (b_real discs 2) (point (RtoC 3)) = false).
    { cbn. unfold yes. destruct (Rle_dec _ _) as [N|]; [|reflexivity]. exfalso. rewrite <- RtoC_minus, Cmod_R, Rabs_left in N; lra. }
    rewrite Eo.
    assert (Em : b_mul discs pp (b_one discs) (b_sub discs pp (point (RtoC 3)) (b_real discs 2)) = point (RtoC (1 * (3 - 2)))).
    { apply (m_mul discs is_point PS); [reflexivity|]. exact (m_sub discs is_point PS pp _ _ 3 2 eq_refl eq_refl). }
    rewrite Em. match goal with |- (if ?a then _ else if ?b then _ else _) = _ => change a with false; change b with false end. cbn iota. do 2 f_equal.
    replace (1 * (3 - 2)) with 1 by ring. rewrite pt_log by lra. rewrite ln_1.
    assert (El : b_2exp discs (point (RtoC 0)) (-1) = point (RtoC (0 * powerRZ 2 (-1)))) by now apply (m_2exp discs is_point PS).
    rewrite El, EM0.
    replace (m0_of d prec 3) with (m0_of d prec 3 - 0 * powerRZ 2 (-1)) at 2 by ring.
    exact (m_sub discs is_point PS pp _ _ _ _ eq_refl eq_refl). }
  rewrite E2. cbn [bind]. change (b_real discs 2) with (point (RtoC 2)). rewrite pt_acosh by lra.
  assert (Ha : 0 < acosh 2) by (apply acosh_pos; lra). rewrite pt_div by lra.
  set (m := m0_of d prec 3).
  assert (E3 : b_2exp discs (point (RtoC (m / acosh 2))) (-1) = point (RtoC (m / acosh 2 * powerRZ 2 (-1)))) by now apply (m_2exp discs is_point PS).
  rewrite E3. change (powerRZ 2 (-1)) with (/ (2 * 1)).
  assert (Eup : r_up discs d_reals pp (point (RtoC (m / acosh 2 * / (2 * 1)))) = Some (m / acosh 2 * / (2 * 1) + 0)) by reflexivity.
  rewrite Eup, Rplus_0_r. set (t := m / acosh 2 * / (2 * 1)). set (n := (- Int_part (- t))%Z).
  assert (Hm : 0 < m).
  { unfold m. assert (Hl3 : 0 < ln 3) by (rewrite <- ln_1; apply ln_increasing; lra).
    assert (Hl2 : 0 < ln 2) by (rewrite <- ln_1; apply ln_increasing; lra).
    unfold m0_of. rewrite ln_2pi. assert (Q1 := ln_2pi_ge_1). assert (0 <= INR d) by apply pos_INR.
    assert (2 <= IZR prec) by (apply IZR_le; lia). nra. }
  assert (Ht : 0 < t).
  { unfold t. apply Rmult_lt_0_compat; [|lra]. apply Rdiv_lt_0_compat; lra. }
  assert (Hn : IZR n - 1 < t <= IZR n).
  { unfold n. rewrite opp_IZR. destruct (base_Int_part (- t)) as [Q1 Q2]. lra. }
  assert (Hn0 : (0 < n)%Z) by (apply lt_IZR; lra).
  assert (Hfit : fits_slong n = true).
  { unfold fits_slong. apply andb_true_intro. split; [apply Z.leb_le; lia|apply Z.ltb_lt].
    apply lt_IZR.
    (* acosh 2 >= 1, m <= 2^61 *)
    assert (Ha1 : 1 <= acosh 2).
    { unfold acosh. replace (2 * 2 - 1) with 3 by ring. assert (Hs : 1 <= sqrt 3) by (rewrite <- sqrt_1 at 1; apply sqrt_le_1_alt; lra).
      assert (He : exp 1 <= 3) by apply exp_le_3. rewrite <- (ln_exp 1). apply ln_le'; [apply exp_pos|lra]. }
    assert (Hm2 : m <= 4 + 100 * 2 + 2 ^ 60).
    { unfold m, m0_of. rewrite ln_2pi. assert (HP4 := PI_4).
      assert (Q : forall x, 0 < x -> ln x <= x - 1).
      { intros x Hx. destruct (Req_EM_T x 1) as [->|N]; [rewrite ln_1; lra|]. assert (Q := exp_ineq1 (ln x)). rewrite exp_ln in Q by exact Hx. 
        assert (ln x <> 0). { intro E0. apply N. rewrite <- (exp_ln x Hx), E0. apply exp_0. } specialize (Q H). lra. }
      assert (L2 : 0 < ln 2 <= 1) by (split; [rewrite <- ln_1; apply ln_increasing; lra|specialize (Q 2 ltac:(lra)); lra]).
      assert (L3 : 0 < ln 3 <= 2) by (split; [rewrite <- ln_1; apply ln_increasing; lra|specialize (Q 3 ltac:(lra)); lra]).
      assert (LP : ln (2 * PI) <= 4).
      { replace (2 * PI) with (2 * (2 * (PI / 2))) by field. rewrite !ln_mult by lra. assert (G := Q (PI / 2) ltac:(lra)). lra. }
      assert (Hd' : INR d <= 100). { rewrite INR_IZR_INZ. apply IZR_le. lia. }
      assert (0 <= INR d) by apply pos_INR.
      assert (Hp2 : 2 <= IZR prec <= 2 ^ 60).
      { split; [apply IZR_le; lia|]. replace (2 ^ 60) with (IZR (2 ^ 60)); [apply IZR_le; lia|]. rewrite pow_IZR. reflexivity. }
      assert (INR d * ln 3 <= 100 * 2) by (apply Rmult_le_compat; lra). assert (IZR prec * ln 2 <= 2 ^ 60 * 1) by (apply Rmult_le_compat; lra). lra. }
    assert (Ht2 : t <= m).
    { unfold t. assert (m / acosh 2 <= m). { apply Rle_div_l; [lra|]. nra. } lra. }
    assert (B60 : (2 ^ 60 : R) = IZR (2 ^ 60)) by (rewrite pow_IZR; reflexivity). rewrite B60 in Hm2.
    assert (G : IZR (2 ^ 60) + 205 < IZR (2 ^ 63)) by (rewrite <- plus_IZR; apply IZR_lt; reflexivity). lra. }
  rewrite Hfit. cbn [negb].
  set (k := swrap (2 * n)).
  assert (Eq : b_sub discs pp (r_exp discs d_reals pp (b_mul_int discs pp (point (RtoC (acosh 2))) k)) (b_int discs 1) = point (RtoC (exp (acosh 2 * IZR k) - 1))).
  { apply (m_sub discs is_point PS); [|reflexivity]. unfold memR, is_point. rewrite <- (pt_exp pp (acosh 2 * IZR k)). f_equal. now apply (m_mul_int discs is_point PS). }
  rewrite Eq.
  assert (Ek : exp (acosh 2 * IZR k) - 1 <> 0).
  { assert (Hk : (k <> 0)%Z).
    { unfold fits_slong in Hfit. apply andb_prop in Hfit. destruct Hfit as [_ Hfit]. apply Z.ltb_lt in Hfit.
      destruct (swrap_double n) as [Q|Q]; [lia| |]; unfold k; lia. }
    intro E0. assert (E1 : exp (acosh 2 * IZR k) = exp 0) by (rewrite exp_0; lra). apply exp_inv in E1.
    apply Rmult_integral in E1. destruct E1 as [E1|E1]; [lra|]. apply Hk. now apply eq_IZR. }
  rewrite pt_exp.
  assert (En : b_2exp discs (point (RtoC (exp m))) (- prec) = point (RtoC (exp m * powerRZ 2 (- prec)))) by now apply (m_2exp discs is_point PS).
  rewrite En, pt_div by exact Ek. exists n. eexists. split; [reflexivity|exact Hn0].
Qed.
