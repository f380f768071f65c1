(** The constant M2 bounds |x^i/y| over the strip; the error of the rule. *)
From Coq Require Import Reals Lra Lia List.
From Coquelicot Require Import Coquelicot.
From Verif Require Import CArg ModelMag ModelGc ModelDe SpecMag SpecDe ModelDeM2 SpecDeM2 SpecEdge SpecQuad SpecErr ProofMag ProofMaxmod ProofDe2 ProofDe3 ProofHol1 ProofHol5 ProofHol7 ProofHol8 ProofHol10 ProofStrip ProofDeM2.
Import ListNotations.
Local Open Scope R_scope.

Lemma params_bound rk m prec r h n m1 m2 : (1 < m)%Z -> (0 <= prec)%Z -> 0 <= m1 -> 0 <= m2 -> de_params_d rk m prec = Done (r, h, n) ->
  0 < h /\ 1 <= 2 * alpha 1 m * lam * cosh (INR (Z.to_nat n) * h) /\ published h lam (Z.to_nat n) r m1 m2 (alpha 1 m) <= (m1 / 8 + m2) * / 2 ^ Z.to_nat prec.
Proof.
  intros Hm Hp H1 H2 E. destruct (de_params_d_eq rk m prec r h n Hm E) as (E1 & E2 & E3).
  assert (Hr := choose_r_range rk r E1). assert (HH := h_pos r m prec Hr Hm Hp).
  assert (HC := chosen_cosh r m prec Hr Hm Hp). assert (HO := chosen_ok r m prec Hr Hm Hp m1 m2 H1 H2).
  rewrite exp_D in HO by easy. rewrite <- E2 in HH, HC, HO. rewrite <- E3 in HC, HO. split; [exact HH|]. split; [exact HC|exact HO].
Qed.
Section M2.
Variables (div_d : R -> nat -> R) (mid_d : R -> R -> nat -> R) (mag_d : R -> R) (add_arf : ModelMag.ball -> R -> ModelMag.ball) (union : ModelMag.ball -> ModelMag.ball -> ModelMag.ball)
  (accept : ModelMag.ball -> bool) (interval : R -> R -> ModelMag.ball) (f : R -> R -> list C -> nat -> Z -> ModelMag.ball -> option ModelMag.ball) (ubound : R -> R).
Hypotheses (Ha : sound_add add_arf) (Hun : sound_union union) (Hi : sound_interval interval).
Hypothesis Hc : forall b n, 0 < snd b -> (0 < n)%nat -> let '(t, step) := subdivide div_d mid_d mag_d b n in covers b t step n.
Hypothesis Hf : forall r l u i m, encloses_some (f r l u i m) (max_f l r u i m).
Hypothesis Hub : forall x, x <= ubound x.
Let m2 := de_constant_m2 div_d mid_d mag_d add_arf union accept interval f ubound.

Lemma m2_values l u r d m M : m2 l u r d m = Done M -> 0 < r /\ forall t v, 0 <= t -> cosh t <= PI / (2 * (sin r * l)) -> max_f l r (vec_abs u) d m t = Some v -> v <= upper M.
Proof.
  unfold m2, de_constant_m2. destruct (Rle_dec r 0) as [|Hr]; [discriminate|]. cbv zeta. destruct (Rlt_dec _ 1) as [|Hq]; [discriminate|]. intro E.
  split; [lra|]. intros t v Ht Hct Hv. set (q := PI / (2 * (sin r * l))) in *.
  set (F := fun t => match max_f l r (vec_abs u) d m t with Some v => v | None => 0 end).
  assert (EF : encloses (f r l (vec_abs u) d m) F).
  { intros b y Hy x Hx. destruct (Hf _ _ _ _ _ _ _ Hy x Hx) as (w & Ew & Hw). unfold F. now rewrite Ew. }
  unfold bound_func_arf in E. destruct (Rlt_dec (ubound (acosh q)) 0); [discriminate E|].
  assert (Tm : t <= ubound (acosh q)).
  { eapply Rle_trans; [|apply Hub]. apply Rnot_lt_le. intro N. assert (A0 : 0 <= acosh q).
    { destruct (Req_dec q 1) as [->|]; [|left; apply ProofGc.acosh_pos; lra]. unfold acosh. replace (1 * 1 - 1) with 0 by ring. rewrite sqrt_0, Rplus_0_r, ln_1. lra. }
    assert (X := ProofGc.cosh_lt _ _ (conj A0 N)). rewrite ProofGc.cosh_acosh in X by lra. lra. }
  assert (B := bound_sound div_d mid_d mag_d add_arf union (f r l (vec_abs u) d m) accept F EF Ha Hun Hc 20 _ 30 M ltac:(lia) E t (Hi 0 _ t (conj Ht Tm))).
  unfold F in B. rewrite Hv in B. destruct B as [_ B]. exact B.
Qed.

Theorem m2_strip l u r d m n1 M : 0 < l -> r < PI / 2 -> l * sin r < PI / 2 -> (0 < m)%Z -> outside l r u -> m2 l u r d m = Done M ->
  forall i w, (i <= d)%nat -> Rabs (snd w) <= r ->
    Cmod (cpow (SpecDe.de_map l w) i / cpow (y_tilde m u n1 (SpecDe.de_map l w)) 1)%C <= upper M / low l r ^ (d - i).
Proof.
  intros Hl Hr Hs Hm Hout E i w Hid Hw. destruct (m2_values l u r d m M E) as [Hr0 HM]. assert (HR : 0 < r < PI / 2) by lra.
  assert (HuK : forall p, In p u -> ~ Kset l r p).
  { intros p Hp HK. destruct (Hout p Hp) as (A & B & N). destruct (K_image l r Hl HR p HK) as [X|[X|X]]; contradiction. }
  destruct (Z_of_nat_complete m ltac:(lia)) as [mn Em]. subst m.
  assert (KW := strip_K l r Hl HR Hs w Hw).
  destruct (boundary_max l r u Hl HR Hs HuK (i * mn)) as (w0 & W1 & W2 & WM).
  assert (Kp := strip_K l r Hl HR Hs w0 ltac:(lra)). set (p := SpecDe.de_map l w0) in *.
  rewrite ratio_val by now apply (K_nz l r u HuK).
  eapply Rle_trans; [apply (val_le mn u i _ p ltac:(lia)); [now apply (K_nz l r u HuK)|now apply (K_nz l r u HuK)|now apply WM]|].
  destruct (quadrant l r w0 Hl HR Hs W1 W2) as (Q1 & Q2 & Q3). fold p in Q1, Q2. set (z1 := SpecDe.de_map l (Rabs (fst w0), r)) in *.
  assert (K1 : Kset l r z1). { apply strip_K; try assumption. cbn [snd]. rewrite Rabs_pos_eq; lra. }
  assert (N1 : forall x, In x (vec_abs u) -> z1 <> x).
  { intros x Hx Ex. unfold vec_abs in Hx. apply in_map_iff in Hx. destruct Hx as (y & Ey & Hy). apply (HuK y Hy). apply (K_sym l r HR z1); [| |exact K1].
    - rewrite Ex, <- Ey. cbn [fst]. symmetry. apply Rabs_Rabsolu.
    - rewrite Ex, <- Ey. cbn [snd]. symmetry. apply Rabs_Rabsolu. }
  assert (D1 := dprod_nz (vec_abs u) z1 N1). assert (Dp := K_nz l r u HuK p Kp). apply Cmod_gt_0 in D1. apply Cmod_gt_0 in Dp.
  assert (LP := low_le l r w0 Hl HR Hs W1 W2). fold p in LP. assert (Ep := abs_mod p z1 Q1 Q2).
  assert (Hv : max_f l r (vec_abs u) d (Z.of_nat mn) (Rabs (fst w0)) = Some (Cmod z1 ^ d / rroot (Z.of_nat mn) (1 * Cmod (dprod (vec_abs u) z1)))).
  { unfold max_f. rewrite mf_map. fold z1. now rewrite mf_product_spec by (lra || exact N1). }
  apply HM in Hv; [|apply Rabs_pos|rewrite ProofGc.cosh_abs; replace (sin r * l) with (l * sin r) by ring; exact Q3].
  rewrite Rmult_1_l, Ep in Hv. assert (AD := abs_dprod p z1 u Q1 Q2).
  assert (RR := rroot_le (Z.of_nat mn) _ _ ltac:(lia) (conj (Rlt_le _ _ D1) AD)). assert (R1 := rroot_pos (Z.of_nat mn) _ D1). assert (R2 := rroot_pos (Z.of_nat mn) _ Dp).
  unfold val. set (a := Cmod p) in *. set (q := low l r) in *. set (y := rroot (Z.of_nat mn) (Cmod (dprod u p))) in *. set (y1 := rroot (Z.of_nat mn) (Cmod (dprod (vec_abs u) z1))) in *.
  assert (QP : 0 < q ^ (d - i)) by (apply pow_lt; lra). assert (QA : q ^ (d - i) <= a ^ (d - i)) by (apply pow_incr; lra). assert (AI : 0 < a ^ i) by (apply pow_lt; lra).
  apply (Rmult_le_reg_r (q ^ (d - i))); [exact QP|]. unfold Rdiv at 2. rewrite Rmult_assoc, Rinv_l, Rmult_1_r by lra.
  eapply Rle_trans; [|exact Hv]. replace d with (i + (d - i))%nat at 2 by lia. rewrite pow_add.
  unfold Rdiv. rewrite (Rmult_assoc _ (/ y)), (Rmult_comm (/ y)), <- Rmult_assoc. apply Rmult_le_compat.
  - apply Rmult_le_pos; lra.
  - left. now apply Rinv_0_lt_compat.
  - apply Rmult_le_compat_l; lra.
  - now apply Rinv_le_contravar.
Qed.

(** with the strip of the program *)
Lemma chosen_outside ws rk r : choose_r rk = Done r -> Forall2 (fun w x => exists z, principal lam w z /\ x = Rabs (snd z)) ws rk -> outside lam r ws.
Proof.
  intros Hr HF p Hp. destruct (strip_avoids ws rk r Hr HF) as [_ H].
  assert (exists z, principal lam p z) as (z & P1 & P2 & _).
  { clear - HF Hp. induction HF as [|a b la lb (z & H & _) HF IH]; cbn in *; [easy|]. destruct Hp as [<-|Hp]; [now exists z|auto]. }
  destruct (tanh_not1 _ P1) as [A B]. fold (SpecDe.de_map lam z) in A, B. rewrite P2 in A, B. split; [exact A|]. split; [exact B|]. now apply H.
Qed.
Theorem m2_rule ws rk m prec r h n d n1 M :
  (1 < m)%Z -> (0 <= prec)%Z -> Forall2 (fun w x => exists z, principal (PI / 2) w z /\ x = Rabs (snd z)) ws rk ->
  de_params_d rk m prec = Done (r, h, n) -> m2 (PI / 2) ws r d m = Done M ->
  forall i, (i <= d)%nat ->
    let B := upper M / low (PI / 2) r ^ (d - i) in
    let g := SpecQuad.integrand m (fun t => y_tilde m ws n1 (RtoC t)) 1 i in
    exists I, is_int g I /\
      (forall N, 1 <= 2 * alpha 1 m * (PI / 2) * cosh (INR N * h) ->
         Cmod (de_rule (PI / 2) h N g - I)%C <= e_T h (PI / 2) N B (alpha 1 m) + 4 / 3 * B / 2 ^ Z.to_nat prec) /\
      Cmod (de_rule (PI / 2) h (Z.to_nat n) g - I)%C <= 3 / 2 * B / 2 ^ Z.to_nat prec.
Proof.
  intros Hm Hp HF E EM i Hid B g. fold lam in *. assert (HL := lam_bounds). assert (HP := PI2_3_2).
  destruct (de_params_d_eq rk m prec r h n Hm E) as (E1 & _ & _).
  assert (Hrr := choose_r_range rk r E1). destruct (sin_lam r Hrr) as [S1 S2].
  assert (HO := chosen_outside ws rk r E1 HF).
  assert (HB : forall w, Rabs (snd w) <= r -> Cmod (cpow (SpecDe.de_map lam w) i / cpow (y_tilde m ws n1 (SpecDe.de_map lam w)) 1)%C <= B).
  { intros w Hw. apply m2_strip; try assumption; try lra; lia. }
  assert (B0 : 0 <= B). { eapply Rle_trans; [|apply (HB (0, 0))]; [apply Cmod_ge_0|]. cbn [snd]. rewrite Rabs_R0. lra. }
  destruct (open_strip ws rk r E1 HF) as (Q1 & Q2 & Q3 & Q4 & O5).
  destruct (params_bound rk m prec r h n 0 B Hm Hp (Rle_refl 0) B0 E) as (HH & HC & HQ0).
  destruct (params_bound rk m prec r h n B B Hm Hp B0 B0 E) as (_ & _ & HQB).
  assert (ET0 : e_T h lam (Z.to_nat n) 0 (alpha 1 m) = 0) by (unfold e_T, Rdiv; ring).
  unfold published in HQ0, HQB. rewrite ET0 in HQ0.
  assert (HB1 : forall t, -1 < t < 1 -> Cmod (cpow (RtoC t) i / cpow (y_tilde m ws n1 (RtoC t)) 1)%C <= B).
  { intros t Ht. rewrite <- (de_map_inv lam t) by lra. rewrite <- cmap_real. apply HB. cbn [snd]. rewrite Rabs_R0. lra. }
  destruct (de_error_bound lam r (r * (10 / 9)) h m ws n1 1 i B B ltac:(lra) Q1 Q2 Q3 HH ltac:(lia) Q4 HB1 HB) as (I & HI & HN).
  change (Z.of_nat 1) with 1%Z in HN. exists I. split; [exact HI|]. split.
  - intros N H1. specialize (HN N H1). eapply Rle_trans; [exact HN|]. change (4 / 3 * B / 2 ^ Z.to_nat prec) with (4 / 3 * B * / 2 ^ Z.to_nat prec). lra.
  - specialize (HN _ HC). eapply Rle_trans; [exact HN|].
    set (k := / 2 ^ Z.to_nat prec) in *. set (q := e_Q h lam r B (alpha 1 m)) in *. set (et := e_T h lam (Z.to_nat n) B (alpha 1 m)) in *. change (et + 4 / 3 * q <= 3 / 2 * B * k).
    assert (K0 : 0 < k) by (unfold k; apply Rinv_0_lt_compat, pow_lt; lra). assert (0 <= B * k) by nra. lra.
Qed.
End M2.
