(** Bounds of the integrands in the strip; the parameters chosen. *)
From Coq Require Import Reals Lra Lia List.
From Coquelicot Require Import Coquelicot.
From Verif Require Import CArg ModelVec SpecVec ProofVec ModelQuad SpecQuad SpecEdge ProofTrap SpecErr ModelDe SpecDe ProofDe ProofDe2 ProofDe3 ProofErr3 ProofErr4 ProofErr5
  ProofHol1 ProofHol2 ProofHol3 ProofHol4 ProofHol5 ProofHol6 ProofHol7 ProofHol8.
Import ListNotations.
Local Open Scope R_scope.

(** ** Continuous functions are bounded on a rectangle *)
Lemma bounded_box (f : R -> R -> R) T r : 0 <= T -> 0 <= r -> (forall x y, - T <= x <= T -> - r <= y <= r -> continuity_2d_pt f x y) ->
  exists M, forall x y, - T <= x <= T -> - r <= y <= r -> Rabs (f x y) <= M.
Proof.
  intros HT Hr Hf. destruct (uniform_continuity_2d f (- T) T (- r) r Hf (mkposreal 1 Rlt_0_1)) as ([d Hd] & H). cbn [pos] in H.
  destruct (nfloor_ex ((T + r) / d)) as (n & _ & Hn); [apply Rdiv_le_0_compat; lra|]. apply Rlt_div_l in Hn; [|exact Hd].
  assert (HN : 0 < INR (S n)) by (apply lt_0_INR; lia). assert (Hn' : T + r < INR (S n) * d) by (rewrite S_INR; exact Hn).
  exists (Rabs (f 0 0) + INR (S n)). intros x y Hx Hy. set (v := INR (S n)) in *.
  assert (K : forall k, INR k <= v -> Rabs (f (INR k / v * x) (INR k / v * y)) <= Rabs (f 0 0) + INR k).
  { assert (S1 : forall q x T, 0 <= q <= 1 -> - T <= x <= T -> - T <= q * x <= T) by (clear; intros; split; nra).
    induction k as [|k IH]; intro Hk.
    - cbn [INR]. replace (0 / v) with 0 by (unfold Rdiv; ring). rewrite !Rmult_0_l. lra.
    - rewrite S_INR in *. assert (Hk0 := pos_INR k).
      assert (Q0 : 0 <= INR k / v <= 1) by (split; [apply Rdiv_le_0_compat; lra|apply Rle_div_l; lra]).
      assert (Q1 : 0 <= (INR k + 1) / v <= 1) by (split; [apply Rdiv_le_0_compat; lra|apply Rle_div_l; lra]).
      specialize (IH ltac:(lra)).
      assert (B : Rabs (f ((INR k + 1) / v * x) ((INR k + 1) / v * y) - f (INR k / v * x) (INR k / v * y)) < 1).
      { apply H; try (now apply S1).
        - replace ((INR k + 1) / v * x - INR k / v * x) with (x / v) by (field; lra). apply Rabs_def1; [apply Rlt_div_l; nra|]. apply Rlt_div_r; nra.
        - replace ((INR k + 1) / v * y - INR k / v * y) with (y / v) by (field; lra). apply Rabs_def1; [apply Rlt_div_l; nra|]. apply Rlt_div_r; nra. }
      assert (Tr := Rabs_triang_inv (f ((INR k + 1) / v * x) ((INR k + 1) / v * y)) (f (INR k / v * x) (INR k / v * y))). lra. }
  assert (E := K (S n) ltac:(apply Rle_refl)). fold v in E. replace (v / v) with 1 in E by (field; lra). now rewrite !Rmult_1_l in E.
Qed.
Lemma bounded_closed f r r2 T B : 0 <= r < r2 -> 0 <= T -> analytic (strip r2) f ->
  (forall z, Rabs (snd z) <= r -> T <= Rabs (fst z) -> Cmod (f z) <= B) -> exists M, 0 <= M /\ forall z, Rabs (snd z) <= r -> Cmod (f z) <= M.
Proof.
  intros Hr HT (f' & Hf) HB.
  assert (Hc : forall x y, - T <= x <= T -> - r <= y <= r -> cont2 f (x, y)).
  { intros x y _ Hy. apply Hf. unfold strip. cbn [snd]. apply Rle_lt_trans with r; [apply Rabs_le; lra|lra]. }
  destruct (bounded_box (fun x y => fst (f (x, y))) T r HT ltac:(lra)) as (M1 & H1); [intros x y Hx Hy; apply (Hc x y Hx Hy)|].
  destruct (bounded_box (fun x y => snd (f (x, y))) T r HT ltac:(lra)) as (M2 & H2); [intros x y Hx Hy; apply (Hc x y Hx Hy)|].
  exists (Rmax (Rmax B 0) (M1 + M2)). split; [eapply Rle_trans; [|apply Rmax_l]; apply Rmax_r|]. intros z Hz.
  destruct (Rle_dec T (Rabs (fst z))) as [Q|Q].
  - eapply Rle_trans; [now apply HB|]. eapply Rle_trans; [|apply Rmax_l]. apply Rmax_l.
  - eapply Rle_trans; [|apply Rmax_r]. apply Rnot_le_lt, Rabs_def2 in Q. assert (Hz' := Rabs_le_between (snd z) r). 
    assert (Hz2 : - r <= snd z <= r) by (now apply Hz').
    assert (E1 := H1 (fst z) (snd z) ltac:(lra) Hz2). assert (E2 := H2 (fst z) (snd z) ltac:(lra) Hz2). rewrite pair_eta in E1, E2.
    assert (E := Cmod_sq (f z)). assert (P := Cmod_ge_0 (f z)). assert (P1 := Rabs_pos (fst (f z))). assert (P2 := Rabs_pos (snd (f z))).
    assert (Q1 : fst (f z) * fst (f z) = Rabs (fst (f z)) * Rabs (fst (f z))) by (rewrite <- Rabs_mult, Rabs_pos_eq; [reflexivity|nra]).
    assert (Q2 : snd (f z) * snd (f z) = Rabs (snd (f z)) * Rabs (snd (f z))) by (rewrite <- Rabs_mult, Rabs_pos_eq; [reflexivity|nra]).
    rewrite Q1, Q2 in E. apply Rle_trans with (Rabs (fst (f z)) + Rabs (snd (f z))); [|lra]. apply Rsqr_incr_0_var; [|lra]. unfold Rsqr. rewrite E. nra.
Qed.

(** ** The ends of the strip *)
Lemma cmap_one l z : ccosh (lsinh l z) <> RtoC 0 -> Cmod (cmap l z - RtoC 1)%C = exp (- fst (lsinh l z)) / Cmod (ccosh (lsinh l z)).
Proof.
  intro Hn. unfold cmap, SpecDe.de_map, ctanh. fold (lsinh l z). set (w := lsinh l z) in *.
  replace (csinh w / ccosh w - RtoC 1)%C with (- (cexp (- w)) / ccosh w)%C.
  - unfold Cdiv. rewrite Cmod_mult, Cmod_inv by exact Hn. rewrite Cmod_opp, Cmod_cexp. reflexivity.
  - assert (E : (csinh w - ccosh w)%C = (- cexp (- w))%C).
    { rewrite csinh_exp, ccosh_exp. assert (E2 : (RtoC (/ 2) + RtoC (/ 2))%C = RtoC 1) by (rewrite <- RtoC_plus; f_equal; field).
      transitivity (- ((RtoC (/ 2) + RtoC (/ 2)) * cexp (- w)))%C; [ring|]. rewrite E2. ring. }
    rewrite <- E. field. exact Hn.
Qed.
Lemma lsinh_opp l z : lsinh l (- z)%C = (- lsinh l z)%C.
Proof.
  unfold lsinh, csinh. cbn [fst snd Copp]. rewrite sinh_Ropp, cosh_Ropp, cos_neg, sin_neg.
  unfold RtoC, Cmult, Copp. apply injective_projections; cbn [fst snd]; ring.
Qed.
Lemma ccosh_opp w : ccosh (- w)%C = ccosh w.
Proof. unfold ccosh. cbn [fst snd Copp]. rewrite sinh_Ropp, cosh_Ropp, cos_neg, sin_neg. apply injective_projections; cbn [fst snd]; ring. Qed.
Lemma csinh_opp w : csinh (- w)%C = (- csinh w)%C.
Proof. unfold csinh. cbn [fst snd Copp]. rewrite sinh_Ropp, cosh_Ropp, cos_neg, sin_neg. unfold Copp. apply injective_projections; cbn [fst snd]; ring. Qed.
Lemma cmap_opp l z : ccosh (lsinh l z) <> RtoC 0 -> cmap l (- z)%C = (- cmap l z)%C.
Proof. intro Hn. unfold cmap, SpecDe.de_map, ctanh. fold (lsinh l z) (lsinh l (- z)%C). rewrite lsinh_opp, csinh_opp, ccosh_opp. field. exact Hn. Qed.
Lemma cmap_far l r0 r z : 1 <= l -> 0 < r < r0 -> r0 <= PI / 2 -> l * sin r0 <= PI / 2 -> Rabs (snd z) <= r -> 0 < fst z ->
  Cmod (cmap l z - RtoC 1)%C <= / (fst z * cos r).
Proof.
  intros Hl Hr Hr0 Hs Hz Ht.
  assert (Hn : ccosh (lsinh l z) <> RtoC 0) by (apply (strip_nonzero l r0); try lra; unfold strip; lra).
  rewrite cmap_one by exact Hn. assert (Hc : 0 < cos r) by (apply cos_gt_0; lra).
  assert (Hcz : cos r <= cos (snd z)).
  { unfold Rabs in Hz. destruct (Rcase_abs (snd z)).
    - rewrite <- (cos_neg (snd z)). apply cos_decr_1; lra.
    - apply cos_decr_1; lra. }
  assert (HX : fst z * cos r <= fst (lsinh l z)).
  { rewrite lsinh_fst. assert (S1 := sinh_ge_id (fst z) ltac:(lra)).
    apply Rmult_le_compat; try lra. apply Rle_trans with (1 * sinh (fst z)); [lra|]. apply Rmult_le_compat_r; lra. }
  assert (Hp : 0 < fst z * cos r) by now apply Rmult_lt_0_compat.
  set (X := fst (lsinh l z)) in *. assert (G := ccosh_ge_sinh (lsinh l z)). fold X in G.
  assert (S2 := sinh_ge_id X ltac:(lra)). rewrite Rabs_pos_eq in G by lra.
  assert (E1 : exp (- X) <= 1) by (rewrite <- exp_0; apply ProofDe2.exp_le; lra).
  apply Rle_trans with (/ Cmod (ccosh (lsinh l z))).
  - unfold Rdiv. rewrite <- (Rmult_1_l (/ Cmod (ccosh (lsinh l z)))) at 2. apply Rmult_le_compat_r; [left; apply Rinv_0_lt_compat; lra|exact E1].
  - apply Rinv_le_contravar; lra.
Qed.

Lemma rroot_incr m a b : (1 <= m)%Z -> 0 < a <= b -> rroot m a <= rroot m b.
Proof.
  intros Hm H. unfold rroot. destruct (Rlt_dec 0 a), (Rlt_dec 0 b); try lra. apply Rle_Rpower_l; [|lra]. left. apply Rinv_0_lt_compat, IZR_lt. lia.
Qed.
Lemma far_prod m s us e : (1 <= m)%Z -> s = 1 \/ s = -1 -> (forall p, In p us -> p <> e) ->
  exists d c, 0 < d /\ 0 < c /\ forall w, Cmod (w - e)%C <= d -> c <= Cmod (SpecEdge.cprod (fun p => croot m (RtoC s * (w - p))%C) us).
Proof.
  intros Hm Es. induction us as [|u us IH]; intro Hu.
  - exists 1, 1. split; [lra|]. split; [lra|]. intros w _. cbn. rewrite Cmod_R, Rabs_R1. lra.
  - destruct IH as (d & c & Hd & Hc & H); [intros p Hp; apply Hu; now right|].
    assert (Pu : 0 < Cmod (e - u)%C).
    { apply Cmod_gt_0. intro E. apply (Hu u (or_introl eq_refl)). transitivity (u + (e - u))%C; [rewrite E; ring|ring]. }
    exists (Rmin d (Cmod (e - u)%C / 2)), (rroot m (Cmod (e - u)%C / 2) * c).
    split; [apply Rmin_glb_lt; lra|]. assert (Pr := rroot_gt m (Cmod (e - u)%C / 2) ltac:(lra)). split; [now apply Rmult_lt_0_compat|].
    intros w Hw. cbn [SpecEdge.cprod]. rewrite Cmod_mult. assert (Q1 := Rmin_l d (Cmod (e - u)%C / 2)). assert (Q2 := Rmin_r d (Cmod (e - u)%C / 2)).
    apply Rmult_le_compat; [lra|lra| |apply H; lra]. rewrite croot_mod. apply rroot_incr; [exact Hm|]. split; [lra|].
    rewrite Cmod_mult, Cmod_R. replace (Rabs s) with 1 by (destruct Es as [->| ->]; unfold Rabs; destruct (Rcase_abs _); lra). rewrite Rmult_1_l.
    assert (Tr := Cmod_sub_le (w - u)%C (w - e)%C). replace (w - u - (w - e))%C with (e - u)%C in Tr by ring. lra.
Qed.
Lemma far_ratio m u n1 j i s : (1 <= m)%Z -> s = 1 \/ s = -1 -> (forall p, In p u -> p <> RtoC s) ->
  exists d B, 0 < d /\ forall w, Cmod (w - RtoC s)%C <= d -> Cmod (cratio m u n1 j i w) <= B.
Proof.
  intros Hm Es Hu.
  destruct (far_prod m (-1) (firstn n1 u) (RtoC s) Hm (or_intror eq_refl)) as (d1 & c1 & Hd1 & Hc1 & H1).
  { intros p Hp. apply Hu. rewrite <- (firstn_skipn n1 u). apply in_or_app. now left. }
  destruct (far_prod m 1 (skipn n1 u) (RtoC s) Hm (or_introl eq_refl)) as (d2 & c2 & Hd2 & Hc2 & H2).
  { intros p Hp. apply Hu. rewrite <- (firstn_skipn n1 u). apply in_or_app. now right. }
  exists (Rmin 1 (Rmin d1 d2)), (2 ^ i * / (c1 * c2) ^ j). split; [apply Rmin_glb_lt; [lra|now apply Rmin_glb_lt]|].
  intros w Hw. assert (Q0 := Rmin_l 1 (Rmin d1 d2)). assert (Q1 := Rmin_r 1 (Rmin d1 d2)). assert (Q2 := Rmin_l d1 d2). assert (Q3 := Rmin_r d1 d2).
  specialize (H1 w ltac:(lra)). specialize (H2 w ltac:(lra)). assert (P12 : 0 < c1 * c2) by now apply Rmult_lt_0_compat.
  assert (Hy : c1 * c2 <= Cmod (y_tilde m u n1 w)) by (rewrite y_tilde_split, Cmod_mult; apply Rmult_le_compat; lra).
  assert (Hn : y_tilde m u n1 w <> RtoC 0) by (intro E; rewrite E, Cmod_0 in Hy; lra).
  unfold cratio, Cdiv. rewrite Cmod_mult, Cmod_inv, !Cmod_cpow by now apply cpow_neq_0.
  assert (Hw2 : Cmod w <= 2).
  { assert (Tr := Cmod_triangle (w - RtoC s)%C (RtoC s)). replace (w - RtoC s + RtoC s)%C with w in Tr by ring. rewrite Cmod_R in Tr.
    replace (Rabs s) with 1 in Tr by (destruct Es as [->| ->]; unfold Rabs; destruct (Rcase_abs _); lra). lra. }
  assert (Pj : 0 < (c1 * c2) ^ j) by now apply pow_lt.
  apply Rmult_le_compat.
  - apply pow_le, Cmod_ge_0.
  - left. apply Rinv_0_lt_compat, pow_lt. lra.
  - apply pow_incr. split; [apply Cmod_ge_0|exact Hw2].
  - apply Rinv_le_contravar; [exact Pj|]. apply pow_incr. lra.
Qed.
Lemma ratio_bounded l r r0 m u n1 j i : 1 <= l -> 0 < r < r0 -> r0 <= PI / 2 -> l * sin r0 <= PI / 2 -> (1 <= m)%Z ->
  (forall z p, strip r0 z -> In p u -> cmap l z <> p) -> (forall p, In p u -> p <> RtoC 1 /\ p <> RtoC (-1)) ->
  exists M, 0 <= M /\ forall z, Rabs (snd z) <= r -> Cmod (cratio m u n1 j i (cmap l z)) <= M.
Proof.
  intros Hl Hr Hr0 Hs Hm Hu Hp.
  destruct (integrand_holo l r0 ltac:(lra) ltac:(lra) Hs m Hm u n1 j i Hu) as (F & HF & EF & _ & _).
  destruct (far_ratio m u n1 j i 1 Hm (or_introl eq_refl)) as (d1 & B1 & Hd1 & H1); [intros p Hq; now apply Hp|].
  destruct (far_ratio m u n1 j i (-1) Hm (or_intror eq_refl)) as (d2 & B2 & Hd2 & H2); [intros p Hq; now apply Hp|].
  assert (Hc : 0 < cos r) by (apply cos_gt_0; lra).
  set (d := Rmin d1 d2). assert (Hd : 0 < d) by now apply Rmin_glb_lt. assert (Q1 : d <= d1) by apply Rmin_l. assert (Q2 : d <= d2) by apply Rmin_r.
  set (T := / (d * cos r)). assert (HT : 0 < T) by (apply Rinv_0_lt_compat; now apply Rmult_lt_0_compat).
  assert (HTd : forall t, T <= t -> / (t * cos r) <= d).
  { intros t Ht. assert (0 < t) by lra. replace d with (/ (T * cos r)) by (unfold T; field; lra). apply Rinv_le_contravar; [now apply Rmult_lt_0_compat|].
    apply Rmult_le_compat_r; lra. }
  destruct (bounded_closed F r r0 T (Rmax B1 B2) ltac:(lra) ltac:(lra) HF) as (M & HM & H).
  - intros z Hz Hf. assert (Hst : strip r0 z) by (unfold strip; lra). rewrite (EF z Hst).
    destruct (Rle_dec 0 (fst z)) as [Q|Q].
    + rewrite Rabs_pos_eq in Hf by exact Q. eapply Rle_trans; [|apply Rmax_l]. apply H1.
      eapply Rle_trans; [apply (cmap_far l r0 r z); lra|]. eapply Rle_trans; [apply HTd, Hf|exact Q1].
    + rewrite Rabs_left in Hf by lra. eapply Rle_trans; [|apply Rmax_r]. apply H2.
      assert (Hn : ccosh (lsinh l z) <> RtoC 0) by (apply (st_n l r0); lra || exact Hst).
      assert (E : Cmod (cmap l z - RtoC (-1))%C = Cmod (cmap l (- z)%C - RtoC 1)%C).
      { rewrite cmap_opp by exact Hn. rewrite <- Cmod_opp. f_equal. replace (RtoC (-1)) with (- RtoC 1)%C by (unfold RtoC, Copp; f_equal; cbn; ring). ring. }
      rewrite E. eapply Rle_trans; [apply (cmap_far l r0 r (- z)%C); try lra; cbn [snd fst Copp]; [now rewrite Rabs_Ropp|lra]|].
      cbn [fst Copp]. eapply Rle_trans; [apply HTd, Hf|exact Q2].
  - exists M. split; [exact HM|]. intros z Hz. rewrite <- EF by (unfold strip; lra). now apply H.
Qed.
