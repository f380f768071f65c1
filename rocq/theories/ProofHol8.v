(** The m-th roots of the factors tanh(l sinh z) - u as holomorphic functions in a strip. *)
From Coq Require Import Reals Lra Lia List.
From Coquelicot Require Import Coquelicot.
From Verif Require Import CArg ModelVec SpecVec ProofVec ModelQuad SpecQuad SpecEdge ProofTrap SpecErr SpecDe ProofDe ProofDe2 ProofErr3 ProofErr4 ProofErr5
  ProofHol1 ProofHol2 ProofHol3 ProofHol4 ProofHol5 ProofHol6 ProofHol7.
Import ListNotations.
Local Open Scope R_scope.

(** ** The change of variable in the strip *)
Definition cmap (l : R) : C -> C := SpecDe.de_map l.
Definition cmap' (l : R) (z : C) : C := (RtoC l * ccosh z * (/ ccosh (lsinh l z) * / ccosh (lsinh l z)))%C.
Lemma cmap_real l t : cmap l (t, 0) = RtoC (SpecQuad.de_map l t).
Proof.
  unfold cmap, SpecDe.de_map, ctanh. rewrite csinh_real, <- RtoC_mult, csinh_R, ccosh_R, <- RtoC_div by (assert (H := ProofDe2.cosh_pos (l * sinh t)); lra).
  reflexivity.
Qed.
Lemma cmap'_real l t : cmap' l (t, 0) = RtoC (l * cosh t / (cosh (l * sinh t) * cosh (l * sinh t))).
Proof.
  unfold cmap'. rewrite lsinh_real, ccosh_real, ccosh_R. assert (H := ProofDe2.cosh_pos (l * sinh t)).
  rewrite <- RtoC_inv by lra. rewrite <- !RtoC_mult. f_equal. field. lra.
Qed.
Section Strip.
Variables l r0 : R.
Hypothesis Hl : 0 < l.
Hypothesis Hr : 0 < r0 <= PI / 2.
Hypothesis Hs : l * sin r0 <= PI / 2.
Lemma st_real t : strip r0 (t, 0).
Proof using Hr. unfold strip. cbn [snd]. rewrite Rabs_R0. lra. Qed.
Lemma st_n z : strip r0 z -> ccosh (lsinh l z) <> RtoC 0.
Proof using Hl Hr Hs. intro Hz. apply (strip_nonzero l r0); tauto. Qed.
Lemma cmap_holo z : strip r0 z -> holo (cmap l) (cmap' l) z.
Proof using Hl Hr Hs.
  intro Hz.
  assert (H : holo (fun z => csinh (lsinh l z) * / ccosh (lsinh l z))%C
    (fun z => ccosh (lsinh l z) * (RtoC l * ccosh z) * / ccosh (lsinh l z) + csinh (lsinh l z) * - (csinh (lsinh l z) * (RtoC l * ccosh z) * / ccosh (lsinh l z) * / ccosh (lsinh l z)))%C z).
  { apply holo_mult; [apply holo_sinh, lsinh_holo|]. apply holo_inv; [apply holo_cosh, lsinh_holo|now apply st_n]. }
  destruct H as (H1 & H2 & H3 & H4).
  assert (E : forall w, strip r0 w -> (ccosh (lsinh l w) * (RtoC l * ccosh w) * / ccosh (lsinh l w) + csinh (lsinh l w) * - (csinh (lsinh l w) * (RtoC l * ccosh w) * / ccosh (lsinh l w) * / ccosh (lsinh l w)))%C = cmap' l w).
  { intros w Hw. unfold cmap'. assert (N := st_n w Hw). assert (Q := ProofHol1.cosh_sinh_sq (lsinh l w)). set (c := ccosh (lsinh l w)) in *. set (s := csinh (lsinh l w)) in *.
    transitivity (RtoC l * ccosh w * (/ c * / c) * (c * c - s * s))%C; [field; exact N|]. rewrite Q. ring. }
  assert (Ht : forall w, strip r0 w -> locally_2d (fun u v => strip r0 (u, v)) (fst w) (snd w)) by (intros w Hw; exact (strip_loc r0 (fst w) (snd w) Hw)).
  rewrite (E z Hz) in H1, H2.
  split; [exact H1|]. split; [exact H2|]. split; [exact H3|].
  destruct H4 as [C1 C2]. split.
  - apply (continuity_2d_pt_ext_loc _ _ _ _) with (2 := C1).
    destruct (Ht z Hz) as [d Hd]. exists d. intros u v Hu Hv. specialize (Hd u v Hu Hv). now rewrite (E (u, v) Hd).
  - apply (continuity_2d_pt_ext_loc _ _ _ _) with (2 := C2).
    destruct (Ht z Hz) as [d Hd]. exists d. intros u v Hu Hv. specialize (Hd u v Hu Hv). now rewrite (E (u, v) Hd).
Qed.
Lemma cmap'_holo : exists d, forall z, strip r0 z -> holo (cmap' l) d z.
Proof using Hl Hr Hs.
  eexists. intros z Hz. unfold cmap'. apply holo_mult; [apply holo_scal, holo_cosh, holo_id|].
  apply holo_mult; (apply holo_inv; [apply holo_cosh, lsinh_holo|now apply st_n]).
Qed.
End Strip.

(** ** Arguments along a line *)
Lemma cis_add a b : cis (a + b) = (cis a * cis b)%C.
Proof. unfold cis, Cmult. cbn [fst snd]. rewrite cos_plus, sin_plus. apply injective_projections; cbn [fst snd]; ring. Qed.
Lemma carg_line X y : y <> 0 -> carg (X, y) = (if Rlt_dec 0 y then PI / 2 else - (PI / 2)) - atan (X / y).
Proof.
  intro Hy. pose proof (atan_bound (X / y)) as Hb. pose proof PI_RGT_0.
  assert (Hq : 0 < sqrt (1 + Rsqr (X / y))) by (apply sqrt_lt_R0; pose proof (Rle_0_sqr (X / y)); lra).
  destruct (Rlt_dec 0 y).
  - apply (carg_unique _ (y * sqrt (1 + Rsqr (X / y)))); [now apply Rmult_lt_0_compat|lra|].
    unfold cis. rewrite cos_minus, sin_minus, cos_PI2, sin_PI2, cos_atan, sin_atan. unfold RtoC, Cmult. apply injective_projections; cbn [fst snd]; field; lra.
  - apply (carg_unique _ (- y * sqrt (1 + Rsqr (X / y)))); [apply Rmult_lt_0_compat; lra|lra|].
    unfold cis. rewrite cos_minus, sin_minus, cos_neg, sin_neg, cos_PI2, sin_PI2, cos_atan, sin_atan. unfold RtoC, Cmult. apply injective_projections; cbn [fst snd]; field; lra.
Qed.
Lemma carg_real_pos X : 0 < X -> carg (X, 0) = 0.
Proof. intro H. unfold carg. cbn [fst snd]. destruct (Rlt_dec 0 X); [|lra]. replace (0 / X) with 0 by (field; lra). apply atan_0. Qed.
Lemma carg_real_neg X : X < 0 -> carg (X, 0) = PI.
Proof.
  intro H. unfold carg. cbn [fst snd]. destruct (Rlt_dec 0 X); [lra|]. destruct (Rlt_dec X 0); [|lra]. destruct (Rle_dec 0 0); [|lra].
  replace (0 / X) with 0 by (field; lra). rewrite atan_0. ring.
Qed.
Lemma const_of_der (f : R -> R) t : (forall s, is_derive f s 0) -> f t = f 0.
Proof.
  intro H. destruct (MVT_gen f 0 t (fun _ => 0)) as (c & _ & E).
  - intros x _. apply H.
  - intros x _. apply continuity_pt_filterlim, (ex_derive_continuous (V := R_NormedModule)). eexists. apply H.
  - lra.
Qed.
Lemma arg_drift L q (X X' : R -> R) y t : (forall s, holo L q (s, 0)) -> (forall s, is_derive X s (X' s)) ->
  (forall s, q (s, 0) = (RtoC (X' s) * / (X s, y))%C) -> (forall s, (X s, y) <> RtoC 0) ->
  snd (L (t, 0)) - carg (X t, y) = snd (L (0, 0)) - carg (X 0, y).
Proof.
  intros HL HX Hq Hn. destruct (Req_dec y 0) as [->|Hy].
  - assert (E : snd (L (t, 0)) = snd (L (0, 0))).
    { apply (real_drift L q); [exact HL|]. intro s. rewrite Hq. change (X s, 0) with (RtoC (X s)).
      assert (X s <> 0) by (intro E; apply (Hn s); rewrite E; reflexivity). rewrite <- RtoC_inv, <- RtoC_mult by assumption. reflexivity. }
    rewrite E. f_equal.
    assert (Hs : forall s, X s <> 0) by (intros s E0; apply (Hn s); rewrite E0; reflexivity).
    assert (HC : forall s, continuity_pt X s).
    { intro s. apply continuity_pt_filterlim, (ex_derive_continuous (V := R_NormedModule)). eexists. apply HX. }
    assert (Sg : 0 < X t * X 0).
    { destruct (Rlt_dec 0 (X t * X 0)) as [P|P]; [exact P|]. exfalso. assert (N1 := Hs t). assert (N2 := Hs 0).
      destruct (IVT_gen X 0 t 0) as (s & _ & Es).
      - intro s. apply HC.
      - unfold Rmin, Rmax. destruct (Rle_dec (X 0) (X t)); nra.
      - now apply (Hs s). }
    destruct (Rlt_dec 0 (X 0)).
    + rewrite !carg_real_pos by nra. reflexivity.
    + assert (N2 := Hs 0). rewrite !carg_real_neg by nra. reflexivity.
  - rewrite !carg_line by exact Hy.
    assert (E : snd (L (t, 0)) + atan (X t / y) = snd (L (0, 0)) + atan (X 0 / y)); [|destruct (Rlt_dec 0 y); lra].
    apply (const_of_der (fun t => snd (L (t, 0)) + atan (X t / y))). intro s.
    destruct (HL s) as ((_ & D1) & _ & _). cbn [fst snd] in D1.
    assert (D2 : is_derive (fun t => X t / y) s (X' s / y)).
    { replace (X' s / y) with (X' s * / y + X s * 0) by (unfold Rdiv; ring). apply (der_mult X (fun _ => / y)); [apply HX|apply @is_derive_const]. }
    assert (D3 := derivable_pt_lim_atan (X s / y)). apply is_derive_Reals in D3.
    assert (D4 := der_comp atan (fun t => X t / y) s _ _ D3 D2).
    assert (D5 := der_plus _ _ s _ _ D1 D4). cbv beta in D5.
    eapply der_eq; [exact D5|]. rewrite Hq. unfold Cinv, RtoC, Cmult, Rsqr. cbn [fst snd].
    assert (0 < X s * X s + y * y) by nra.
    match goal with |- ?p = ?q => change (@eq R p q) end. field. repeat split; nra.
Qed.

Section Factor.
Variables l r0 : R.
Hypothesis Hl : 0 < l.
Hypothesis Hr : 0 < r0 <= PI / 2.
Hypothesis Hs : l * sin r0 <= PI / 2.
Variable m : Z.
Hypothesis Hm : (1 <= m)%Z.

(** the root of s (tanh(l sinh z) - u), s = 1 or -1, up to a factor of modulus 1 *)
Lemma factor_root s u : s = 1 \/ s = -1 -> (forall z, strip r0 z -> cmap l z <> u) ->
  exists rho, analytic (strip r0) rho /\ (forall z, strip r0 z -> Cmod (rho z) = rroot m (Cmod (cmap l z - u)%C)) /\
    forall t, rho (t, 0) = croot m (RtoC s * (RtoC (SpecQuad.de_map l t) - u))%C.
Proof using Hl Hr Hs Hm.
  intros Es Hu. assert (Hs0 : s <> 0) by lra. assert (HmR : 0 < IZR m) by (apply IZR_lt; lia).
  set (h := fun z => (RtoC s * (cmap l z + - u))%C). set (h' := fun z => (RtoC s * cmap' l z)%C).
  assert (Hh : forall z, strip r0 z -> holo h h' z).
  { intros z Hz. unfold h, h'. apply holo_scal. eapply holo_eq; [apply holo_plus; [now apply (cmap_holo l r0)|apply (holo_const (- u)%C)]|]. intro w. cbv beta. ring. }
  destruct (cmap'_holo l r0 Hl Hr Hs) as (d & Hd).
  assert (Hh' : forall z, strip r0 z -> holo h' (fun z => RtoC s * d z)%C z) by (intros z Hz; now apply holo_scal, Hd).
  assert (Hn : forall z, strip r0 z -> h z <> RtoC 0).
  { intros z Hz E. apply (Hu z Hz). unfold h in E.
    transitivity (RtoC (/ s) * (RtoC s * (cmap l z + - u)) + u)%C; [|rewrite E; ring].
    rewrite Cmult_assoc, <- RtoC_mult, Rinv_l by exact Hs0. ring. }
  destruct (logarithm r0 h h' _ ltac:(lra) Hh Hh' Hn) as (L & HL & EL).
  assert (S0 := st_real r0 Hr).
  assert (Er : forall z, strip r0 z -> exp (fst (L z)) = Cmod (h z)) by (intros z Hz; now rewrite <- (EL z Hz), Cmod_cexp).
  assert (Ehm : forall z, Cmod (h z) = Cmod (cmap l z - u)%C).
  { intro z. unfold h. rewrite Cmod_mult, Cmod_R. replace (Rabs s) with 1 by (destruct Es as [->| ->]; unfold Rabs; destruct (Rcase_abs _); lra). rewrite Rmult_1_l. reflexivity. }
  set (X := fun t => s * (SpecQuad.de_map l t - fst u)). set (y := - s * snd u).
  assert (Eh : forall t, h (t, 0) = (X t, y)).
  { intro t. unfold h. rewrite cmap_real. unfold X, y. destruct u as [u1 u2]. unfold RtoC, Cmult, Cplus, Copp. apply injective_projections; cbn [fst snd]; ring. }
  set (X' := fun t => s * (l * cosh t / (cosh (l * sinh t) * cosh (l * sinh t)))).
  assert (HX : forall t, is_derive X t (X' t)).
  { intro t. unfold X, X'. apply (is_derive_scal (fun t => SpecQuad.de_map l t - fst u)).
    replace (l * cosh t / (cosh (l * sinh t) * cosh (l * sinh t))) with (l * cosh t / (cosh (l * sinh t) * cosh (l * sinh t)) - 0) by ring.
    apply (der_minus (SpecQuad.de_map l) (fun _ => fst u)); [apply de_map_deriv|apply @is_derive_const]. }
  set (th := snd (L (0, 0)) - carg (X 0, y)).
  assert (Eth : forall t, snd (L (t, 0)) = th + carg (X t, y)).
  { intro t. assert (E := arg_drift L (fun z => h' z * / h z)%C X X' y t). unfold th. rewrite <- E; [ring|..].
    - intro v. apply HL, S0.
    - exact HX.
    - intro v. rewrite Eh. unfold h'. rewrite cmap'_real, <- RtoC_mult. reflexivity.
    - intro v. rewrite <- Eh. apply Hn, S0. }
  exists (fun z => cis (- (th / IZR m)) * cexp (RtoC (/ IZR m) * L z))%C. split; [|split].
  - apply analytic_scal, analytic_exp, analytic_scal. eexists. exact HL.
  - intros z Hz. rewrite Cmod_mult, cis_mod, Rmult_1_l, Cmod_cexp. cbn [fst Cmult RtoC snd].
    rewrite <- Ehm. unfold rroot. assert (P : 0 < Cmod (h z)) by (apply Cmod_gt_0; now apply Hn).
    destruct (Rlt_dec 0 (Cmod (h z))); [|lra]. unfold Rpower. f_equal. rewrite <- (Er z Hz), ln_exp. ring.
  - intro t. unfold croot.
    assert (Eh2 : (RtoC s * (RtoC (SpecQuad.de_map l t) - u))%C = (X t, y)).
    { rewrite <- Eh. unfold h. rewrite cmap_real. reflexivity. }
    rewrite Eh2. assert (P : 0 < Cmod (h (t, 0))) by (apply Cmod_gt_0; apply Hn, S0).
    rewrite <- Eh. unfold rroot. destruct (Rlt_dec 0 (Cmod (h (t, 0)))); [|lra]. rewrite Eh.
    unfold Rpower. rewrite <- Eh, <- (Er _ (S0 t)), ln_exp, Eh.
    assert (EL2 : cexp (RtoC (/ IZR m) * L (t, 0)%R)%C = (RtoC (exp (/ IZR m * fst (L (t, 0)%R))) * cis (snd (L (t, 0)%R) / IZR m))%C).
    { unfold cexp, cis, RtoC, Cmult. apply injective_projections; cbn [fst snd]; unfold Rdiv; rewrite !Rmult_0_l, ?Rminus_0_r, ?Rplus_0_r, ?Rmult_0_l, ?Rminus_0_r, ?Rplus_0_r, (Rmult_comm (snd _)); reflexivity. }
    rewrite EL2, Eth. replace ((th + carg (X t, y)) / IZR m) with (th / IZR m + carg (X t, y) / IZR m) by (field; lra). rewrite cis_add.
    assert (E1 : (cis (- (th / IZR m)) * cis (th / IZR m))%C = RtoC 1).
    { rewrite <- cis_add. replace (- (th / IZR m) + th / IZR m) with 0 by ring. unfold cis. rewrite cos_0, sin_0. reflexivity. }
    transitivity (cis (- (th / IZR m)) * cis (th / IZR m) * (RtoC (exp (/ IZR m * fst (L (t, 0)%R))) * cis (carg (X t, y) / IZR m)))%C; [ring|].
    rewrite E1. ring.
Qed.
End Factor.

(** ** The integrand *)
Lemma analytic_inv D f : analytic D f -> (forall z, D z -> f z <> RtoC 0) -> analytic D (fun z => / f z)%C.
Proof. intros (f' & H) Hn. eexists. intros z Hz. apply holo_inv; [now apply H|now apply Hn]. Qed.
Lemma Cmod_cpow z n : Cmod (cpow z n) = Cmod z ^ n.
Proof. induction n as [|n IH]; cbn [cpow pow]; [rewrite Cmod_R, Rabs_R1; reflexivity|]. rewrite Cmod_mult, IH. ring. Qed.
(** t^i / y(t)^j for complex t *)
Definition cratio (m : Z) (u : list C) (n1 j i : nat) (t : C) : C := (cpow t i / cpow (y_tilde m u n1 t) j)%C.
Section Integrand.
Variables l r0 : R.
Hypothesis Hl : 0 < l.
Hypothesis Hr : 0 < r0 <= PI / 2.
Hypothesis Hs : l * sin r0 <= PI / 2.
Variable m : Z.
Hypothesis Hm : (1 <= m)%Z.

Lemma croot_neq_0 z : z <> RtoC 0 -> croot m z <> RtoC 0.
Proof. clear. intros Hz E. assert (H := croot_mod m z). rewrite E, Cmod_0 in H. assert (P := rroot_gt m (Cmod z) (proj1 (Cmod_gt_0 z) Hz)). lra. Qed.
Lemma prod_root s us : s = 1 \/ s = -1 -> (forall z p, strip r0 z -> In p us -> cmap l z <> p) ->
  exists P, analytic (strip r0) P /\
    (forall z, strip r0 z -> Cmod (P z) = Cmod (SpecEdge.cprod (fun p => croot m (RtoC s * (cmap l z - p))%C) us)) /\
    (forall z, strip r0 z -> SpecEdge.cprod (fun p => croot m (RtoC s * (cmap l z - p))%C) us <> RtoC 0) /\
    forall t, P (t, 0) = SpecEdge.cprod (fun p => croot m (RtoC s * (RtoC (SpecQuad.de_map l t) - p))%C) us.
Proof using Hl Hr Hs Hm.
  intros Es Hu. assert (Hs0 : s <> 0) by lra. induction us as [|u us IH].
  - exists (fun _ => RtoC 1). split; [apply analytic_const|]. split; [reflexivity|]. split; [|reflexivity]. intros z _ E. injection E. lra.
  - destruct IH as (P & P1 & P2 & P3 & P4); [intros z p Hz Hp; apply Hu; [exact Hz|now right]|].
    destruct (factor_root l r0 Hl Hr Hs m Hm s u Es) as (rho & R1 & R2 & R3); [intros z Hz; apply Hu; [exact Hz|now left]|].
    exists (fun z => rho z * P z)%C. split; [now apply analytic_mult|]. cbn [SpecEdge.cprod]. split; [|split].
    + intros z Hz. rewrite !Cmod_mult, (P2 z Hz), (R2 z Hz), croot_mod, Cmod_mult, Cmod_R.
      replace (Rabs s) with 1 by (destruct Es as [->| ->]; unfold Rabs; destruct (Rcase_abs _); lra). now rewrite Rmult_1_l.
    + intros z Hz. apply Cmult_neq_0; [|now apply P3]. apply croot_neq_0, Cmult_neq_0; [intro E; injection E; lra|].
      intro E. apply (Hu z u Hz (or_introl eq_refl)). transitivity (cmap l z - u + u)%C; [ring|]. rewrite E. ring.
    + intro t. now rewrite R3, P4.
Qed.
Lemma cprod_ext {A} (f g : A -> C) us : (forall p, f p = g p) -> SpecEdge.cprod f us = SpecEdge.cprod g us.
Proof. intro E. induction us as [|u us IH]; cbn; [reflexivity|]. now rewrite E, IH. Qed.
Lemma y_tilde_split u n1 t : y_tilde m u n1 t = (SpecEdge.cprod (fun p => croot m (RtoC (-1) * (t - p))%C) (firstn n1 u) * SpecEdge.cprod (fun p => croot m (RtoC 1 * (t - p))%C) (skipn n1 u))%C.
Proof.
  clear. unfold y_tilde. f_equal; apply cprod_ext; intro p; f_equal; [|ring].
  replace (RtoC (-1)) with (- RtoC 1)%C by (unfold RtoC, Copp; f_equal; cbn; ring). ring.
Qed.
Theorem integrand_holo u n1 j i : (forall z p, strip r0 z -> In p u -> cmap l z <> p) ->
  exists F, analytic (strip r0) F /\ (forall z, strip r0 z -> Cmod (F z) = Cmod (cratio m u n1 j i (cmap l z))) /\
    (forall z, strip r0 z -> y_tilde m u n1 (cmap l z) <> RtoC 0) /\
    forall t, ratio (fun x => y_tilde m u n1 (RtoC x)) j i (SpecQuad.de_map l t) = F (t, 0).
Proof using Hl Hr Hs Hm.
  intro Hu.
  assert (In1 : forall p, In p (firstn n1 u) -> In p u) by (intros p Hp; rewrite <- (firstn_skipn n1 u); apply in_or_app; now left).
  assert (In2 : forall p, In p (skipn n1 u) -> In p u) by (intros p Hp; rewrite <- (firstn_skipn n1 u); apply in_or_app; now right).
  destruct (prod_root (-1) (firstn n1 u)) as (P & P1 & P2 & P3 & P4); [now right|intros z p Hz Hp; apply Hu; [exact Hz|now apply In1]|].
  destruct (prod_root 1 (skipn n1 u)) as (Q & Q1 & Q2 & Q3 & Q4); [now left|intros z p Hz Hp; apply Hu; [exact Hz|now apply In2]|].
  assert (Hy : forall z, strip r0 z -> y_tilde m u n1 (cmap l z) <> RtoC 0).
  { intros z Hz. rewrite y_tilde_split. apply Cmult_neq_0; [now apply P3|now apply Q3]. }
  assert (Hym : forall z, strip r0 z -> Cmod (P z * Q z)%C = Cmod (y_tilde m u n1 (cmap l z))).
  { intros z Hz. rewrite y_tilde_split, !Cmod_mult, (P2 z Hz), (Q2 z Hz). reflexivity. }
  assert (HN : forall z, strip r0 z -> (P z * Q z)%C <> RtoC 0).
  { intros z Hz E. assert (H := Hym z Hz). rewrite E, Cmod_0 in H. apply (Hy z Hz). apply Cmod_eq_0. now symmetry. }
  exists (fun z => cpow (cmap l z) i * / cpow (P z * Q z)%C j)%C. split; [|split; [|split]].
  - apply analytic_mult.
    + apply analytic_pow. exists (cmap' l). apply (cmap_holo l r0); assumption.
    + apply analytic_inv; [apply analytic_pow; now apply analytic_mult|]. intros z Hz. now apply cpow_neq_0, HN.
  - intros z Hz. unfold cratio, Cdiv. rewrite !Cmod_mult, !Cmod_inv, !Cmod_cpow by (apply cpow_neq_0; (now apply HN) || now apply Hy). now rewrite (Hym z Hz).
  - exact Hy.
  - intro t. unfold ratio. rewrite cmap_real, P4, Q4, <- y_tilde_split. reflexivity.
Qed.
End Integrand.
