(** Complex functions with continuous partial derivatives satisfying the Cauchy-Riemann equations. *)
From Coq Require Import Reals Lra Lia.
From Coquelicot Require Import Coquelicot.
From Verif Require Import CArg SpecDe.
Local Open Scope R_scope.

(** ** Derivatives of functions from R to C *)
Definition cder (f : R -> C) (t : R) (d : C) : Prop :=
  is_derive (fun t => fst (f t)) t (fst d) /\ is_derive (fun t => snd (f t)) t (snd d).
Lemma der_eq (f : R -> R) x a b : is_derive f x a -> a = b -> is_derive f x b.
Proof. now intros H <-. Qed.
Lemma der_plus (f g : R -> R) x a b : is_derive f x a -> is_derive g x b -> is_derive (fun x => f x + g x) x (a + b).
Proof. intros H H'. exact (is_derive_plus f g x a b H H'). Qed.
Lemma der_opp (f : R -> R) x a : is_derive f x a -> is_derive (fun x => - f x) x (- a).
Proof. intros H. exact (is_derive_opp f x a H). Qed.
Lemma der_minus (f g : R -> R) x a b : is_derive f x a -> is_derive g x b -> is_derive (fun x => f x - g x) x (a - b).
Proof. intros H H'. exact (is_derive_minus f g x a b H H'). Qed.
Lemma der_mult (f g : R -> R) x a b : is_derive f x a -> is_derive g x b -> is_derive (fun x => f x * g x) x (a * g x + f x * b).
Proof. intros H H'. exact (is_derive_mult f g x a b H H' Rmult_comm). Qed.
Lemma der_comp (f g : R -> R) x a b : is_derive f (g x) a -> is_derive g x b -> is_derive (fun x => f (g x)) x (b * a).
Proof. intros H H'. exact (is_derive_comp f g x a b H H'). Qed.

Lemma cder_eq f x a b : cder f x a -> a = b -> cder f x b.
Proof. now intros H <-. Qed.
Lemma cder_ext f g x a : (forall t, f t = g t) -> cder f x a -> cder g x a.
Proof. intros E [H1 H2]. split; [apply (is_derive_ext (fun t => fst (f t)))|apply (is_derive_ext (fun t => snd (f t)))]; try assumption; intro t; now rewrite E. Qed.
Lemma cder_const c x : cder (fun _ => c) x (RtoC 0).
Proof. split; exact (is_derive_const _ _). Qed.
Lemma cder_plus f g x a b : cder f x a -> cder g x b -> cder (fun t => f t + g t)%C x (a + b)%C.
Proof. intros [H1 H2] [H3 H4]. split; cbn [fst snd Cplus]; now apply der_plus. Qed.
Lemma cder_opp f x a : cder f x a -> cder (fun t => - f t)%C x (- a)%C.
Proof. intros [H1 H2]. split; cbn [fst snd Copp]; now apply der_opp. Qed.
Lemma cder_mult f g x a b : cder f x a -> cder g x b -> cder (fun t => f t * g t)%C x (a * g x + f x * b)%C.
Proof.
  intros [H1 H2] [H3 H4]. split; cbn [fst snd Cmult Cplus].
  - eapply der_eq; [apply der_minus; apply der_mult; eassumption|]. cbn. ring.
  - eapply der_eq; [apply der_plus; apply der_mult; eassumption|]. cbn. ring.
Qed.
Definition cexp (z : C) : C := (exp (fst z) * cos (snd z), exp (fst z) * sin (snd z)).
Lemma cexp_plus z w : cexp (z + w)%C = (cexp z * cexp w)%C.
Proof. unfold cexp, Cmult. cbn [fst snd Cplus]. rewrite exp_plus, cos_plus, sin_plus. apply injective_projections; cbn; ring. Qed.
Lemma cexp_0 : cexp (RtoC 0) = RtoC 1.
Proof. unfold cexp, RtoC. cbn. rewrite exp_0, cos_0, sin_0. apply injective_projections; cbn; ring. Qed.
Lemma cexp_opp z : (cexp z * cexp (- z))%C = RtoC 1.
Proof. rewrite <- cexp_plus, <- cexp_0. f_equal. ring. Qed.
Lemma Cmod_cexp z : Cmod (cexp z) = exp (fst z).
Proof.
  unfold Cmod, cexp. cbn [fst snd]. replace ((exp (fst z) * cos (snd z)) ^ 2 + (exp (fst z) * sin (snd z)) ^ 2) with (exp (fst z) * exp (fst z)).
  - apply sqrt_square. left. apply exp_pos.
  - assert (H := sin2_cos2 (snd z)). unfold Rsqr in H. nra.
Qed.
Lemma cexp_neq_0 z : cexp z <> RtoC 0.
Proof. intro E. assert (H := Cmod_cexp z). rewrite E, Cmod_0 in H. assert (H' := exp_pos (fst z)). lra. Qed.
Lemma cder_exp f x a : cder f x a -> cder (fun t => cexp (f t)) x (cexp (f x) * a)%C.
Proof.
  intros [H1 H2]. unfold cexp. split; cbn [fst snd Cmult].
  - eapply der_eq. { apply der_mult. { apply (der_comp exp); [apply is_derive_exp|exact H1]. } { apply (der_comp cos); [apply is_derive_cos|exact H2]. } } cbn. ring.
  - eapply der_eq. { apply der_mult. { apply (der_comp exp); [apply is_derive_exp|exact H1]. } { apply (der_comp sin); [apply is_derive_sin|exact H2]. } } cbn. ring.
Qed.
Lemma Cmod_sq z : Cmod z * Cmod z = fst z * fst z + snd z * snd z.
Proof. unfold Cmod. rewrite sqrt_sqrt; nra. Qed.
Lemma sqr_pos z : z <> RtoC 0 -> 0 < fst z * fst z + snd z * snd z.
Proof. intro H. assert (H1 : 0 < Cmod z) by now apply Cmod_gt_0. rewrite <- Cmod_sq. nra. Qed.
Lemma cder_inv f x a : cder f x a -> f x <> RtoC 0 -> cder (fun t => / f t)%C x (- (a * / f x * / f x))%C.
Proof.
  intros [H1 H2] Hn. assert (Hp := sqr_pos _ Hn). unfold Cinv. split; cbn [fst snd].
  - eapply der_eq. { apply (is_derive_div (fun t => fst (f t)) (fun t => fst (f t) ^ 2 + snd (f t) ^ 2)); [exact H1| |].
      { apply der_plus; (eapply der_eq; [apply is_derive_pow; eassumption|reflexivity]). } { nra. } }
    cbn. field. nra.
  - eapply der_eq. { apply (is_derive_div (fun t => - snd (f t)) (fun t => fst (f t) ^ 2 + snd (f t) ^ 2)); [apply der_opp; exact H2| |].
      { apply der_plus; (eapply der_eq; [apply is_derive_pow; eassumption|reflexivity]). } { nra. } }
    cbn. field. nra.
Qed.

(** ** Continuity in the plane *)
Definition cont2 (f : C -> C) (z : C) : Prop :=
  continuity_2d_pt (fun t u => fst (f (t, u))) (fst z) (snd z) /\ continuity_2d_pt (fun t u => snd (f (t, u))) (fst z) (snd z).
Lemma c2_comp (f : R -> R) (g : R -> R -> R) x y : continuity_pt f (g x y) -> continuity_2d_pt g x y -> continuity_2d_pt (fun x y => f (g x y)) x y.
Proof. apply continuity_1d_2d_pt_comp. Qed.
Lemma cont2_const c z : cont2 (fun _ => c) z.
Proof. split; apply continuity_2d_pt_const. Qed.
Lemma cont2_id z : cont2 (fun z => z) z.
Proof. split; cbn [fst snd]; [apply continuity_2d_pt_id1|apply continuity_2d_pt_id2]. Qed.
Lemma cont2_plus f g z : cont2 f z -> cont2 g z -> cont2 (fun z => f z + g z)%C z.
Proof. intros [H1 H2] [H3 H4]. split; cbn [fst snd Cplus]; now apply continuity_2d_pt_plus. Qed.
Lemma cont2_opp f z : cont2 f z -> cont2 (fun z => - f z)%C z.
Proof. intros [H1 H2]. split; cbn [fst snd Copp]; now apply continuity_2d_pt_opp. Qed.
Lemma cont2_mult f g z : cont2 f z -> cont2 g z -> cont2 (fun z => f z * g z)%C z.
Proof.
  intros [H1 H2] [H3 H4]. split; cbn [fst snd Cmult].
  - apply continuity_2d_pt_minus; now apply continuity_2d_pt_mult.
  - apply continuity_2d_pt_plus; now apply continuity_2d_pt_mult.
Qed.
Lemma cont2_exp f z : cont2 f z -> cont2 (fun z => cexp (f z)) z.
Proof.
  intros [H1 H2]. unfold cexp. split; cbn [fst snd]; apply continuity_2d_pt_mult;
    [apply (c2_comp exp)|apply (c2_comp cos)|apply (c2_comp exp)|apply (c2_comp sin)]; try assumption.
  - apply derivable_continuous_pt, derivable_pt_exp.
  - apply continuity_cos.
  - apply derivable_continuous_pt, derivable_pt_exp.
  - apply continuity_sin.
Qed.
Lemma pair_eta (z : C) : (fst z, snd z) = z.
Proof. now destruct z. Qed.
Lemma cont2_inv f z : cont2 f z -> f z <> RtoC 0 -> cont2 (fun z => / f z)%C z.
Proof.
  intros [H1 H2] Hn. assert (Hp := sqr_pos _ Hn). unfold Cinv.
  assert (HD : continuity_2d_pt (fun t u => / (fst (f (t, u)) ^ 2 + snd (f (t, u)) ^ 2)) (fst z) (snd z)).
  { apply continuity_2d_pt_inv.
    - apply continuity_2d_pt_plus; [apply continuity_2d_pt_ext with (fun t u => fst (f (t, u)) * fst (f (t, u)))|apply continuity_2d_pt_ext with (fun t u => snd (f (t, u)) * snd (f (t, u)))];
        try (intros; ring); now apply continuity_2d_pt_mult.
    - rewrite pair_eta. nra. }
  split; cbn [fst snd]; unfold Rdiv; apply continuity_2d_pt_mult; try assumption. now apply continuity_2d_pt_opp.
Qed.
Lemma cont2_ext f g z : (forall z, f z = g z) -> cont2 f z -> cont2 g z.
Proof.
  intros E [H1 H2]. split; [revert H1|revert H2]; apply continuity_2d_pt_ext; intros; now rewrite E.
Qed.

(** ** Holomorphic functions *)
Definition holo (f f' : C -> C) (z : C) : Prop :=
  cder (fun t => f (t, snd z)) (fst z) (f' z) /\ cder (fun u => f (fst z, u)) (snd z) (Ci * f' z)%C /\ cont2 f z /\ cont2 f' z.
Lemma holo_eq f f' g' z : holo f f' z -> (forall z, f' z = g' z) -> holo f g' z.
Proof. intros (H1 & H2 & H3 & H4) E. unfold holo. rewrite <- !E. conj; try assumption. now apply (cont2_ext f'). Qed.
Lemma holo_ext f g f' z : (forall z, f z = g z) -> holo f f' z -> holo g f' z.
Proof.
  intros E (H1 & H2 & H3 & H4). split; [|split; [|split]]; try assumption.
  - revert H1. apply cder_ext. intro. apply E.
  - revert H2. apply cder_ext. intro. apply E.
  - now apply (cont2_ext f).
Qed.
Lemma holo_const c z : holo (fun _ => c) (fun _ => RtoC 0) z.
Proof.
  split; [|split; [|split]]; try apply cont2_const; try apply cder_const.
  eapply cder_eq; [apply cder_const|]. ring.
Qed.
Lemma holo_id z : holo (fun z => z) (fun _ => RtoC 1) z.
Proof.
  split; [|split; [|split]]; [| |apply cont2_id|apply cont2_const].
  - split; cbn [fst snd RtoC]; [exact (is_derive_id (fst z))|exact (is_derive_const (snd z) (fst z))].
  - split; cbn [fst snd RtoC Ci Cmult].
    + eapply der_eq; [exact (is_derive_const (fst z) (snd z))|]. cbn. ring.
    + eapply der_eq; [exact (is_derive_id (snd z))|]. cbn. ring.
Qed.
Lemma holo_plus f g f' g' z : holo f f' z -> holo g g' z -> holo (fun z => f z + g z)%C (fun z => f' z + g' z)%C z.
Proof.
  intros (H1 & H2 & H3 & H4) (K1 & K2 & K3 & K4). split; [|split; [|split]]; try now apply cont2_plus.
  - now apply cder_plus.
  - eapply cder_eq; [apply cder_plus; eassumption|]. ring.
Qed.
Lemma holo_opp f f' z : holo f f' z -> holo (fun z => - f z)%C (fun z => - f' z)%C z.
Proof.
  intros (H1 & H2 & H3 & H4). split; [|split; [|split]]; try now apply cont2_opp.
  - now apply cder_opp.
  - eapply cder_eq; [apply cder_opp; eassumption|]. ring.
Qed.
Lemma holo_mult f g f' g' z : holo f f' z -> holo g g' z -> holo (fun z => f z * g z)%C (fun z => f' z * g z + f z * g' z)%C z.
Proof.
  intros (H1 & H2 & H3 & H4) (K1 & K2 & K3 & K4). split; [|split; [|split]]; try now apply cont2_mult.
  - eapply cder_eq; [apply cder_mult; eassumption|]. cbv beta. rewrite !pair_eta. reflexivity.
  - eapply cder_eq; [apply cder_mult; eassumption|]. cbv beta. rewrite !pair_eta. ring.
  - apply cont2_plus; now apply cont2_mult.
Qed.
Lemma holo_scal c f f' z : holo f f' z -> holo (fun z => c * f z)%C (fun z => c * f' z)%C z.
Proof. intro H. eapply holo_eq; [apply holo_mult; [apply holo_const|exact H]|]. intro w. cbv beta. ring. Qed.
Lemma holo_exp f f' z : holo f f' z -> holo (fun z => cexp (f z)) (fun z => cexp (f z) * f' z)%C z.
Proof.
  intros (H1 & H2 & H3 & H4). split; [|split; [|split]].
  - eapply cder_eq; [apply cder_exp; eassumption|]. cbv beta. rewrite !pair_eta. reflexivity.
  - eapply cder_eq; [apply cder_exp; eassumption|]. cbv beta. rewrite !pair_eta. ring.
  - now apply cont2_exp.
  - apply cont2_mult; [now apply cont2_exp|exact H4].
Qed.
Lemma holo_inv f f' z : holo f f' z -> f z <> RtoC 0 -> holo (fun z => / f z)%C (fun z => - (f' z * / f z * / f z))%C z.
Proof.
  intros (H1 & H2 & H3 & H4) Hn. split; [|split; [|split]].
  - eapply cder_eq; [apply cder_inv; [eassumption|]|]; cbv beta; rewrite !pair_eta; [exact Hn|reflexivity].
  - eapply cder_eq; [apply cder_inv; [eassumption|]|]; cbv beta; rewrite !pair_eta; [exact Hn|ring].
  - now apply cont2_inv.
  - apply cont2_opp. repeat apply cont2_mult; try assumption; now apply cont2_inv.
Qed.

Definition analytic (D : C -> Prop) (f : C -> C) : Prop := exists f', forall z, D z -> holo f f' z.
Lemma analytic_const D c : analytic D (fun _ => c).
Proof. eexists. intros z _. apply holo_const. Qed.
Lemma analytic_plus D f g : analytic D f -> analytic D g -> analytic D (fun z => f z + g z)%C.
Proof. intros [f' Hf] [g' Hg]. eexists. intros z Hz. exact (holo_plus _ _ _ _ z (Hf z Hz) (Hg z Hz)). Qed.
Lemma analytic_mult D f g : analytic D f -> analytic D g -> analytic D (fun z => f z * g z)%C.
Proof. intros [f' Hf] [g' Hg]. eexists. intros z Hz. exact (holo_mult _ _ _ _ z (Hf z Hz) (Hg z Hz)). Qed.
Lemma analytic_scal D c f : analytic D f -> analytic D (fun z => c * f z)%C.
Proof. intros [f' Hf]. eexists. intros z Hz. exact (holo_scal c _ _ z (Hf z Hz)). Qed.
Lemma analytic_exp D f : analytic D f -> analytic D (fun z => cexp (f z)).
Proof. intros [f' Hf]. eexists. intros z Hz. exact (holo_exp _ _ z (Hf z Hz)). Qed.
Lemma analytic_ext D f g : (forall z, f z = g z) -> analytic D f -> analytic D g.
Proof. intros E [f' Hf]. exists f'. intros z Hz. apply (holo_ext f); [exact E|]. now apply Hf. Qed.
Lemma analytic_pow D f i : analytic D f -> analytic D (fun z => cpow (f z) i).
Proof.
  intro H. induction i as [|i IH]; [exact (analytic_const D (RtoC 1))|].
  exact (analytic_mult D (fun z => cpow (f z) i) f IH H).
Qed.

(** ** Hyperbolic functions *)
Lemma ccosh_exp w : ccosh w = (RtoC (/ 2) * (cexp w + cexp (- w)))%C.
Proof.
  unfold ccosh, cexp, cosh, sinh. cbn [fst snd Cplus Copp Cmult RtoC]. rewrite cos_neg, sin_neg. apply injective_projections; cbn; field.
Qed.
Lemma csinh_exp w : csinh w = (RtoC (/ 2) * (cexp w + - cexp (- w)))%C.
Proof.
  unfold csinh, cexp, cosh, sinh. cbn [fst snd Cplus Copp Cmult RtoC]. rewrite cos_neg, sin_neg. apply injective_projections; cbn; field.
Qed.
Lemma holo_cosh f f' z : holo f f' z -> holo (fun z => ccosh (f z)) (fun z => csinh (f z) * f' z)%C z.
Proof.
  intro H. refine (holo_ext (fun z => RtoC (/ 2) * (cexp (f z) + cexp (- f z)))%C (fun z => ccosh (f z)) _ z (fun z => eq_sym (ccosh_exp (f z))) _).
  eapply holo_eq; [apply holo_scal, holo_plus; apply holo_exp; [exact H|apply holo_opp, H]|]. intro w. cbv beta. rewrite csinh_exp. ring.
Qed.
Lemma holo_sinh f f' z : holo f f' z -> holo (fun z => csinh (f z)) (fun z => ccosh (f z) * f' z)%C z.
Proof.
  intro H. refine (holo_ext (fun z => RtoC (/ 2) * (cexp (f z) + - cexp (- f z)))%C (fun z => csinh (f z)) _ z (fun z => eq_sym (csinh_exp (f z))) _).
  eapply holo_eq; [apply holo_scal, holo_plus; [apply holo_exp, H|apply holo_opp, holo_exp, holo_opp, H]|]. intro w. cbv beta. rewrite ccosh_exp. ring.
Qed.
Lemma cosh_sinh_sq w : (ccosh w * ccosh w - csinh w * csinh w)%C = RtoC 1.
Proof.
  rewrite ccosh_exp, csinh_exp. assert (E := cexp_opp w). set (a := cexp w) in *. set (b := cexp (- w)%C) in *.
  transitivity ((RtoC (/ 2) * RtoC (/ 2)) * (RtoC 2 * RtoC 2) * (a * b))%C.
  - replace (RtoC 2) with (RtoC 1 + RtoC 1)%C by (rewrite <- RtoC_plus; f_equal; ring). ring.
  - rewrite E, <- !RtoC_mult. f_equal. field.
Qed.
