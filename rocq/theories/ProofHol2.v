(** Integrals of complex functions; Cauchy's theorem for rectangles; logarithms. *)
From Coq Require Import Reals Lra Lia.
From Coquelicot Require Import Coquelicot.
From Verif Require Import CArg SpecDe ProofErr3 ProofErr4 ProofErr5 ProofHol1.
Local Open Scope R_scope.

Definition between (a b t : R) : Prop := Rmin a b <= t <= Rmax a b.
Definition cint (f : R -> C) (a b : R) (I : C) : Prop :=
  is_RInt (fun t => fst (f t)) a b (fst I) /\ is_RInt (fun t => snd (f t)) a b (snd I).
Definition CInt (f : R -> C) (a b : R) : C := (RInt (fun t => fst (f t)) a b, RInt (fun t => snd (f t)) a b).
Lemma cint_ex f a b : (forall t, between a b t -> ccont f t) -> cint f a b (CInt f a b).
Proof.
  intro H. split; cbn [fst snd CInt]; apply (RInt_correct (V := R_CompleteNormedModule)), (ex_RInt_continuous (V := R_CompleteNormedModule)); intros t Ht; now apply H.
Qed.
Lemma cint_unique f a b I : cint f a b I -> CInt f a b = I.
Proof. intros [H1 H2]. unfold CInt. rewrite (is_RInt_unique _ _ _ _ H1), (is_RInt_unique _ _ _ _ H2). apply pair_eta. Qed.
Lemma cint_ext f g a b I : (forall t, between a b t -> f t = g t) -> cint f a b I -> cint g a b I.
Proof.
  intros E [H1 H2]. split; [apply (is_RInt_ext (V := R_NormedModule) (fun t => fst (f t)))|apply (is_RInt_ext (V := R_NormedModule) (fun t => snd (f t)))]; try assumption;
    intros t Ht; rewrite E; try reflexivity; unfold between; lra.
Qed.
Lemma cint_plus f g a b I J : cint f a b I -> cint g a b J -> cint (fun t => f t + g t)%C a b (I + J)%C.
Proof. intros [H1 H2] [H3 H4]. split; cbn [fst snd Cplus]; now apply (is_RInt_plus (V := R_NormedModule)). Qed.
Lemma cint_opp f a b I : cint f a b I -> cint (fun t => - f t)%C a b (- I)%C.
Proof. intros [H1 H2]. split; cbn [fst snd Copp]; now apply (is_RInt_opp (V := R_NormedModule)). Qed.
Lemma cint_scal c f a b I : cint f a b I -> cint (fun t => c * f t)%C a b (c * I)%C.
Proof.
  intros [H1 H2]. split; cbn [fst snd Cmult].
  - apply (is_RInt_minus (V := R_NormedModule)); now apply (is_RInt_scal (V := R_NormedModule)).
  - apply (is_RInt_plus (V := R_NormedModule)); now apply (is_RInt_scal (V := R_NormedModule)).
Qed.
Lemma cint_chasles f a b c I J : cint f a b I -> cint f b c J -> cint f a c (I + J)%C.
Proof. intros [H1 H2] [H3 H4]. split; cbn [fst snd Cplus]; eapply (is_RInt_Chasles (V := R_NormedModule)); eassumption. Qed.
Lemma cint_bound (f : R -> C) (B : R -> R) a b (I : C) (J : R) : a <= b -> cint f a b I -> is_RInt B a b J -> (forall t, a < t < b -> Cmod (f t) <= B t) -> Cmod I <= J.
Proof.
  intros Hab HI HB Hf. destruct (Req_dec (Cmod I) 0) as [E|E].
  - rewrite E. assert (HR : is_RInt (fun _ => 0) a b 0).
    { assert (HC := is_RInt_const (V := R_NormedModule) a b 0). change (is_RInt (fun _ : R => 0) a b ((b - a) * 0)) in HC. rewrite Rmult_0_r in HC. exact HC. }
    apply (is_RInt_le _ _ a b _ _ Hab HR HB). intros t Ht. eapply Rle_trans; [apply Cmod_ge_0|]. now apply Hf.
  - assert (HI0 : I <> RtoC 0) by (intro E0; rewrite E0, Cmod_0 in E; lra).
    assert (Hp : 0 < Cmod I) by now apply Cmod_gt_0.
    set (c := (fst I / Cmod I, - snd I / Cmod I) : C).
    assert (Hc : Cmod c = 1).
    { assert (S := Cmod_sq c). assert (S' := Cmod_sq I). change (Cmod c * Cmod c = fst I / Cmod I * (fst I / Cmod I) + - snd I / Cmod I * (- snd I / Cmod I)) in S.
      assert (Cmod c * Cmod c = 1). { rewrite S. replace (fst I / Cmod I * (fst I / Cmod I) + - snd I / Cmod I * (- snd I / Cmod I)) with ((fst I * fst I + snd I * snd I) / (Cmod I * Cmod I)) by (field; lra). rewrite <- S'. field. lra. }
      assert (0 <= Cmod c) by apply Cmod_ge_0. nra. }
    destruct (cint_scal c f a b I HI) as [H1 _].
    assert (E1 : fst (c * I)%C = Cmod I).
    { assert (S' := Cmod_sq I). unfold c. cbn [fst snd Cmult]. replace (fst I / Cmod I * fst I - - snd I / Cmod I * snd I) with ((fst I * fst I + snd I * snd I) / Cmod I) by (field; lra).
      rewrite <- S'. field. lra. }
    rewrite E1 in H1. apply (is_RInt_le _ _ a b _ _ Hab H1 HB). intros t Ht.
    eapply Rle_trans; [apply Rle_abs|]. eapply Rle_trans; [apply re_le|]. rewrite Cmod_mult, Hc, Rmult_1_l. now apply Hf.
Qed.
Lemma cint_bound_const f a b I M : a <= b -> cint f a b I -> (forall t, a < t < b -> Cmod (f t) <= M) -> Cmod I <= (b - a) * M.
Proof. intros Hab HI Hf. apply (cint_bound f (fun _ => M) a b); try assumption. apply (is_RInt_const (V := R_NormedModule)). Qed.
Lemma cder_cont f t d : cder f t d -> ccont f t.
Proof. intros [H1 H2]. split; apply (ex_derive_continuous (V := R_NormedModule)); eexists; eassumption. Qed.
Lemma cint_ftc F f a b : (forall t, between a b t -> cder F t (f t) /\ ccont f t) -> cint f a b (F b - F a)%C.
Proof.
  intro H. split; cbn [fst snd Cminus Cplus Copp].
  - apply (is_RInt_derive (V := R_CompleteNormedModule) (fun t => fst (F t))); intros t Ht; now apply (H t Ht).
  - apply (is_RInt_derive (V := R_CompleteNormedModule) (fun t => snd (F t))); intros t Ht; now apply (H t Ht).
Qed.

(** ** Slices *)
Lemma c2_slice_x (f : R -> R -> R) x y : continuity_2d_pt f x y -> continuous (fun t => f t y) x.
Proof.
  intros H P HP. destruct HP as [eps HP].
  destruct (locally_2d_1d_const_y _ _ _ (H eps)) as [d Hd]. exists d. intros t Ht. apply HP. now apply Hd.
Qed.
Lemma c2_slice_y (f : R -> R -> R) x y : continuity_2d_pt f x y -> continuous (fun t => f x t) y.
Proof.
  intros H P HP. destruct HP as [eps HP].
  destruct (locally_2d_1d_const_x _ _ _ (H eps)) as [d Hd]. exists d. intros t Ht. apply HP. now apply Hd.
Qed.
Lemma cont2_x f z : cont2 f z -> ccont (fun t => f (t, snd z)) (fst z).
Proof. intros [H1 H2]. split; now apply c2_slice_x in H1, H2. Qed.
Lemma cont2_y f z : cont2 f z -> ccont (fun u => f (fst z, u)) (snd z).
Proof. intros [H1 H2]. split; now apply c2_slice_y in H1, H2. Qed.

(** ** Derivative under the integral *)
Lemma cder_param (g g2 : R -> R -> C) (U : R -> R -> Prop) a b x :
  (forall t, between a b t -> locally_2d U x t) -> locally x (fun y => forall t, between a b t -> U y t) ->
  (forall y t, U y t -> cder (fun y => g y t) y (g2 y t) /\ ccont (g y) t) ->
  (forall t, between a b t -> cont2 (fun z => g2 (fst z) (snd z)) (x, t)) ->
  cder (fun y => CInt (g y) a b) x (CInt (g2 x) a b).
Proof.
  intros HU Hx Hd Hc.
  assert (aux : forall (pr : C -> R), (forall c1 c2 : C, c1 = c2 -> pr c1 = pr c2) ->
    (forall y t, U y t -> is_derive (fun y => pr (g y t)) y (pr (g2 y t)) /\ continuous (fun t => pr (g y t)) t) ->
    (forall t, between a b t -> continuity_2d_pt (fun y t => pr (g2 y t)) x t) ->
    is_derive (fun y => RInt (fun t => pr (g y t)) a b) x (RInt (fun t => pr (g2 x t)) a b)).
  { intros pr _ Hpr Hcc.
    assert (H := is_derive_RInt_param (fun y t => pr (g y t)) a b x). eapply der_eq; [apply H|].
    - apply (filter_imp (fun y => forall t, between a b t -> U y t)); [|exact Hx]. intros y Hy t Ht. eexists. apply Hpr, Hy, Ht.
    - intros t Ht. apply (continuity_2d_pt_ext_loc (fun y t => pr (g2 y t))); [|now apply Hcc].
      destruct (HU t Ht) as [d Hd']. exists d. intros u v Hu Hv. symmetry. apply is_derive_unique. now apply Hpr, Hd'.
    - apply (filter_imp (fun y => forall t, between a b t -> U y t)); [|exact Hx]. intros y Hy.
      apply (ex_RInt_continuous (V := R_CompleteNormedModule)). intros t Ht. now apply Hpr, Hy.
    - apply RInt_ext. intros t Ht. apply is_derive_unique. apply Hpr.
      apply (locally_singleton x (fun y => forall t, between a b t -> U y t) Hx). unfold between. lra. }
  unfold CInt. split; cbn [fst snd].
  - apply (aux (@fst R R)); [intros c1 c2 E; now rewrite E| |].
    + intros y t Hy. destruct (Hd y t Hy) as [[H1 _] [H2 _]]. now split.
    + intros t Ht. apply (Hc t Ht).
  - apply (aux (@snd R R)); [intros c1 c2 E; now rewrite E| |].
    + intros y t Hy. destruct (Hd y t Hy) as [[_ H1] [_ H2]]. now split.
    + intros t Ht. apply (Hc t Ht).
Qed.

Definition strip (r : R) (z : C) : Prop := Rabs (snd z) < r.
Lemma strip_loc r x y : Rabs y < r -> locally_2d (fun _ v => Rabs v < r) x y.
Proof.
  intro H. assert (Hd : 0 < r - Rabs y) by lra. exists (mkposreal _ Hd). intros u v _ Hv. cbn in Hv.
  replace v with (v - y + y) by ring. eapply Rle_lt_trans; [apply Rabs_triang|]. lra.
Qed.
Lemma abs_loc r x : Rabs x < r -> locally x (fun y => Rabs y < r).
Proof.
  intro H. assert (Hd : 0 < r - Rabs x) by lra. exists (mkposreal _ Hd). intros v Hv. change (Rabs (v - x) < r - Rabs x) in Hv.
  replace v with (v - x + x) by ring. eapply Rle_lt_trans; [apply Rabs_triang|]. lra.
Qed.
Lemma between_abs v s r : Rabs v < r -> between 0 v s -> Rabs s < r.
Proof. unfold between, Rmin, Rmax, Rabs. intros. destruct (Rle_dec 0 v), (Rcase_abs v), (Rcase_abs s); lra. Qed.
(** swapped arguments *)
Lemma c2_swap (f : R -> R -> R) x y : continuity_2d_pt f x y -> continuity_2d_pt (fun u v => f v u) y x.
Proof. intros H eps. destruct (H eps) as [d Hd]. exists d. intros u v Hu Hv. now apply Hd. Qed.
Lemma cont2_swap f x y : cont2 f (x, y) -> cont2 (fun z => f (snd z, fst z)) (y, x).
Proof. intros [H1 H2]. split; cbn [fst snd] in *; now apply c2_swap in H1, H2. Qed.

(** Cauchy's theorem on the rectangle [a, b] x [0, v] *)
Lemma rectangle f f' r a b v : (forall z, strip r z -> holo f f' z) -> Rabs v < r ->
  (CInt (fun t => f (t, v)) a b - CInt (fun t => f (t, 0)) a b)%C =
  (Ci * (CInt (fun u => f (b, u)) 0 v - CInt (fun u => f (a, u)) 0 v))%C.
Proof.
  intros Hf Hv.
  assert (HJ : forall u, Rabs u < r -> cder (fun u => CInt (fun t => f (t, u)) a b) u (Ci * (f (b, u) - f (a, u)))%C).
  { intros u Hu. eapply cder_eq.
    - apply (cder_param (fun u t => f (t, u)) (fun u t => Ci * f' (t, u))%C (fun u _ => Rabs u < r) a b u).
      + intros t _. assert (Hd : 0 < r - Rabs u) by lra. exists (mkposreal _ Hd). intros y w Hy _. cbn in Hy.
        replace y with (y - u + u) by ring. eapply Rle_lt_trans; [apply Rabs_triang|]. lra.
      + apply (filter_imp (fun y => Rabs y < r)); [now intros|]. now apply abs_loc.
      + intros y t Hy. destruct (Hf (t, y) Hy) as (H1 & H2 & H3 & H4). split; [exact H2|]. apply (cont2_x _ _ H3).
      + intros t _. destruct (Hf (t, u) Hu) as (H1 & H2 & H3 & H4). apply cont2_swap in H4.
        apply (cont2_mult (fun _ => Ci) (fun z => f' (snd z, fst z))); [apply cont2_const|exact H4].
    - apply cint_unique. apply cint_scal. apply (cint_ftc (fun t => f (t, u))). intros t _.
      destruct (Hf (t, u) Hu) as (H1 & H2 & H3 & H4). split; [exact H1|]. exact (cont2_x _ _ H4). }
  assert (HF : cint (fun u => Ci * (f (b, u) - f (a, u)))%C 0 v (CInt (fun t => f (t, v)) a b - CInt (fun t => f (t, 0)) a b)%C).
  { apply (cint_ftc (fun u => CInt (fun t => f (t, u)) a b)). intros u Hu. apply between_abs with (r := r) in Hu; [|exact Hv].
    split; [now apply HJ|]. apply ccont_mult; [apply ccont_const|].
    destruct (Hf (b, u) Hu) as (_ & _ & H3 & _). destruct (Hf (a, u) Hu) as (_ & _ & H3' & _).
    apply (ccont_plus (fun u => f (b, u)) (fun u => - f (a, u))%C); [exact (cont2_y _ _ H3)|].
    apply (ccont_ext (fun u => RtoC (-1) * f (a, u))%C); [intro; apply injective_projections; cbn; ring|]. apply ccont_mult; [apply ccont_const|exact (cont2_y _ _ H3')]. }
  apply cint_unique in HF. rewrite <- HF. apply cint_unique. apply cint_scal. apply cint_plus.
  - apply cint_ex. intros u Hu. apply between_abs with (r := r) in Hu; [|exact Hv]. destruct (Hf (b, u) Hu) as (_ & _ & H3 & _). exact (cont2_y _ _ H3).
  - apply cint_opp. apply cint_ex. intros u Hu. apply between_abs with (r := r) in Hu; [|exact Hv]. destruct (Hf (a, u) Hu) as (_ & _ & H3 & _). exact (cont2_y _ _ H3).
Qed.

(** ** Primitives and logarithms *)
Lemma cder_CInt f a x : locally x (fun y => forall t, between a y t -> ccont f t) -> cder (fun y => CInt f a y) x (f x).
Proof.
  intro H. assert (Hx : ccont f x).
  { apply (locally_singleton x _ H). unfold between. split; [apply Rmin_r|apply Rmax_r]. }
  unfold CInt. split; cbn [fst snd].
  - apply (is_derive_RInt (V := R_NormedModule) (fun t => fst (f t)) _ a x); [|apply Hx].
    apply (filter_imp (fun y => forall t, between a y t -> ccont f t)); [|exact H]. intros y Hy. apply (cint_ex f a y Hy).
  - apply (is_derive_RInt (V := R_NormedModule) (fun t => snd (f t)) _ a x); [|apply Hx].
    apply (filter_imp (fun y => forall t, between a y t -> ccont f t)); [|exact H]. intros y Hy. apply (cint_ex f a y Hy).
Qed.
Lemma cont2_partials r f f' z : (forall z, strip r z -> cder (fun t => f (t, snd z)) (fst z) (f' z)) ->
  cder (fun u => f (fst z, u)) (snd z) (Ci * f' z)%C -> cont2 f' z -> strip r z -> cont2 f z.
Proof.
  intros Hx Hy [Hc1 Hc2] Hz.
  assert (HL : locally (fst z, snd z) (fun u : R * R => strip r u)).
  { apply (locally_2d_locally (fun a b => strip r (a, b))). exact (strip_loc r (fst z) (snd z) Hz). }
  split; apply differentiable_continuity_pt.
  - exists (fst (f' z)), (fst (Ci * f' z)%C). apply filterdiff_differentiable_pt_lim.
    eapply filterdiff_ext_lin; [apply (is_derive_filterdiff (fun t u => fst (f (t, u))) (fst z) (snd z) (fun t u => fst (f' (t, u))) (fst (Ci * f' z)%C))|].
    + revert HL. apply filter_imp. intros u Hu. destruct u as [u1 u2]. exact (proj1 (Hx (u1, u2) Hu)).
    + exact (proj1 Hy).
    + apply continuity_2d_pt_filterlim in Hc1. exact Hc1.
    + intros u. cbn. rewrite pair_eta. unfold scal, plus; cbn. unfold mult; cbn. reflexivity.
  - exists (snd (f' z)), (snd (Ci * f' z)%C). apply filterdiff_differentiable_pt_lim.
    eapply filterdiff_ext_lin; [apply (is_derive_filterdiff (fun t u => snd (f (t, u))) (fst z) (snd z) (fun t u => snd (f' (t, u))) (snd (Ci * f' z)%C))|].
    + revert HL. apply filter_imp. intros u Hu. destruct u as [u1 u2]. exact (proj2 (Hx (u1, u2) Hu)).
    + exact (proj2 Hy).
    + apply continuity_2d_pt_filterlim in Hc2. exact Hc2.
    + intros u. cbn. rewrite pair_eta. unfold scal, plus; cbn. unfold mult; cbn. reflexivity.
Qed.
Lemma primitive r f f' : 0 < r -> (forall z, strip r z -> holo f f' z) -> exists P, P (0, 0) = RtoC 0 /\ forall z, strip r z -> holo P f z.
Proof.
  intros Hr Hf.
  set (P := fun z : C => (CInt (fun t => f (t, 0)) 0 (fst z) + Ci * CInt (fun s => f (fst z, s)) 0 (snd z))%C).
  assert (Hz0 : strip r (0, 0)) by (unfold strip; cbn; rewrite Rabs_R0; exact Hr).
  assert (HP : forall x y, Rabs y < r -> P (x, y) = (CInt (fun t => f (t, y)) 0 x + Ci * CInt (fun s => f (0, s)) 0 y)%C).
  { intros x y Hy. assert (E := rectangle f f' r 0 x y Hf Hy). unfold P. cbn [fst snd].
    set (A := CInt (fun t => f (t, y)) 0 x) in *. set (B := CInt (fun t => f (t, 0)) 0 x) in *.
    set (D := CInt (fun u => f (x, u)) 0 y) in *. set (E' := CInt (fun u => f (0, u)) 0 y) in *.
    replace A with (A - B + B)%C by ring. rewrite E. ring. }
  assert (Hx : forall z, strip r z -> cder (fun t => P (t, snd z)) (fst z) (f z)).
  { intros z Hz. apply (cder_ext (fun t => CInt (fun t => f (t, snd z)) 0 t + Ci * CInt (fun s => f (0, s)) 0 (snd z))%C).
    - intro t. symmetry. now apply HP.
    - eapply cder_eq; [apply cder_plus; [apply cder_CInt|apply cder_const]|].
      + apply filter_forall. intros y t _. destruct (Hf (t, snd z) Hz) as (_ & _ & H3 & _). exact (cont2_x _ _ H3).
      + cbv beta. rewrite pair_eta. ring. }
  assert (Hy : forall z, strip r z -> cder (fun u => P (fst z, u)) (snd z) (Ci * f z)%C).
  { intros z Hz. unfold P. cbn [fst snd]. eapply cder_eq.
    - apply cder_plus; [apply cder_const|]. apply cder_mult; [apply cder_const|]. apply cder_CInt.
      apply (filter_imp (fun y => Rabs y < r)); [|now apply abs_loc]. intros y Hy t Ht.
      apply between_abs with (r := r) in Ht; [|exact Hy]. destruct (Hf (fst z, t) Ht) as (_ & _ & H3 & _). exact (cont2_y _ _ H3).
    - cbv beta. rewrite pair_eta. ring. }
  exists P. split.
  - rewrite HP by (rewrite Rabs_R0; exact Hr). unfold CInt. rewrite !RInt_point. apply injective_projections; cbn; unfold zero; cbn; ring.
  - intros z Hz. destruct (Hf z Hz) as (_ & _ & H3 & _). split; [now apply Hx|]. split; [now apply Hy|]. split; [|exact H3].
    apply (cont2_partials r P f z); try assumption. now apply Hy.
Qed.
Lemma holo_zero r f : 0 < r -> (forall z, strip r z -> holo f (fun _ => RtoC 0) z) -> forall z, strip r z -> f z = f (0, 0).
Proof.
  intros Hr Hf z Hz. assert (Z0 : forall (a b : R) c I, c = RtoC 0 -> cint (fun _ => c) a b I -> I = RtoC 0).
  { intros a b c I -> H. apply cint_unique in H. rewrite <- H. unfold CInt. cbn [fst snd RtoC]. rewrite !RInt_const.
    apply injective_projections; cbn; unfold scal; cbn; unfold mult; cbn; ring. }
  assert (E1 : (f z - f (0, snd z))%C = RtoC 0).
  { apply (Z0 0 (fst z) (RtoC 0)); [reflexivity|]. assert (H := cint_ftc (fun t => f (t, snd z)) (fun _ => RtoC 0) 0 (fst z)).
    cbv beta in H. rewrite pair_eta in H. apply H. intros t _. split; [|apply ccont_const].
    exact (proj1 (Hf (t, snd z) Hz)). }
  assert (E2 : (f (0, snd z) - f (0, 0))%C = RtoC 0).
  { apply (Z0 0 (snd z) (RtoC 0)); [reflexivity|]. assert (H := cint_ftc (fun u => f (0, u)) (fun _ => RtoC 0) 0 (snd z)).
    cbv beta in H. apply H. intros t Ht. split; [|apply ccont_const].
    apply between_abs with (r := r) in Ht; [|exact Hz]. destruct (Hf (0, t) Ht) as (_ & H2 & _). eapply cder_eq; [exact H2|]. ring. }
  replace (f z) with ((f z - f (0, snd z)) + (f (0, snd z) - f (0, 0)) + f (0, 0))%C by ring. rewrite E1, E2. ring.
Qed.
Lemma log_point c : c <> RtoC 0 -> exists l, cexp l = c.
Proof.
  intro Hc. exists (ln (Cmod c), carg c). unfold cexp. cbn [fst snd]. rewrite exp_ln by now apply Cmod_gt_0.
  rewrite (carg_polar c) at 5. unfold cis, Cmult, RtoC. cbn. apply injective_projections; cbn; ring.
Qed.
Lemma logarithm r h h' h'' : 0 < r -> (forall z, strip r z -> holo h h' z) -> (forall z, strip r z -> holo h' h'' z) ->
  (forall z, strip r z -> h z <> RtoC 0) ->
  exists L, (forall z, strip r z -> holo L (fun z => h' z * / h z)%C z) /\ forall z, strip r z -> cexp (L z) = h z.
Proof.
  intros Hr Hh Hh' Hn.
  assert (Hq : exists q', forall z, strip r z -> holo (fun z => h' z * / h z)%C q' z).
  { eexists. intros z Hz. apply holo_mult; [now apply Hh'|apply holo_inv; [now apply Hh|now apply Hn]]. }
  destruct Hq as [q' Hq]. destruct (primitive r _ _ Hr Hq) as (P & P0 & HP).
  assert (Hz0 : strip r (0, 0)) by (unfold strip; cbn; rewrite Rabs_R0; exact Hr).
  destruct (log_point (h (0, 0)) (Hn _ Hz0)) as (l & El).
  exists (fun z => l + P z)%C. split.
  - intros z Hz. eapply holo_eq; [apply holo_plus; [apply holo_const|now apply HP]|]. intro w. cbv beta. ring.
  - intros z Hz.
    assert (E : (h z * cexp (- P z))%C = (h (0, 0) * cexp (- P (0, 0)))%C).
    { apply (holo_zero r (fun z => h z * cexp (- P z))%C Hr); [|exact Hz]. intros w Hw.
      assert (H : holo (fun z => h z * cexp (- P z))%C (fun z => h' z * cexp (- P z) + h z * (cexp (- P z) * - (h' z * / h z)))%C w).
      { apply holo_mult; [now apply Hh|]. apply holo_exp, holo_opp. now apply HP. }
      destruct H as (H1 & H2 & H3 & H4).
      assert (E0 : (h' w * cexp (- P w) + h w * (cexp (- P w) * - (h' w * / h w)))%C = RtoC 0).
      { field. now apply Hn. }
      cbv beta in H1, H2. rewrite E0 in H1, H2. split; [exact H1|]. split; [exact H2|]. split; [exact H3|apply cont2_const]. }
    rewrite P0 in E. replace (- RtoC 0)%C with (RtoC 0) in E by ring. rewrite cexp_0 in E.
    rewrite cexp_plus, El. replace (h (0, 0)) with (h z * cexp (- P z))%C by (rewrite E; ring).
    rewrite <- Cmult_assoc, (Cmult_comm (cexp (- P z)%C)), cexp_opp. ring.
Qed.
