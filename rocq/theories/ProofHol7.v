(** The double exponential rule on ]-1,1[: the change of variable. *)
From Coq Require Import Reals Lra Lia.
From Coquelicot Require Import Coquelicot.
From Verif Require Import CArg ModelVec SpecVec ProofVec ModelQuad SpecQuad ProofTrap SpecErr SpecDe ProofDe ProofDe2 ProofErr3 ProofErr4 ProofErr5
  ProofHol1 ProofHol2 ProofHol3 ProofHol4 ProofHol5 ProofHol6.
From Verif Require ProofErr6.
Local Open Scope R_scope.

(** ** The inverse of the change of variable *)
Definition arctanh (x : R) : R := ln ((1 + x) / (1 - x)) / 2.
Lemma arctanh_der x : -1 < x < 1 -> is_derive arctanh x (/ (1 - x * x)).
Proof.
  intro H. unfold arctanh. assert (0 < (1 + x) / (1 - x)) by (apply Rdiv_lt_0_compat; lra).
  auto_derive; [repeat split; try lra; exact H0|]. field. repeat split; nra.
Qed.
Lemma exp_arctanh x : -1 < x < 1 -> exp (arctanh x) * exp (arctanh x) = (1 + x) / (1 - x).
Proof.
  intro H. rewrite <- exp_plus. unfold arctanh. replace (_ + _) with (ln ((1 + x) / (1 - x))) by field. apply exp_ln, Rdiv_lt_0_compat; lra.
Qed.
Lemma tanh_arctanh x : -1 < x < 1 -> sinh (arctanh x) / cosh (arctanh x) = x.
Proof.
  intro H. assert (E := exp_arctanh x H). unfold sinh, cosh. rewrite exp_Ropp. set (e := exp (arctanh x)) in *.
  assert (He : 0 < e) by apply exp_pos. assert (Hp : 0 < e * e + 1) by nra.
  replace ((e - / e) / 2 / ((e + / e) / 2)) with ((e * e - 1) / (e * e + 1)) by (field; split; [lra|nra]).
  rewrite E. field. lra.
Qed.
Lemma tanh_incr x y : x < y -> sinh x / cosh x < sinh y / cosh y.
Proof.
  intro H. pose proof (ProofDe2.cosh_pos x). pose proof (ProofDe2.cosh_pos y).
  assert (E : sinh y * cosh x - cosh y * sinh x = sinh (y - x)).
  { unfold sinh, cosh. replace (- (y - x)) with (- y + x) by ring. unfold Rminus. rewrite !exp_plus, (exp_Ropp x), (exp_Ropp y).
    assert (exp x > 0) by apply exp_pos. assert (exp y > 0) by apply exp_pos. field. lra. }
  assert (0 < sinh (y - x)). { rewrite <- sinh_0. apply ProofDe2.sinh_incr. lra. }
  apply Rmult_lt_reg_r with (cosh x * cosh y); [now apply Rmult_lt_0_compat|].
  replace (sinh x / cosh x * (cosh x * cosh y)) with (cosh y * sinh x) by (field; lra).
  replace (sinh y / cosh y * (cosh x * cosh y)) with (sinh y * cosh x) by (field; lra). lra.
Qed.
Lemma de_map_incr l s t : 0 < l -> s < t -> SpecQuad.de_map l s < SpecQuad.de_map l t.
Proof. intros Hl H. apply tanh_incr. apply Rmult_lt_compat_l; [exact Hl|]. now apply ProofDe2.sinh_incr. Qed.
Definition de_inv (l x : R) : R := arcsinh (arctanh x / l).
Lemma de_map_inv l x : 0 < l -> -1 < x < 1 -> SpecQuad.de_map l (de_inv l x) = x.
Proof.
  intros Hl H. unfold SpecQuad.de_map, de_inv. rewrite sinh_arcsinh. replace (l * (arctanh x / l)) with (arctanh x) by (field; lra). now apply tanh_arctanh.
Qed.
Lemma de_inv_der l x : 0 < l -> -1 < x < 1 -> is_derive (de_inv l) x (/ (l * (1 - x * x) * cosh (de_inv l x))).
Proof.
  intros Hl H. unfold de_inv.
  assert (D : is_derive (fun x => arctanh x / l) x (/ (1 - x * x) / l)).
  { replace (/ (1 - x * x) / l) with (/ (1 - x * x) * / l + arctanh x * 0) by (unfold Rdiv; ring).
    apply (der_mult arctanh (fun _ => / l)); [now apply arctanh_der|apply @is_derive_const]. }
  assert (D2 := derivable_pt_lim_arcsinh (arctanh x / l)). apply is_derive_Reals in D2.
  assert (D3 := der_comp arcsinh (fun x => arctanh x / l) x _ _ D2 D).
  eapply der_eq; [exact D3|]. set (A := arctanh x / l) in *.
  assert (Ec : cosh (arcsinh A) = sqrt (A ^ 2 + 1)).
  { assert (S := ProofTrap.cosh_sinh_sq (arcsinh A)). rewrite sinh_arcsinh in S. pose proof (ProofDe2.cosh_pos (arcsinh A)).
    rewrite <- (sqrt_square (cosh (arcsinh A))) by lra. f_equal. lra. }
  rewrite Ec. assert (0 < sqrt (A ^ 2 + 1)) by (apply sqrt_lt_R0; nra). match goal with |- ?p = ?q => change (@eq R p q) end. field. repeat split; nra.
Qed.

(** ** The integral *)
Lemma near_left (P : R -> Prop) b : -1 < b -> (forall p, -1 < p < b -> P p) -> at_right (-1) P.
Proof.
  intros Hb H. assert (Hd : 0 < b + 1) by lra. exists (mkposreal _ Hd). intros y Hy Hl. unfold ball in Hy. cbn in Hy. unfold AbsRing_ball, abs, minus, plus, opp in Hy. cbn in Hy.
  apply Rabs_def2 in Hy. apply H. lra.
Qed.
Lemma near_right (P : R -> Prop) b : b < 1 -> (forall p, b < p < 1 -> P p) -> at_left 1 P.
Proof.
  intros Hb H. assert (Hd : 0 < 1 - b) by lra. exists (mkposreal _ Hd). intros y Hy Hl. unfold ball in Hy. cbn in Hy. unfold AbsRing_ball, abs, minus, plus, opp in Hy. cbn in Hy.
  apply Rabs_def2 in Hy. apply H. lra.
Qed.
Lemma weight_inv l a x : 0 < l -> -1 < x < 1 ->
  / (l * (1 - x * x) * cosh (de_inv l x)) * SpecDe.weight l a (de_inv l x) = Rpower (1 - x * x) (a - 1).
Proof.
  intros Hl H. unfold SpecDe.weight. assert (E := de_map_sq l (de_inv l x)). rewrite de_map_inv in E by assumption.
  set (t := de_inv l x) in *. assert (Hc := ProofDe2.cosh_pos (l * sinh t)). set (c := cosh (l * sinh t)) in *. pose proof (ProofDe2.cosh_pos t).
  rewrite E.
  assert (E2 : Rpower (/ (c * c)) (a - 1) = c * c * / Rpower c (2 * a)).
  { rewrite <- Rpower_Ropp. replace (c * c) with (Rpower c 2) at 2 by (replace 2 with (INR 2) by (cbn; ring); rewrite Rpower_pow by assumption; cbn; ring).
    rewrite <- Rpower_plus. unfold Rpower. f_equal. rewrite ln_Rinv by (now apply Rmult_lt_0_compat). rewrite ln_mult by assumption. ring. }
  rewrite E2. assert (0 < Rpower c (2 * a)) by apply exp_pos. field. repeat split; lra.
Qed.

Section Change.
Variables l r a h r2 m1 m2 : R.
Variable F : C -> C.
Variable phi : R -> C.
Hypothesis Hl : 1 <= l.
Hypothesis Hr : 0 < r < PI / 2.
Hypothesis Hs : l * sin r < PI / 2.
Hypothesis Ha : 0 < a.
Hypothesis Hh : 0 < h.
Hypothesis HF : analytic (strip r2) F.
Hypothesis Hr2 : r < r2.
Hypothesis Hm1 : forall t, Cmod (F (t, 0)) <= m1.
Hypothesis Hm2 : forall z, Rabs (snd z) <= r -> Cmod (F z) <= m2.
Hypothesis Hphi : forall t, phi (SpecQuad.de_map l t) = F (t, 0).
Let g (x : R) : C := (RtoC (Rpower (1 - x * x) (a - 1)) * phi x)%C.
Let w : R -> C := wf l a F.

Lemma inside p q x : -1 < p < 1 -> -1 < q < 1 -> between p q x -> -1 < x < 1.
Proof. unfold between, Rmin, Rmax. destruct (Rle_dec p q); lra. Qed.
Lemma change_proj (pr : C -> R) p q : (forall c z, pr (RtoC c * z)%C = c * pr z) -> (forall t, continuous (fun t => pr (w t)) t) ->
  -1 < p < 1 -> -1 < q < 1 -> is_RInt (fun x => pr (g x)) p q (RInt (fun t => pr (w t)) (de_inv l p) (de_inv l q)).
Proof using Hl Hphi.
  intros Hpr Hc Hp Hq.
  apply (is_RInt_ext (V := R_NormedModule) (fun y => scal (/ (l * (1 - y * y) * cosh (de_inv l y))) (pr (w (de_inv l y))))).
  - intros x Hx. assert (Hi : -1 < x < 1) by (apply (inside p q); try assumption; unfold between; lra).
    change (/ (l * (1 - x * x) * cosh (de_inv l x)) * pr (w (de_inv l x)) = pr (g x)).
    unfold w, wf, g. rewrite !Hpr, <- Rmult_assoc, weight_inv by (lra || assumption). f_equal.
    rewrite <- Hphi, de_map_inv by (lra || assumption). reflexivity.
  - apply (is_RInt_comp (V := R_CompleteNormedModule) (fun t => pr (w t)) (de_inv l) (fun x => / (l * (1 - x * x) * cosh (de_inv l x)))).
    + intros x _. apply Hc.
    + intros x Hx. assert (Hi : -1 < x < 1) by (now apply (inside p q)).
      assert (D := de_inv_der l x ltac:(lra) Hi). split; [exact D|].
      assert (Hn : l * (1 - x * x) * cosh (de_inv l x) <> 0).
      { pose proof (ProofDe2.cosh_pos (de_inv l x)). apply Rgt_not_eq, Rmult_lt_0_compat; [apply Rmult_lt_0_compat; nra|lra]. }
      apply (continuous_comp (fun x => l * (1 - x * x) * cosh (de_inv l x)) Rinv).
      * apply (continuous_mult (fun x => l * (1 - x * x)) (fun x => cosh (de_inv l x))).
        -- apply (ex_derive_continuous (V := R_NormedModule)). auto_derive. trivial.
        -- apply (continuous_comp (de_inv l) cosh).
           ++ apply (ex_derive_continuous (V := R_NormedModule)). eexists. exact D.
           ++ apply (ex_derive_continuous (V := R_NormedModule)). exists (sinh (de_inv l x)). apply is_derive_Reals, derivable_pt_lim_cosh.
      * apply continuous_Rinv. exact Hn.
Qed.
Lemma change p q : -1 < p < 1 -> -1 < q < 1 -> cint g p q (CInt w (de_inv l p) (de_inv l q)).
Proof using Hl Hphi Hr HF Hr2.
  intros Hp Hq. assert (Hc : forall t, ccont w t) by (intro t; apply (wf_cont l r a r2 F); assumption).
  split; cbn [fst snd CInt].
  - apply (change_proj fst); try assumption; [intros c z; cbn; ring|intro t; apply (Hc t)].
  - apply (change_proj snd); try assumption; [intros c z; cbn; ring|intro t; apply (Hc t)].
Qed.
Lemma change_int I : (forall u v, 0 <= u -> 0 <= v -> Cmod (CInt w (- u) v - I)%C <= m1 * tail_bound l a u + m1 * tail_bound l a v) -> is_int g I.
Proof using Hl Hphi Hr HF Hr2 Ha Hm1.
  intro HI.
  assert (K : forall e, 0 < e -> filter_prod (at_right (-1)) (at_left 1) (fun ab : R * R => exists y : C, cint g (fst ab) (snd ab) y /\ Cmod (y - I)%C < e)).
  { intros e He. destruct (tb_small l a m1 F ltac:(assumption) ltac:(assumption) ltac:(assumption) (e / 4) ltac:(lra)) as (T0 & HT0 & HT).
    assert (R1 := de_map_range l (- T0)). assert (R2 := de_map_range l T0).
    exists (fun p => -1 < p < SpecQuad.de_map l (- T0)) (fun q => SpecQuad.de_map l T0 < q < 1).
    - apply (near_left _ (SpecQuad.de_map l (- T0))); [lra|tauto].
    - apply (near_right _ (SpecQuad.de_map l T0)); [lra|tauto].
    - intros p q Hp Hq. cbn [fst snd].
      assert (Ep : de_inv l p <= - T0).
      { destruct (Rle_dec (de_inv l p) (- T0)) as [Q|Q]; [exact Q|]. exfalso. assert (D := de_map_incr l (- T0) (de_inv l p) ltac:(lra) ltac:(lra)).
        rewrite de_map_inv in D by lra. lra. }
      assert (Eq : T0 <= de_inv l q).
      { destruct (Rle_dec T0 (de_inv l q)) as [Q|Q]; [exact Q|]. exfalso. assert (D := de_map_incr l (de_inv l q) T0 ltac:(lra) ltac:(lra)).
        rewrite de_map_inv in D by lra. lra. }
      exists (CInt w (de_inv l p) (de_inv l q)). split; [apply change; lra|].
      assert (B := HI (- de_inv l p) (de_inv l q) ltac:(lra) ltac:(lra)). rewrite Ropp_involutive in B.
      assert (B1 := HT (- de_inv l p) ltac:(lra)). assert (B2 := HT (de_inv l q) ltac:(lra)). lra. }
  split.
  - intros P [e HP]. destruct (K e (cond_pos e)) as [Q1 Q2 HQ1 HQ2 HQ]. exists Q1 Q2; try assumption. intros p q Hp Hq.
    destruct (HQ p q Hp Hq) as (y & Hy & Hd). cbn [fst snd] in *. exists (fst y). split; [apply Hy|]. apply HP.
    change (Rabs (fst y - fst I) < e). eapply Rle_lt_trans; [|exact Hd]. apply (re_le (y - I)%C).
  - intros P [e HP]. destruct (K e (cond_pos e)) as [Q1 Q2 HQ1 HQ2 HQ]. exists Q1 Q2; try assumption. intros p q Hp Hq.
    destruct (HQ p q Hp Hq) as (y & Hy & Hd). cbn [fst snd] in *. exists (snd y). split; [apply Hy|]. apply HP.
    change (Rabs (snd y - snd I) < e). eapply Rle_lt_trans; [|exact Hd]. apply (im_le (y - I)%C).
Qed.
Lemma de_segment : exists I, is_int g I /\
  forall N, 1 <= 2 * a * l * cosh (INR N * h) -> Cmod (rule h N w - I)%C <= e_T h l N m1 a + 4 / 3 * e_Q h l r m2 a.
Proof using Hl Hr Hs Ha Hh HF Hr2 Hm1 Hm2 Hphi.
  destruct (de_line l r a h r2 m1 m2 F) as (I & H1 & H2); try assumption. exists I. split; [now apply change_int|exact H2].
Qed.
End Change.

(** ** The sums computed *)
Definition ratio (y : R -> C) (j i : nat) (x : R) : C := (cpow (RtoC x) i / cpow (y x) j)%C.
Lemma rroot_pow m c j : (1 <= m)%Z -> 0 < c -> rroot m c ^ j = Rpower c (INR j / IZR m).
Proof.
  intros Hm Hc. unfold rroot. destruct (Rlt_dec 0 c); [|lra]. rewrite <- Rpower_pow by apply exp_pos. rewrite Rpower_mult. f_equal. unfold Rdiv. ring.
Qed.
Lemma integrand_ratio m y j i x : (1 <= m)%Z -> -1 < x < 1 -> y x <> RtoC 0 ->
  SpecQuad.integrand m y j i x = (RtoC (Rpower (1 - x * x) (alpha (Z.of_nat j) m - 1)) * ratio y j i x)%C.
Proof.
  intros Hm Hx Hy. unfold SpecQuad.integrand, ratio, alpha. rewrite cpow_mul, (cpow_RtoC (rroot _ _)), rroot_pow by (try assumption; nra).
  rewrite <- INR_IZR_INZ. replace (1 - INR j / IZR m - 1) with (- (INR j / IZR m)) by ring. rewrite Rpower_Ropp.
  assert (Hp : 0 < Rpower (1 - x * x) (INR j / IZR m)) by apply exp_pos. rewrite RtoC_inv by lra.
  assert (N1 : RtoC (Rpower (1 - x * x) (INR j / IZR m)) <> RtoC 0) by (intro E; injection E; lra).
  assert (N2 := cpow_neq_0 (y x) j Hy). field. split; assumption.
Qed.
Lemma rule_de_rule l h N m y j i F : 0 < l -> (1 <= m)%Z -> (forall x, -1 < x < 1 -> y x <> RtoC 0) ->
  (forall t, ratio y j i (SpecQuad.de_map l t) = F (t, 0)) ->
  rule h N (wf l (alpha (Z.of_nat j) m) F) = de_rule l h N (SpecQuad.integrand m y j i).
Proof.
  intros Hl Hm Hy HF. unfold rule, de_rule. f_equal. apply csum_ext. intros k _. fold (node h N k). set (u := node h N k). cbv zeta.
  assert (Hx := de_map_range l u). assert (E := de_map_sq l u).
  rewrite (is_derive_unique _ _ _ (de_map_deriv l u)).
  rewrite integrand_ratio by (try apply Hy; assumption). unfold wf. rewrite <- HF.
  assert (Ew : SpecDe.weight l (alpha (Z.of_nat j) m) u =
    Rpower (1 - SpecQuad.de_map l u * SpecQuad.de_map l u) (alpha (Z.of_nat j) m - 1) * (l * cosh u / (cosh (l * sinh u) * cosh (l * sinh u)))).
  { rewrite E. unfold SpecDe.weight. assert (Hc := ProofDe2.cosh_pos (l * sinh u)). set (c := cosh (l * sinh u)) in *. set (a := alpha _ _).
    assert (E2 : Rpower (/ (c * c)) (a - 1) = c * c * / Rpower c (2 * a)).
    { rewrite <- Rpower_Ropp. replace (c * c) with (Rpower c 2) at 2 by (replace 2 with (INR 2) by (cbn; ring); rewrite Rpower_pow by assumption; cbn; ring).
      rewrite <- Rpower_plus. unfold Rpower. f_equal. rewrite ln_Rinv by (now apply Rmult_lt_0_compat). rewrite ln_mult by assumption. ring. }
    rewrite E2. assert (0 < Rpower c (2 * a)) by apply exp_pos. field. split; lra. }
  rewrite Ew, RtoC_mult. ring.
Qed.

(** the rule for the moments, when the integrand has a holomorphic continuation *)
Theorem de_moment l r h r2 m1 m2 m y j i F : 1 <= l -> 0 < r < PI / 2 -> l * sin r < PI / 2 -> (1 <= m)%Z -> 0 < alpha (Z.of_nat j) m -> 0 < h ->
  (forall x, -1 < x < 1 -> y x <> RtoC 0) ->
  analytic (strip r2) F -> r < r2 -> (forall t, ratio y j i (SpecQuad.de_map l t) = F (t, 0)) ->
  (forall t, Cmod (F (t, 0)) <= m1) -> (forall z, Rabs (snd z) <= r -> Cmod (F z) <= m2) ->
  exists I, is_int (SpecQuad.integrand m y j i) I /\
    forall N, 1 <= 2 * alpha (Z.of_nat j) m * l * cosh (INR N * h) ->
      Cmod (de_rule l h N (SpecQuad.integrand m y j i) - I)%C <= e_T h l N m1 (alpha (Z.of_nat j) m) + 4 / 3 * e_Q h l r m2 (alpha (Z.of_nat j) m).
Proof.
  intros Hl Hr Hs Hm Ha Hh Hy HF Hr2 HE H1 H2.
  destruct (de_segment l r (alpha (Z.of_nat j) m) h r2 m1 m2 F (ratio y j i) Hl Hr Hs Ha Hh HF Hr2 H1 H2 HE) as (I & HI & HN).
  exists I. split.
  - eapply ProofErr6.is_int_ext; [|exact HI]. intros t Ht. cbn beta. symmetry. apply integrand_ratio; try assumption. now apply Hy.
  - intros N Hc. rewrite <- (rule_de_rule l h N m y j i F) by (lra || assumption). now apply HN.
Qed.
