(** y^2 = 2 x^3 - 2 x: the periods over the edges of the tree, and the values returned. *)
From Coq Require Import Reals Lra Lia List Ranalysis5.
From Coquelicot Require Import Coquelicot.
From Verif Require Import CArg SpecGc ModelTree SpecTree ProofTree ProofTreeEx ModelInter ModelCurve ProofCurve ModelSymp SpecSymp ProofSymp ProofSympMain ProofSympEx ModelBasis SpecBasis
  ModelPeriod SpecPeriod ProofPeriod ProofPeriodMain ModelVec SpecVec ProofVec ModelQuad SpecQuad ModelCache SpecCache ProofCache SpecInter ModelEdge SpecEdge ProofEdge ProofAngle
  ModelTurn SpecTurn ProofTurn ModelGc ModelErr ModelDe SpecDe ModelDeq SpecErr SpecDeq ModelExtra SpecExtra ProofQuad ProofGauss ProofExtra ProofErr3 ProofErr4 ProofErr5 ProofErr6
  ProofLat9 SpecHyp ProofHyp ProofDeq3 PropErr PropHyp ModelRun SpecLead ProofLead.
Import ListNotations.
Local Open Scope R_scope.

Definition f78 : list Z := [0; -2; 0; 2]%Z.
Lemma value78 t : poly_value f78 t = (RtoC 2 * poly_at x62 t)%C.
Proof.
  unfold poly_value, f78, poly_at, x62, ZC. cbn [fold_right cprod]. destruct t as [p q].
  apply injective_projections; cbn; ring.
Qed.
Lemma roots78 : roots_of f78 x62.
Proof. split; [reflexivity|]. exact value78. Qed.

(** ** The sheets over the edges from 0 to 1 and -1 *)
Definition v78 (t : R) : R := (1 - t * t) * (3 + t) / 4.
Lemma v78_pos t : -1 < t < 1 -> 0 < v78 t.
Proof. intro H. unfold v78. assert (0 < 1 - t * t) by nra. assert (0 < (1 - t * t) * (3 + t)) by (apply Rmult_lt_0_compat; lra). lra. Qed.
Lemma value_edge e t : e * e = 1 -> poly_value f78 (edge_point (RtoC 0) (RtoC e) (RtoC t)) = RtoC (- e * v78 t).
Proof.
  intro He. unfold poly_value, f78, ZC, edge_point, v78. cbn [fold_right].
  replace ((RtoC e - RtoC 0) / RtoC 2 * RtoC t + (RtoC 0 + RtoC e) / RtoC 2)%C with (RtoC (e * ((1 + t) / 2))).
  2:{ apply injective_projections; cbn; field. }
  apply injective_projections; cbn; [|ring].
  transitivity (2 * e * (e * e) * (((1 + t) / 2) * ((1 + t) / 2) * ((1 + t) / 2)) - 2 * e * ((1 + t) / 2)); [field|]. rewrite He. field.
Qed.
Lemma sign_const (h : R -> R) : (forall t, -1 <= t <= 1 -> continuous h t) -> (forall t, -1 < t < 1 -> h t <> 0) ->
  (forall t, -1 < t < 1 -> 0 < h t) \/ (forall t, -1 < t < 1 -> h t < 0).
Proof.
  intros Hc Hn. assert (K : forall a b, -1 < a < 1 -> -1 < b < 1 -> h a < 0 -> 0 < h b -> False).
  { intros a b Ha Hb Na Pb. destruct (Rtotal_order a b) as [L|[E|L]]; [|subst; lra|].
    - destruct (IVT_interv h a b) as (z & Hz & E); [|exact L|exact Na|exact Pb|apply (Hn z); [lra|exact E]].
      intros y Hy. apply continuity_pt_filterlim. apply Hc. lra.
    - destruct (IVT_interv (fun t => - h t) b a) as (z & Hz & E); [|exact L|lra|lra|apply (Hn z); lra].
      intros y Hy. apply continuity_pt_filterlim. apply (continuous_opp (U := R_UniformSpace) (V := R_NormedModule) h), Hc. lra. }
  destruct (Rlt_le_dec 0 (h 0)) as [P|P].
  - left. intros t Ht. destruct (Rtotal_order 0 (h t)) as [L|[E|L]]; [exact L|exfalso; apply (Hn t Ht); now symmetry|exfalso; exact (K t 0 Ht ltac:(lra) L P)].
  - right. assert (h 0 <> 0) by (apply Hn; lra). intros t Ht. destruct (Rtotal_order 0 (h t)) as [L|[E|L]]; [exfalso; exact (K 0 t ltac:(lra) Ht ltac:(lra) L)|exfalso; apply (Hn t Ht); now symmetry|exact L].
Qed.
Lemma cont_scaled k (Z : R -> C) t : continuous (fun t => fst (Z t)) t -> continuous (fun t => snd (Z t)) t -> continuous (fun t => fst (k * Z t)%C) t.
Proof.
  intros C1 C2. cbn. apply (continuous_minus (U := R_UniformSpace) (V := R_NormedModule) (fun t => fst k * fst (Z t)) (fun t => snd k * snd (Z t)));
    apply (continuous_scal_r (U := R_UniformSpace) (K := R_AbsRing) (V := R_NormedModule)); assumption.
Qed.
(** k0 is 1 or i *)
Lemma square_real z v : 0 < v -> (z * z)%C = RtoC v -> snd z = 0 /\ (fst z = sqrt v \/ fst z = - sqrt v).
Proof.
  destruct z as [a b]. intros Hv E. unfold Cmult, RtoC in E. cbn [fst snd] in *. injection E as E1 E2.
  assert (Hb : b = 0).
  { assert (Hab : a * b = 0) by lra. apply Rmult_integral in Hab. destruct Hab as [->|Hb]; [exfalso; pose proof (Rle_0_sqr b) as Hq; unfold Rsqr in Hq; lra|exact Hb]. }
  subst b. split; [reflexivity|]. assert (Hs := sqrt_sqrt v ltac:(lra)).
  assert (H : (a - sqrt v) * (a + sqrt v) = 0) by (ring_simplify; nra).
  apply Rmult_integral in H. destruct H; [left|right]; lra.
Qed.
Lemma sheet_const e k0 ya yb Y : e * e = 1 -> (k0 * k0)%C = RtoC (- e) -> sheet_over 2 f78 (RtoC 0) (RtoC e) ya yb Y ->
  exists s, (s = 1 \/ s = -1) /\ forall t, -1 < t < 1 -> Y t = (k0 * RtoC (s * sqrt (v78 t)))%C.
Proof.
  intros He Hk (Z & _ & _ & Hc & H).
  assert (Hk0 : k0 <> RtoC 0) by (intros ->; rewrite Cmult_0_l in Hk; injection Hk; nra).
  assert (Hinv : forall z, z = (k0 * (/ k0 * z))%C) by (intro z; field; exact Hk0).
  assert (Hsq : forall t, -1 < t < 1 -> let w := (/ k0 * Y t)%C in (w * w)%C = RtoC (v78 t)).
  { intros t Ht w. destruct (H t ltac:(lra)) as (_ & H2). rewrite value_edge in H2 by exact He.
    assert (E : (Y t * Y t)%C = RtoC (- e * v78 t)) by (rewrite <- H2; cbn [cpow]; ring). unfold w.
    replace (/ k0 * Y t * (/ k0 * Y t))%C with (/ (k0 * k0) * (Y t * Y t))%C by (field; exact Hk0).
    rewrite E, Hk, <- RtoC_inv, <- RtoC_mult by nra. f_equal. field. nra. }
  destruct (sign_const (fun t => fst (/ k0 * Z t)%C)) as [P|P].
  - intros t Ht. destruct (Hc t Ht). now apply cont_scaled.
  - intros t Ht E. destruct (square_real _ _ (v78_pos t Ht) (Hsq t Ht)) as (S1 & S2).
    destruct (H t ltac:(lra)) as (H1 & _). rewrite H1 in S2.
    replace (/ k0 * (RtoC (rroot (Z.of_nat 2) (1 - t * t)) * Z t))%C with (RtoC (rroot (Z.of_nat 2) (1 - t * t)) * (/ k0 * Z t))%C in S2 by ring.
    pose proof (sqrt_lt_R0 _ (v78_pos t Ht)) as Hs. cbn in S2, E. rewrite E in S2. lra.
  - exists 1. split; [now left|]. intros t Ht. destruct (square_real _ _ (v78_pos t Ht) (Hsq t Ht)) as (S1 & S2).
    assert (Hs : 0 < fst (/ k0 * Y t)%C).
    { destruct (H t ltac:(lra)) as (H1 & _). rewrite H1.
      replace (/ k0 * (RtoC (rroot (Z.of_nat 2) (1 - t * t)) * Z t))%C with (RtoC (rroot (Z.of_nat 2) (1 - t * t)) * (/ k0 * Z t))%C by ring.
      assert (0 < rroot (Z.of_nat 2) (1 - t * t)) by (unfold rroot; destruct (Rlt_dec _ _); [apply exp_pos|nra]).
      specialize (P t Ht). cbn -[rroot Cinv] in P |- *. rewrite Rmult_0_l, Rminus_0_r. now apply Rmult_lt_0_compat. }
    pose proof (sqrt_lt_R0 _ (v78_pos t Ht)). rewrite (Hinv (Y t)) at 1. f_equal. apply injective_projections; cbn [fst snd RtoC]; [|exact S1]. lra.
  - exists (-1). split; [now right|]. intros t Ht. destruct (square_real _ _ (v78_pos t Ht) (Hsq t Ht)) as (S1 & S2).
    assert (Hs : fst (/ k0 * Y t)%C < 0).
    { destruct (H t ltac:(lra)) as (H1 & _). rewrite H1.
      replace (/ k0 * (RtoC (rroot (Z.of_nat 2) (1 - t * t)) * Z t))%C with (RtoC (rroot (Z.of_nat 2) (1 - t * t)) * (/ k0 * Z t))%C by ring.
      assert (0 < rroot (Z.of_nat 2) (1 - t * t)) by (unfold rroot; destruct (Rlt_dec _ _); [apply exp_pos|nra]).
      specialize (P t Ht). cbn -[rroot Cinv] in P |- *. rewrite Rmult_0_l, Rminus_0_r. apply Ropp_lt_cancel. rewrite Ropp_0, Ropp_mult_distr_r. apply Rmult_lt_0_compat; [assumption|]. lra. }
    pose proof (sqrt_lt_R0 _ (v78_pos t Ht)). rewrite (Hinv (Y t)) at 1. f_equal. apply injective_projections; cbn [fst snd RtoC]; [|exact S1]. lra.
Qed.

(** ** The integrals *)
Definition r78 (t : R) : C := RtoC (/ sqrt (v78 t)).
Lemma is_int_unique f A B : is_int f A -> is_int f B -> A = B.
Proof.
  intros [H1 H2] [K1 K2]. apply injective_projections.
  - transitivity (RInt_gen (fun t => fst (f t)) (at_right (-1)) (at_left 1)); [symmetry|]; now apply is_RInt_gen_unique.
  - transitivity (RInt_gen (fun t => snd (f t)) (at_right (-1)) (at_left 1)); [symmetry|]; now apply is_RInt_gen_unique.
Qed.
Lemma r78_real J : is_int r78 J -> snd J = 0 /\ 3 <= fst J.
Proof.
  intros [H1 H2]. split.
  - assert (Z0 := gen_scal _ 0 _ H1). transitivity (RInt_gen (fun t => snd (r78 t)) (at_right (-1)) (at_left 1)); [symmetry; now apply is_RInt_gen_unique|].
    apply is_RInt_gen_unique. eapply gen_ext; [|apply (Rmult_0_l (fst J))|exact Z0]. intro t. cbn. ring.
  - assert (Hpi : is_RInt_gen (fun t => / sqrt (1 - t * t)) (at_right (-1)) (at_left 1) PI).
    { eapply gen_ext; [| |exact (improper 0)].
      - intro t. cbn [pow]. unfold Rdiv. ring.
      - unfold F. rewrite (RInt_point 0). rewrite (RInt_ext _ (fun _ => 1)) by (intros; reflexivity). rewrite RInt_const. unfold scal, zero; cbn; unfold mult; cbn. ring. }
    assert (Hb := @RInt_gen_norm R_CompleteNormedModule (at_right (-1)) (at_left 1) _ _ (fun t => / sqrt (1 - t * t)) (fun t => fst (r78 t)) PI (fst J)).
    assert (H3 : 3 < PI) by (pose proof PI2_3_2; lra).
    enough (norm PI <= fst J) by (unfold norm in H; cbn in H; unfold abs in H; cbn in H; rewrite Rabs_pos_eq in H; lra).
    apply Hb; [| |exact Hpi|exact H1].
    + exists (fun a => -1 < a < 0) (fun b => 0 < b < 1).
      * exists (mkposreal 1 Rlt_0_1). intros y Hy Hy1. unfold ball in Hy; cbn in Hy; unfold AbsRing_ball, abs, minus, plus, opp in Hy; cbn in Hy. apply Rabs_def2 in Hy. lra.
      * exists (mkposreal 1 Rlt_0_1). intros y Hy Hy1. unfold ball in Hy; cbn in Hy; unfold AbsRing_ball, abs, minus, plus, opp in Hy; cbn in Hy. apply Rabs_def2 in Hy. lra.
      * intros a b Ha Hb'. cbn [fst snd]. lra.
    + exists (fun a => -1 < a < 0) (fun b => 0 < b < 1).
      * exists (mkposreal 1 Rlt_0_1). intros y Hy Hy1. unfold ball in Hy; cbn in Hy; unfold AbsRing_ball, abs, minus, plus, opp in Hy; cbn in Hy. apply Rabs_def2 in Hy. lra.
      * exists (mkposreal 1 Rlt_0_1). intros y Hy Hy1. unfold ball in Hy; cbn in Hy; unfold AbsRing_ball, abs, minus, plus, opp in Hy; cbn in Hy. apply Rabs_def2 in Hy. lra.
      * intros a b Ha Hb' t Ht. cbn [fst snd] in Ht. assert (Ht' : -1 < t < 1) by lra.
        pose proof (v78_pos t Ht') as Hv. pose proof (sqrt_lt_R0 _ Hv) as Hs.
        assert (H1t : 0 < 1 - t * t) by nra. pose proof (sqrt_lt_R0 _ H1t) as Hs1.
        unfold norm; cbn; unfold abs; cbn. rewrite Rabs_pos_eq by (left; now apply Rinv_0_lt_compat).
        apply Rinv_le_contravar; [exact Hs|]. apply sqrt_le_1_alt. unfold v78. nra.
Qed.
Lemma row78 e k0 ya yb w : e * e = 1 -> (k0 * k0)%C = RtoC (- e) -> curve_integrals 2 c23 f78 (RtoC 0) (RtoC e) ya yb w ->
  exists s J, (s = 1 \/ s = -1) /\ is_int r78 J /\ vget w 0 = (RtoC s * k0 * J)%C.
Proof.
  intros He Hk (Y & HY & HI). destruct (sheet_const e k0 ya yb Y He Hk HY) as (s & Hs & HE).
  assert (Hk0 : k0 <> RtoC 0) by (intros ->; rewrite Cmult_0_l in Hk; injection Hk; nra).
  assert (H2C : RtoC 2 <> RtoC 0) by (intro E; injection E; lra).
  assert (HeC : RtoC e <> RtoC 0) by (intro E; injection E; nra).
  assert (HsC : RtoC s <> RtoC 0) by (intro E; injection E; lra).
  destruct (HI 0%nat 0%nat ltac:(cbn; lia) ltac:(cbn; lia)) as (I1 & I2 & H1 & H2 & Hw). change (Z.to_nat (sec_j1 c23 + Z.of_nat 0)) with 1%nat in H1, H2. cbn [offset c23 sec_ni Nat.add] in Hw.
  unfold integral_over in H1, H2.
  assert (Hr : root (Z.of_nat 2) 1 = (- RtoC 1)%C).
  { unfold root. change (IZR (Z.of_nat 2)) with 2. replace (2 * PI * IZR 1 / 2) with PI by field. unfold cis. rewrite cos_PI, sin_PI.
    apply injective_projections; cbn; lra. }
  assert (Hss : (RtoC s * RtoC s)%C = RtoC 1) by (rewrite <- RtoC_mult; f_equal; destruct Hs; subst; ring).
  assert (A1 : is_int r78 (RtoC 2 / RtoC e * RtoC s * k0 * I1)%C).
  { eapply is_int_scaled; [|exact H1]. intros t Ht. cbn beta. rewrite cpow_1, HE by exact Ht. cbn [cpow]. unfold r78.
    pose proof (sqrt_lt_R0 _ (v78_pos t Ht)). assert (Hv : RtoC (sqrt (v78 t)) <> RtoC 0) by (intro E; injection E; lra).
    rewrite RtoC_inv by lra. rewrite RtoC_mult. field. now repeat split. }
  assert (A2 : is_int r78 (- (RtoC 2 / RtoC e * RtoC s * k0 * I2))%C).
  { replace (- (RtoC 2 / RtoC e * RtoC s * k0 * I2))%C with ((- (RtoC 2 / RtoC e * RtoC s * k0)) * I2)%C by ring.
    eapply is_int_scaled; [|exact H2]. intros t Ht. cbn beta. rewrite cpow_1, HE by exact Ht. cbn [cpow]. unfold r78. rewrite Hr.
    pose proof (sqrt_lt_R0 _ (v78_pos t Ht)). assert (Hv : RtoC (sqrt (v78 t)) <> RtoC 0) by (intro E; injection E; lra).
    rewrite RtoC_inv by lra. rewrite RtoC_mult. field. repeat split; try assumption; intro E; injection E; lra. }
  assert (E12 : (I2 = - I1)%C).
  { pose proof (is_int_unique _ _ _ A1 A2) as E.
    transitivity (- (RtoC e / (RtoC 2 * RtoC s * k0) * (- (RtoC 2 / RtoC e * RtoC s * k0 * I2))))%C; [field; now repeat split|]. rewrite <- E. field. now repeat split. }
  exists (- s), (RtoC 2 / RtoC e * RtoC s * k0 * I1)%C. split; [destruct Hs; subst; [right|left]; lra|]. split; [exact A1|].
  rewrite Hw, E12. transitivity (RtoC 2 * I1)%C; [apply injective_projections; cbn; ring|].
  transitivity (- (RtoC s * RtoC s) * (k0 * k0) * RtoC 2 / RtoC e * I1)%C; [|rewrite RtoC_opp; field; exact HeC].
  rewrite Hss, Hk, RtoC_opp. field. exact HeC.
Qed.

(** ** The first cycle of the basis *)
Lemma row0_78 nonpos neg ys inter s : tree_ydata nonpos neg x62 2 es64 = Done ys -> intersection_of_data ys es64 2 = Done inter ->
  symplectic_reduction egcd (to_rows inter) 1 = Done s ->
  exists p0 p1, nth 0 (stP s) [] = [p0; p1] /\ (Z.abs p0 <= 1)%Z /\ (Z.abs p1 <= 1)%Z /\ (Z.abs p0 + Z.abs p1 >= 1)%Z.
Proof.
  intros Ey Ei Es. destruct tree64 as (r' & mn' & Et).
  destruct (curve_reduces egcd isort param64 nonpos neg x62 2 c23 (Some 0%Z) 0 es64 r' mn' distinct62 ltac:(cbn; lia) eq_refl isort_perm egcd_ok Et)
    as (ys' & inter' & s' & H1 & H2 & H3 & HS & HA & _ & HC & _ & _ & _ & Hcan).
  change (Z.of_nat 2) with 2%Z in *. rewrite Ey in H1. injection H1 as <-. rewrite Ei in H2. injection H2 as <-.
  change (Z.to_nat (sec_g c23)) with 1%nat in *. rewrite Es in H3. injection H3 as <-.
  change (Z.to_nat (tree_edges c23) * (2 - 1))%nat with 2%nat in *.
  destruct (Hcan (or_introl eq_refl) 0%nat ltac:(lia)) as (Hc1 & _). change (get (stM s) 0 1 = 1%Z) in Hc1. rewrite (HC 0%nat 1%nat) in Hc1 by lia.
  destruct HS as (HS1 & HS2). revert Es Hc1 HS1 HS2 HA. generalize (to_rows inter). intros M Es Hc1 HS1 HS2 HA.
  destruct M as [|[|x00 [|x01 [|? ?]]] [|[|x10 [|x11 [|? ?]]] [|? ?]]]; cbn [length] in HS1; try discriminate;
    try (specialize (HS2 _ (or_introl eq_refl)); cbn in HS2; discriminate);
    try (specialize (HS2 _ (or_intror (or_introl eq_refl))); cbn in HS2; discriminate).
  assert (A00 := HA 0%nat 0%nat ltac:(lia) ltac:(lia)). assert (A01 := HA 0%nat 1%nat ltac:(lia) ltac:(lia)). assert (A11 := HA 1%nat 1%nat ltac:(lia) ltac:(lia)).
  change (x00 = - x00)%Z in A00. change (x01 = - x10)%Z in A01. change (x11 = - x11)%Z in A11.
  assert (x00 = 0)%Z by lia. assert (x11 = 0)%Z by lia. assert (x10 = - x01)%Z by lia. subst x00 x11 x10. clear A00 A01 A11 HA HS1 HS2.
  assert (E : (x01 * (get (stP s) 0 0 * get (stP s) 1 1 - get (stP s) 0 1 * get (stP s) 1 0) = 1)%Z).
  { rewrite <- Hc1. unfold zsum, get. cbn [nth]. ring. }
  apply Z.mul_eq_1 in E. destruct E as [-> | ->]; vm_compute in Es; injection Es as <-; cbn [stP nth]; do 2 eexists; (split; [reflexivity|lia]).
Qed.
Lemma sqrt2_far p n : (Z.abs p = 1)%Z -> 2 / 5 <= Rabs (sqrt 2 * IZR p - IZR n).
Proof.
  intro Hp. assert (Hs := sqrt_sqrt 2 ltac:(lra)). assert (Hs0 := sqrt_pos 2).
  assert (L : 7 / 5 <= sqrt 2) by nra. assert (U : sqrt 2 <= 3 / 2) by nra.
  assert (Hp' : (p = 1 \/ p = -1)%Z) by lia. destruct Hp' as [-> | ->].
  - destruct (Z_le_gt_dec n 1) as [H|H].
    + apply IZR_le in H. rewrite Rabs_pos_eq; lra.
    + assert (H' : (2 <= n)%Z) by lia. apply IZR_le in H'. rewrite Rabs_left1; lra.
  - destruct (Z_le_gt_dec (-1) n) as [H|H].
    + apply IZR_le in H. rewrite Rabs_left1; lra.
    + assert (H' : (n <= -2)%Z) by lia. apply IZR_le in H'. rewrite Rabs_pos_eq; lra.
Qed.

Lemma lead_wrong {Key : Type} branch_points squarefree (qsort : list (Key * nat) -> list (Key * nat)) keys rdef rturn prec :
  branch_points f78 = x62 -> squarefree f78 = true -> (forall l, Permutation (qsort l) l) -> (forall ys : list ydata, length (keys ys) = length ys) -> (4 <= prec)%Z ->
  exists omA omB,
    periods_gc branch_points squarefree isort (fun _ => param64) (fun _ => nonpos62) (fun _ _ => false) egcd (fun r => r) log2 qsort keys rdef rturn 2 f78 prec = Done (omA, omB) /\
    (exists w ya yb, curve_integrals 2 c23 f78 (RtoC 0) (RtoC (-1)) ya yb w) /\ (exists w ya yb, curve_integrals 2 c23 f78 (RtoC 0) (RtoC 1) ya yb w) /\
    forall w0 w1 ya0 yb0 ya1 yb1 n0 n1,
      curve_integrals 2 c23 f78 (RtoC 0) (RtoC (-1)) ya0 yb0 w0 -> curve_integrals 2 c23 f78 (RtoC 0) (RtoC 1) ya1 yb1 w1 ->
      Cmod (vget (nth 0 omA []) 0 - (ZC n0 * vget w0 0 + ZC n1 * vget w1 0))%C > 1 / 2.
Proof.
  intros Hbp Hsf Hq Hk Hp.
  destruct (C64_nonvacuous prec ltac:(lia)) as (Hd & Hc & Ht & Hg & Hsort & Hgcd & Hup & Hlg & (r' & mn' & Et) & (ys & np & Ey & Hpt & Hss & Hen & inter & s & Ei & Es & Hsm)).
  assert (Ly : length ys = 2%nat) by (rewrite (tree_ydata_length _ _ _ _ _ _ Ey); reflexivity).
  assert (Hs2 : (RtoC (sqrt 2) * RtoC (sqrt 2))%C = ZC (leading f78)).
  { rewrite <- RtoC_mult, sqrt_sqrt by lra. reflexivity. }
  destruct (lead_gc branch_points squarefree isort (fun _ => param64) (fun _ => nonpos62) (fun _ _ => false) egcd (fun r => r) log2 qsort keys
    rdef rturn 2 0 f78 (RtoC (sqrt 2)) c23 es64 r' mn' ys prec (fun _ => np) [np; np]) as (inter' & st & b & E1 & E2 & _ & _ & _ & _ & Lb & Hb & H).
  { rewrite Hbp. exact roots78. } { now rewrite Hbp. } { rewrite Hbp. cbn. lia. } { exact Hsf. } { exact Hc. } { exact Hs2. } { exact Hsort. } { exact Hq. } { exact Hgcd. }
  { exact Hup. } { lra. } { exact Hlg. } { lia. } { rewrite Hbp. exact Et. } { rewrite Hbp. exact Ey. } { rewrite Hk. exact Ly. }
  { rewrite Hbp. intros k Hk' u. destruct (Hpt k Hk') as (P1 & P2 & _). split; [exact P1|right; exact P2]. }
  { rewrite Hbp. intros k Hk'. destruct (Hpt k Hk') as (_ & _ & P3). exact P3. }
  { change (Z.to_nat (tree_edges c23)) with 2%nat. assert (Hl : length (map snd (qsort (combine (keys ys) (seq 0 2)))) = 2%nat).
    { rewrite map_length, (Permutation_length (Hq _)), combine_length, seq_length, Hk, Ly. reflexivity. }
    destruct (map snd _) as [|? [|? [|? ?]]]; try discriminate. exact Hss. }
  { change (Z.to_nat (tree_edges c23)) with 2%nat. assert (Hl : length (map snd (qsort (combine (keys ys) (seq 0 2)))) = 2%nat).
    { rewrite map_length, (Permutation_length (Hq _)), combine_length, seq_length, Hk, Ly. reflexivity. }
    destruct (map snd _) as [|? [|? [|? ?]]]; try discriminate. exact Hen. }
  rewrite Ei in E1. injection E1 as <-. change (Z.to_nat (sec_g c23)) with 1%nat in E2, H. rewrite Es in E2. injection E2 as <-.
  destruct (H Hsm) as (omA & omB & R1 & _ & _ & R2). exists omA, omB. split; [exact R1|].
  rewrite Hbp in Hb. change (Z.to_nat (tree_edges c23)) with 2%nat in Hb.
  assert (B0 := Hb 0%nat ltac:(lia)). assert (B1 := Hb 1%nat ltac:(lia)). cbn [es64 nth ea eb x62 vget] in B0, B1.
  split; [do 3 eexists; exact B0|]. split; [do 3 eexists; exact B1|].
  intros w0 w1 ya0 yb0 ya1 yb1 n0 n1 W0 W1. destruct (R2 0%nat 0%nat ltac:(lia) ltac:(lia)) as (RA & _).
  destruct (row0_78 _ _ _ _ _ Ey Ei Es) as (p0 & p1 & Er & A0 & A1 & A2). cbn [Nat.mul Nat.add] in RA. rewrite Er in RA.
  assert (Ci : (Ci * Ci)%C = RtoC (- (1))) by (apply injective_projections; cbn; ring).
  assert (C1 : (RtoC 1 * RtoC 1)%C = RtoC (- (-1))) by (apply injective_projections; cbn; ring).
  destruct (row78 (-1) (RtoC 1) _ _ _ ltac:(ring) C1 B0) as (s0 & J0 & S0 & I0 & V0). destruct (row78 1 Coquelicot.Complex.Ci _ _ _ ltac:(ring) Ci B1) as (s1 & J1 & S1 & I1 & V1).
  destruct (row78 (-1) (RtoC 1) _ _ _ ltac:(ring) C1 W0) as (s2 & J2 & S2 & I2 & V2). destruct (row78 1 Coquelicot.Complex.Ci _ _ _ ltac:(ring) Ci W1) as (s3 & J3 & S3 & I3 & V3).
  rewrite (is_int_unique _ _ _ I1 I0) in V1. rewrite (is_int_unique _ _ _ I2 I0) in V2. rewrite (is_int_unique _ _ _ I3 I0) in V3.
  destruct (r78_real _ I0) as (J4 & J5). destruct J0 as (J, J'). cbn [fst snd] in J4, J5. subst J'. clear I0 I1 I2 I3.
  unfold cycle_period in RA. cbn [length csum nth] in RA. change (nth 0 b []) with (nth 0 b (@nil C)) in RA. change (nth 1 b []) with (nth 1 b (@nil C)) in RA. rewrite V0, V1 in RA. rewrite V2, V3.
  set (om := vget (nth 0 omA []) 0) in *.
  assert (Hbound : cycle_norm [p0; p1] * (4 * INR 1 * two_to (0 - IZR prec)) <= 1 / 2).
  { unfold cycle_norm. cbn [fold_right INR]. rewrite <- !abs_IZR. apply IZR_le in A0, A1.
    assert (T : two_to (0 - IZR prec) <= 1 / 16).
    { unfold two_to. apply (Rle_trans _ (Rpower 2 (-4))); [apply Rle_Rpower; [lra|]; apply IZR_le in Hp; lra|].
      replace (-4) with (- (INR 4)) by (cbn; ring). rewrite Rpower_Ropp, Rpower_pow by lra. lra. }
    assert (0 < two_to (0 - IZR prec)) by apply exp_pos. assert (0 <= IZR (Z.abs p0) + (IZR (Z.abs p1) + 0)) by (rewrite !abs_IZR; pose proof (Rabs_pos (IZR p0)); pose proof (Rabs_pos (IZR p1)); lra).
    nra. }
  assert (RA' := Rle_trans _ _ _ RA Hbound). clear RA Hbound.
  assert (Hfar : 6 / 5 <= Cmod (RtoC (sqrt 2) * (RtoC 0 + ZC p0 * (RtoC s0 * RtoC 1 * (J, 0%R)) + ZC p1 * (RtoC s1 * Coquelicot.Complex.Ci * (J, 0%R))) - (ZC n0 * (RtoC s2 * RtoC 1 * (J, 0%R)) + ZC n1 * (RtoC s3 * Coquelicot.Complex.Ci * (J, 0%R))))%C).
  { set (z := (_ - _)%C). assert (Hf : fst z = s0 * (sqrt 2 * IZR p0 - (s0 * s2) * IZR n0) * J).
    { unfold z. cbn. destruct S0; subst s0; ring. }
    assert (Hs : snd z = s1 * (sqrt 2 * IZR p1 - (s1 * s3) * IZR n1) * J).
    { unfold z. cbn. destruct S1; subst s1; ring. }
    assert (Hz : forall a n p ss, (a = 1 \/ a = -1) -> (ss = 1 \/ ss = -1) -> (Z.abs p = 1)%Z -> 6 / 5 <= Rabs (a * (sqrt 2 * IZR p - (a * ss) * IZR n) * J)).
    { intros a n p ss Ha Hss' Hpp. rewrite !Rabs_mult. replace (Rabs a) with 1 by (destruct Ha; subst; [rewrite Rabs_pos_eq; lra|rewrite Rabs_left1; lra]).
      rewrite (Rabs_pos_eq J) by lra. rewrite Rmult_1_l.
      assert (Hfar : 2 / 5 <= Rabs (sqrt 2 * IZR p - a * ss * IZR n)).
      { destruct Ha as [-> | ->], Hss' as [-> | ->].
        - replace (1 * 1 * IZR n) with (IZR n) by ring. now apply sqrt2_far.
        - replace (1 * -1 * IZR n) with (IZR (- n)) by (rewrite opp_IZR; ring). now apply sqrt2_far.
        - replace (-1 * 1 * IZR n) with (IZR (- n)) by (rewrite opp_IZR; ring). now apply sqrt2_far.
        - replace (-1 * -1 * IZR n) with (IZR n) by ring. now apply sqrt2_far. }
      apply (Rle_trans _ (2 / 5 * 3)); [lra|]. apply Rmult_le_compat; lra. }
    assert (Hcase : (Z.abs p0 = 1 \/ Z.abs p1 = 1)%Z) by lia. destruct Hcase as [Hcase|Hcase].
    - apply (Rle_trans _ (Rabs (fst z))); [rewrite Hf; now apply Hz|]. eapply Rle_trans; [apply Rmax_l|apply Rmax_Cmod].
    - apply (Rle_trans _ (Rabs (snd z))); [rewrite Hs; now apply Hz|]. eapply Rle_trans; [apply Rmax_r|apply Rmax_Cmod]. }
  match type of RA' with Cmod (om - ?p)%C <= _ => set (P := p) in * end. set (Q := (ZC n0 * _ + _)%C) in *.
  assert (Htri : Cmod (P - Q)%C <= Cmod (om - P)%C + Cmod (om - Q)%C).
  { replace (P - Q)%C with (- (om - P) + (om - Q))%C by ring. eapply Rle_trans; [apply Cmod_triangle|]. rewrite Cmod_opp. lra. }
  lra.
Qed.
