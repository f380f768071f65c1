(** The leading coefficient of the polynomial: the curve y^m = f(x) and the monic one. *)
From Coq Require Import Reals Lra Lia List Sorting.Sorted.
From Coquelicot Require Import Coquelicot.
From Verif Require Import CArg SpecGc ModelTree SpecTree ProofTree ProofTreeEx ModelInter ModelCurve ProofCurve ModelSymp SpecSymp ProofSymp ProofSympMain ModelBasis SpecBasis
  ModelPeriod SpecPeriod ProofPeriod ProofPeriodMain ModelVec SpecVec ProofVec ModelQuad SpecQuad ModelCache SpecCache ProofCache SpecInter ModelEdge SpecEdge ProofEdge ProofAngle
  ModelTurn SpecTurn ProofTurn ModelGc ModelErr ModelDe SpecDe ModelDeq SpecErr SpecDeq ModelExtra SpecExtra ProofQuad ProofExtra ProofErr3 ProofErr4 ProofErr5 ProofErr6
  ProofLat9 SpecHyp ProofHyp SpecFree ProofDeq ProofDeq3 ModelRun SpecLead.
Import ListNotations.
Local Open Scope R_scope.

Lemma degree_leading f : (0 <= degree f)%Z -> leading f <> 0%Z.
Proof.
  unfold leading. induction f as [|a f IH]; cbn [degree]; [lia|].
  destruct (degree f <? 0)%Z eqn:E.
  - destruct (a =? 0)%Z eqn:Ea; [lia|]. intros _. cbn. now apply Z.eqb_neq.
  - intros _. apply Z.ltb_ge in E. replace (Z.to_nat (degree f + 1)) with (S (Z.to_nat (degree f))) by lia. cbn [nth]. now apply IH.
Qed.
Lemma lead_nonzero f m s : (0 <= degree f)%Z -> (0 < m)%nat -> cpow s m = ZC (leading f) -> s <> RtoC 0.
Proof.
  intros Hd Hm E ->. apply (degree_leading f Hd).
  assert (H : cpow (RtoC 0) m = RtoC 0) by (destruct m; [lia|]; cbn [cpow]; ring).
  rewrite H in E. unfold ZC in E. injection E. intro H0. symmetry in H0. now apply eq_IZR in H0.
Qed.
Lemma is_int_scaled f g k I : (forall t, -1 < t < 1 -> g t = (k * f t)%C) -> is_int f I -> is_int g (k * I)%C.
Proof. intros H Hf. apply (is_int_ext (fun t => k * f t)%C); [intros; symmetry; now apply H|]. now apply is_int_scal. Qed.

Lemma Cinv_0 : (/ RtoC 0)%C = RtoC 0.
Proof. unfold Cinv, RtoC. cbn [fst snd]. apply injective_projections; cbn [fst snd]; unfold Rdiv; ring. Qed.
Lemma Cinv_prod a b : (/ (a * b))%C = (/ a * / b)%C.
Proof.
  destruct (Ceq_dec a (RtoC 0)) as [->|Ha]; [rewrite Cmult_0_l, Cinv_0; ring|].
  destruct (Ceq_dec b (RtoC 0)) as [->|Hb]; [rewrite Cmult_0_r, Cinv_0; ring|]. field. now split.
Qed.
(** multiplying the sheet by a constant *)
Lemma integral_scaled a b Y j i I s :
  integral_over a b Y j i I -> integral_over a b (fun t => s * Y t)%C j i (I / cpow s j)%C.
Proof.
  intros H. unfold integral_over in *. replace (I / cpow s j)%C with (/ cpow s j * I)%C by (unfold Cdiv; ring).
  eapply is_int_scaled; [|exact H]. intros t Ht. cbn beta. rewrite cpow_mul. unfold Cdiv. rewrite Cinv_prod. ring.
Qed.
Section Scale.
Context (m : nat) (f : list Z) (x : list C) (s : C).
Hypothesis (Hx : roots_of f x) (Hs : cpow s m = ZC (leading f)) (Hs0 : s <> RtoC 0).

Lemma sheet_scaled a b ya yb Y : branch_over m x a b ya yb Y -> sheet_over m f a b (s * ya)%C (s * yb)%C (fun t => s * Y t)%C.
Proof using Hx Hs.
  intros (Z & E1 & E2 & Hc & H). exists (fun t => s * Z t)%C. rewrite E1, E2. split; [reflexivity|]. split; [reflexivity|]. split.
  - intros t Ht. destruct (Hc t Ht) as (C1 & C2). cbn. split.
    + apply (continuous_minus (U := R_UniformSpace) (V := R_NormedModule) (fun t => fst s * fst (Z t)) (fun t => snd s * snd (Z t)));
        apply (continuous_scal_r (U := R_UniformSpace) (K := R_AbsRing) (V := R_NormedModule)); assumption.
    + apply (continuous_plus (U := R_UniformSpace) (V := R_NormedModule) (fun t => fst s * snd (Z t)) (fun t => snd s * fst (Z t)));
        apply (continuous_scal_r (U := R_UniformSpace) (K := R_AbsRing) (V := R_NormedModule)); assumption.
  - intros t Ht. destruct (H t Ht) as (H1 & H2). split.
    + rewrite H1. ring.
    + rewrite cpow_mul, H2, Hs. symmetry. apply (proj2 Hx).
Qed.

(** the integrals on y^m = f(x) are those on the monic curve divided by s^j *)
Lemma curve_scaled c a b ya yb w :
  cycle_integrals m c x a b ya yb w ->
  exists w', curve_integrals m c f a b (s * ya)%C (s * yb)%C w' /\
    forall q i, (q < length (sec_ni c))%nat -> (Z.of_nat i < nth q (sec_ni c) 0)%Z ->
      let pos := (offset (sec_ni c) q + i)%nat in
      vget w pos = (cpow s (Z.to_nat (sec_j1 c + Z.of_nat q)) * vget w' pos)%C.
Proof using Hx Hs Hs0.
  intros (Y & HY & HI).
  destruct (blocks_choice (sec_ni c) (fun q i I' => let j := Z.to_nat (sec_j1 c + Z.of_nat q) in
    exists I1 I2, integral_over a b Y j i I1 /\ integral_over a b (fun t => root (Z.of_nat m) 1 * Y t)%C j i I2 /\
      vget w (offset (sec_ni c) q + i) = (I1 - I2)%C /\ I' = ((I1 - I2) / cpow s j)%C)) as (w' & _ & Hw).
  { intros q i (Hq & Hi). destruct (HI q i Hq Hi) as (I1 & I2 & H1 & H2 & H3).
    eexists. exists I1, I2. split; [exact H1|]. split; [exact H2|]. split; [exact H3|reflexivity]. }
  exists w'. split.
  - exists (fun t => s * Y t)%C. split; [now apply sheet_scaled|].
    intros q i Hq Hi j. destruct (Hw q i (conj Hq Hi)) as (I1 & I2 & H1 & H2 & _ & ->). fold j in H1, H2 |- *.
    exists (I1 / cpow s j)%C, (I2 / cpow s j)%C. split; [now apply integral_scaled|]. split.
    + unfold integral_over. apply (is_int_ext (fun t => (b - a) / RtoC 2 * (cpow (edge_point a b (RtoC t)) i / cpow (s * (root (Z.of_nat m) 1 * Y t)) j))%C).
      * intros t Ht. replace (root (Z.of_nat m) 1 * (s * Y t))%C with (s * (root (Z.of_nat m) 1 * Y t))%C by ring. reflexivity.
      * apply (integral_scaled a b (fun t => root (Z.of_nat m) 1 * Y t)%C j i I2 s). exact H2.
    + unfold Cdiv. ring.
  - intros q i Hq Hi pos. destruct (Hw q i (conj Hq Hi)) as (I1 & I2 & _ & _ & E & E'). fold pos in E, E'. rewrite E, E'.
    field. apply cpow_neq_0, Hs0.
Qed.
End Scale.

Lemma row_period_scaled c (b b' : cmat) row j pos k :
  (forall p, (p < length row)%nat -> vget (nth (Z.to_nat (Z.of_nat p / (sec_m c - 1))) b []) pos = (k * vget (nth (Z.to_nat (Z.of_nat p / (sec_m c - 1))) b' []) pos)%C) ->
  row_period c b row j pos = (k * row_period c b' row j pos)%C.
Proof.
  intro H. unfold row_period. rewrite <- csum_scal. apply csum_ext. intros p Hp. cbv beta. rewrite H by exact Hp. ring.
Qed.

(** a square root is a second root *)
Lemma edge_cycle c x a b ya yb w : sec_j1 c = 1%Z -> sec_ni c = [sec_g c] ->
  edge_integrals x a b ya yb (sec_g c) w -> cycle_integrals 2 c x a b ya yb w.
Proof.
  intros Ej Eni (Y & HY & HI). exists Y. split.
  - destruct HY as (Z & E1 & E2 & Hc & H). exists Z. split; [exact E1|]. split; [exact E2|]. split; [exact Hc|].
    intros t Ht. destruct (H t Ht) as (H1 & H2). split.
    + rewrite H1. do 2 f_equal. assert (Hp : 0 <= 1 - t * t) by nra.
      pose proof (CArg.rroot_pow 2 (1 - t * t) ltac:(lia) Hp) as Hr. change (Z.of_nat 2) with 2%Z in Hr |- *.
      assert (H0 : 0 <= rroot 2 (1 - t * t)) by (unfold rroot; destruct (Rlt_dec _ _); [left; apply exp_pos|lra]).
      apply sqrt_lem_1; [lra|exact H0|]. cbn [pow] in Hr. rewrite Rmult_1_r in Hr. exact Hr.
    + cbn [cpow]. rewrite <- H2. ring.
  - rewrite Eni, Ej. intros q i Hq Hi j. cbn [length] in Hq. assert (q = 0%nat) by lia. subst q. subst j. cbn [nth] in Hi.
    change (Z.to_nat (1 + Z.of_nat 0)) with 1%nat. destruct (HI i Hi) as (I & H1 & H2). exists I, (- I)%C. cbn [offset]. split; [|split].
    + eapply is_int_ext; [|exact H1]. intros t Ht. cbn beta. rewrite cpow_1. reflexivity.
    + replace (- I)%C with ((- RtoC 1) * I)%C by ring. eapply is_int_scaled; [|exact H1]. intros t Ht. cbn beta. rewrite cpow_1.
      assert (Hr : root (Z.of_nat 2) 1 = (- RtoC 1)%C).
      { unfold root. change (IZR (Z.of_nat 2)) with 2. replace (2 * PI * IZR 1 / 2) with PI by field. unfold cis. rewrite cos_PI, sin_PI.
        apply injective_projections; cbn; lra. }
      rewrite Hr. unfold Cdiv. rewrite Cinv_prod. replace (/ - RtoC 1)%C with (- RtoC 1)%C by (field; intro E; injection E; lra). ring.
    + rewrite Nat.add_0_l. unfold vget. rewrite H2. apply injective_projections; cbn; ring.
Qed.

Lemma genus_pos m n c : sec_init m n = Done c -> (3 <= n)%Z -> (1 <= sec_g c)%Z.
Proof.
  intros Hc Hn. destruct (genus_exact_final _ _ c Hc ltac:(lia)) as (Hg & _). destruct (sec_init_inv _ _ c Hc ltac:(lia)) as (H2 & _).
  assert (Hd := Z.divide_pos_le _ m ltac:(lia) (Z.gcd_divide_l m n)).
  assert (Hp : (2 * (m - 1) <= (m - 1) * (n - 1))%Z).
  { rewrite (Z.mul_comm 2). apply Z.mul_le_mono_nonneg_l; lia. }
  lia.
Qed.

Lemma root_lead m f s c n : degree f = Z.of_nat n -> (3 <= n)%nat -> sec_init (Z.of_nat m) (degree f) = Done c -> cpow s m = ZC (leading f) -> s <> RtoC 0.
Proof.
  intros Hx Hn Hc Hs. apply (lead_nonzero f m s); [lia| |exact Hs].
  destruct (sec_init_inv _ _ c Hc ltac:(lia)) as (H & _). lia.
Qed.
Section Run.
Context (branch_points : list Z -> list C) (squarefree : list Z -> bool)
  (sort : list edge -> list edge) (param : list C -> nat -> nat -> nat -> dbl) (nonpos neg : edge -> C -> bool)
  (xgcd : Z -> Z -> Z * Z * Z) (up lg : R -> R).
Context (m : nat) (f : list Z) (s : C) (c : sec) (es : list edge) (r' : dbl) (mn' : nat).
Let x := branch_points f.
Let t := Z.to_nat (tree_edges c).
Let g := Z.to_nat (sec_g c).
Hypothesis (Hx : roots_of f x) (Hdi : distinct x) (Hn : (3 <= length x)%nat) (Hsq : squarefree f = true)
  (Hc : sec_init (Z.of_nat m) (degree f) = Done c) (Hs : cpow s m = ZC (leading f)) (Hgcd : xgcd_ok xgcd)
  (Et : spanning_tree sort (param x) (length x) t (Some 0%Z) 0 = Done (es, r', mn')).

Lemma sec_x : sec_init (Z.of_nat m) (Z.of_nat (length x)) = Done c.
Proof using Hx Hc. rewrite <- (proj1 Hx). exact Hc. Qed.
Lemma aj_ok : aj_init (Z.of_nat m) f (squarefree f) = Done (c, tree_edges c).
Proof using Hx Hc Hn Hsq.
  unfold aj_init, sec_init_poly. rewrite Hc. cbn [bind]. rewrite Hsq. cbn [negb].
  pose proof (genus_pos _ _ c sec_x (proj1 (Nat2Z.inj_le 3 _) Hn)) as Hg.
  destruct (sec_g c <? 1)%Z eqn:E; [|reflexivity]. apply Z.ltb_lt in E. exfalso. apply (Z.lt_irrefl 1). eapply Z.le_lt_trans; eassumption.
Qed.
Lemma homology_done ys inter loops : tree_ydata nonpos neg x (Z.of_nat m) es = Done ys -> intersection_of_data ys es (Z.of_nat m) = Done inter ->
  symplectic_basis xgcd (to_rows inter) g (Z.of_nat m) = Done loops ->
  homology branch_points squarefree sort param nonpos neg xgcd (Z.of_nat m) f = Done (c, x, es, ys, loops).
Proof using Hx Hc Hn Hsq Et.
  intros E1 E2 E3. unfold homology. rewrite aj_ok. cbn [bind]. fold x t. rewrite Et. cbn [bind]. rewrite E1. cbn [bind]. rewrite E2. cbn [bind].
  fold g. rewrite E3. reflexivity.
Qed.

(** the rows of integrals on y^m = f(x), from those on the monic curve *)
Lemma rows_scaled (b : cmat) ys : (forall k, (k < t)%nat -> let ye := nth k ys no_ydata in
    cycle_integrals m c x (vget x (ea (nth k es no_edge))) (vget x (eb (nth k es no_edge))) (y_ya ye) (y_yb ye) (nth k b [])) ->
  exists b' : cmat, length b' = t /\ forall k, (k < t)%nat -> let ye := nth k ys no_ydata in
    curve_integrals m c f (vget x (ea (nth k es no_edge))) (vget x (eb (nth k es no_edge))) (s * y_ya ye)%C (s * y_yb ye)%C (nth k b' []) /\
    forall q i, (q < length (sec_ni c))%nat -> (Z.of_nat i < nth q (sec_ni c) 0)%Z ->
      let pos := (offset (sec_ni c) q + i)%nat in
      vget (nth k b []) pos = (cpow s (Z.to_nat (sec_j1 c + Z.of_nat q)) * vget (nth k b' []) pos)%C.
Proof using Hx Hs Hn Hc.
  intro H. apply (rows_choice t (fun k w' => let ye := nth k ys no_ydata in
    curve_integrals m c f (vget x (ea (nth k es no_edge))) (vget x (eb (nth k es no_edge))) (s * y_ya ye)%C (s * y_yb ye)%C w' /\
    forall q i, (q < length (sec_ni c))%nat -> (Z.of_nat i < nth q (sec_ni c) 0)%Z ->
      let pos := (offset (sec_ni c) q + i)%nat in
      vget (nth k b []) pos = (cpow s (Z.to_nat (sec_j1 c + Z.of_nat q)) * vget w' pos)%C)).
  intros k Hk. exact (curve_scaled m f x s Hx Hs (root_lead m f s c _ (proj1 Hx) Hn Hc Hs) c _ _ _ _ (nth k b []) (H k Hk)).
Qed.

Lemma lead_de (qsort : list (R * nat) -> list (R * nat)) :
  qsort_ok sort -> tells_apart x (param x) -> (forall l, Permutation (qsort l) l /\ StronglySorted Rle (map fst (qsort l))) ->
  let gens := (t * (m - 1))%nat in
  exists ys inter st b K, tree_ydata nonpos neg x (Z.of_nat m) es = Done ys /\
    intersection_of_data ys es (Z.of_nat m) = Done inter /\ symplectic_reduction xgcd (to_rows inter) g = Done st /\
    SpecSymp.square gens (stP st) /\ unimodular gens (stP st) /\ congruent gens (stP st) (to_rows inter) (stM st) /\
    (Z.gcd (Z.of_nat m) (degree f) = 1%Z \/ Z.gcd (Z.of_nat m) (degree f) = Z.of_nat m -> canonical gens g (stM st)) /\
    0 <= K /\ length b = t /\
    (forall k, (k < t)%nat -> let ye := nth k ys no_ydata in
      curve_integrals m c f (vget x (ea (nth k es no_edge))) (vget x (eb (nth k es no_edge))) (s * y_ya ye)%C (s * y_yb ye)%C (nth k b [])) /\
    forall rdef rprod rturn same prec, let p := intprec up lg prec x es c in (0 <= p)%Z ->
      (forall ye, In ye ys -> safe_roots rdef rprod rturn p (y_u ye) (y_n1 ye)) -> rows_small (2 * g) (stP st) ->
      exists omA omB,
        periods_de branch_points squarefree sort param nonpos neg xgcd up lg qsort (map (fun ye => edge_key (y_u ye)))
          rdef rprod rturn same (Z.of_nat m) f prec = Done (omA, omB) /\ length omA = g /\ length omB = g /\
        forall k q i, (k < g)%nat -> (q < length (sec_ni c))%nat -> (Z.of_nat i < nth q (sec_ni c) 0)%Z ->
          let j := (sec_j1 c + Z.of_nat q)%Z in let pos := (offset (sec_ni c) q + i)%nat in
          Cmod (vget (nth pos omA []) k - cpow s (Z.to_nat j) * row_period c b (nth (2 * k) (stP st) []) j pos)%C
            <= cycle_norm (nth (2 * k) (stP st) []) * (K * de_rate (Z.of_nat m) j p) /\
          Cmod (vget (nth pos omB []) k - cpow s (Z.to_nat j) * row_period c b (nth (2 * k + 1) (stP st) []) j pos)%C
            <= cycle_norm (nth (2 * k + 1) (stP st) []) * (K * de_rate (Z.of_nat m) j p).
Proof using All.
  intros Hsort Ht Hq gens.
  destruct (super_periods xgcd sort (param x) nonpos neg x m c (Some 0%Z) 0 es r' mn' qsort Hdi Hn sec_x Hsort Ht Hq Hgcd Et)
    as (ys & inter & st & b & K & E1 & Ly & E2 & E3 & HP & HU & HC & Hcan & HK & Lb & Hb & _ & H). fold t g in Ly, E3, HP, HU, HC, Hcan, Lb, Hb, H. fold gens in HP, HU, HC, Hcan.
  destruct (rows_scaled b ys Hb) as (b' & Lb' & Hb').
  destruct (curve_counts m (length x) c sec_x ltac:(lia)) as (Hm & Htn & _ & Hr & Hg1). fold t g in Htn, Hr, Hg1.
  destruct (tree_final sort (param x) (length x) t (Some 0%Z) 0 (fun l => proj1 (Hsort l)) Htn) as (l0 & r1 & mn1 & Et' & Hlen & _).
  assert (Ele : length es = t) by (rewrite Et in Et'; injection Et' as <- _ _; exact Hlen).
  exists ys, inter, st, b', K. split; [exact E1|]. split; [exact E2|]. split; [exact E3|]. split; [exact HP|]. split; [exact HU|]. split; [exact HC|].
  split; [rewrite (proj1 Hx); exact Hcan|]. split; [exact HK|]. split; [exact Lb'|]. split; [intros k Hk ye; apply (Hb' k Hk)|].
  intros rdef rprod rturn same prec p Hp Hsafe Hsm.
  destruct (H rdef rprod rturn same p (repeat [] (length es)) Hp ltac:(rewrite repeat_length; exact Ele) Hsafe) as (a & Ea & Hsm').
  destruct (Hsm' Hsm) as (loops & omA & omB & P1 & P2 & P3 & P4 & P5 & P6).
  exists omA, omB. split; [|split; [exact P3|]; split; [exact P5|]].
  - unfold periods_de. rewrite (homology_done ys inter loops E1 E2 P1). cbn [bind]. fold p. rewrite Ea. cbn [bind]. rewrite P2. cbn [bind]. rewrite P4. reflexivity.
  - intros k q i Hk Hq' Hi j pos. destruct (P6 k q i Hk Hq' Hi) as (PA & PB). fold j pos in PA, PB.
    destruct (sec_init_fields _ _ c Hc) as (Em & _).
    assert (Hrow : forall l, (l < 2 * g)%nat -> row_period c b (nth l (stP st) []) j pos = (cpow s (Z.to_nat j) * row_period c b' (nth l (stP st) []) j pos)%C).
    { intros l Hl. apply row_period_scaled. intros p' Hp'.
      assert (El : length (nth l (stP st) []) = gens) by (destruct HP as (HP1 & HP2); apply HP2, nth_In; lia).
      apply (Hb' (Z.to_nat (Z.of_nat p' / (sec_m c - 1)))); [|exact Hq'|exact Hi].
      rewrite Em. apply Nat2Z.inj_lt. rewrite Z2Nat.id by (apply Z.div_pos; lia). apply Z.div_lt_upper_bound; [lia|].
      unfold gens in El. replace (Z.of_nat m - 1)%Z with (Z.of_nat (m - 1)) by lia. rewrite <- Nat2Z.inj_mul. lia. }
    rewrite <- !Hrow by lia. split; [exact PA|exact PB].
Qed.
End Run.

Lemma edge_rows_done c : forall ys (rows : list (vec * option R)) (a : cmat), length rows = length ys -> length a = length ys ->
  (forall k, (k < length ys)%nat -> edge_result_gc c (nth k ys no_ydata) (fst (nth k rows ([], None))) = Done (nth k a [])) ->
  edge_rows_gc c ys rows = Done a.
Proof.
  induction ys as [|y ys IH]; intros [|r rows] [|v a] L1 L2 H; try discriminate; [reflexivity|].
  cbn [edge_rows_gc]. assert (H0 := H 0%nat ltac:(cbn; lia)). cbn [nth] in H0. rewrite H0. cbn [bind].
  rewrite (IH rows a); [reflexivity|now injection L1|now injection L2|]. intros k Hk. apply (H (S k)). cbn. lia.
Qed.

Lemma lead_gc {Key : Type} branch_points squarefree sort param nonpos neg xgcd up lg (qsort : list (Key * nat) -> list (Key * nat)) keys
  rdef rturn fuel d f s c es r' mn' ys prec (np : nat -> Z) ss :
  let x := branch_points f in let t := Z.to_nat (tree_edges c) in let g := Z.to_nat (sec_g c) in
  roots_of f x -> distinct x -> (3 <= length x)%nat -> squarefree f = true -> sec_init 2 (degree f) = Done c -> (s * s)%C = ZC (leading f) ->
  (forall l, Permutation l (sort l)) -> (forall l, Permutation (qsort l) l) -> xgcd_ok xgcd ->
  rounds_up up -> 0 <= d -> log2_within lg d -> (2 <= fuel)%nat ->
  spanning_tree sort (param x) (length x) t (Some 0%Z) 0 = Done (es, r', mn') -> tree_ydata nonpos neg x 2 es = Done ys ->
  length (keys ys) = t -> let p := intprec up lg prec x es c in
  (forall k, (k < t)%nat -> let u := y_u (nth k ys no_ydata) in
    within_reach g p u /\
    (rdef = true \/ forall t, -1 < t < 1 -> ~ negative_real (SpecTurn.cprod (factors u (y_n1 (nth k ys no_ydata)) (length u) t)))) ->
  (forall k, (k < t)%nat -> exists e r, gc_params fuel (y_u (nth k ys no_ydata)) g p = Done (np k, e, r)) ->
  let order := map snd (qsort (combine (keys ys) (seq 0 t))) in
  gc_schemes c 0 (map np order) = Done ss -> Forall2 (fun s n => (n <= s)%Z) ss (map np order) ->
  exists inter st b, intersection_of_data ys es 2 = Done inter /\ symplectic_reduction xgcd (to_rows inter) g = Done st /\
    SpecSymp.square t (stP st) /\ unimodular t (stP st) /\ congruent t (stP st) (to_rows inter) (stM st) /\ canonical t g (stM st) /\ length b = t /\
    (forall k, (k < t)%nat -> let ye := nth k ys no_ydata in
      curve_integrals 2 c f (vget x (ea (nth k es no_edge))) (vget x (eb (nth k es no_edge))) (s * y_ya ye)%C (s * y_yb ye)%C (nth k b [])) /\
    (rows_small (2 * g) (stP st) -> exists omA omB,
      periods_gc branch_points squarefree sort param nonpos neg xgcd up lg qsort keys rdef rturn fuel f prec = Done (omA, omB) /\
      length omA = g /\ length omB = g /\
      forall i k, (i < g)%nat -> (k < g)%nat ->
        Cmod (vget (nth i omA []) k - s * cycle_period b (nth (2 * k) (stP st) []) i)%C
          <= cycle_norm (nth (2 * k) (stP st) []) * (4 * INR (S i) * two_to (d - IZR prec)) /\
        Cmod (vget (nth i omB []) k - s * cycle_period b (nth (2 * k + 1) (stP st) []) i)%C
          <= cycle_norm (nth (2 * k + 1) (stP st) []) * (4 * INR (S i) * two_to (d - IZR prec))).
Proof.
  intros x t g Hx Hdi Hn Hsq Hc Hs Hsort Hq Hgcd Hup Hd Hlg Hf Et Ey Hkeys p Hpt Hnp order Hss Hen.
  assert (Hcx : sec_init 2 (Z.of_nat (length x)) = Done c) by (rewrite <- (proj1 Hx); exact Hc).
  assert (Hs2 : cpow s 2 = ZC (leading f)) by (rewrite <- Hs; cbn [cpow]; ring).
  destruct (curve_counts 2 (length x) c Hcx ltac:(lia)) as (Hm & Htn & _ & Hr & Hg1). fold t g in Htn, Hr, Hg1.
  destruct (tree_final sort (param x) (length x) t (Some 0%Z) 0 Hsort Htn) as (l0 & r1 & mn1 & Et' & Hlen & _).
  assert (Ele : length es = t) by (rewrite Et in Et'; injection Et' as <- _ _; exact Hlen).
  assert (Ely := tree_ydata_length _ _ _ _ _ _ Ey).
  destruct (hyper_periods xgcd sort (param x) nonpos neg x c (Some 0%Z) 0 es r' mn' ys qsort (keys ys) (repeat ([], Some 0) (length es))
    rdef rturn fuel up lg d prec np ss Hdi Hn Hcx Hsort Hq Hgcd Hup Hd Hlg Hf Et Ey Hkeys ltac:(rewrite repeat_length; exact Ele) Hpt Hnp Hss Hen)
    as (inter & st & rows & a & b & E1 & E2 & HP & HU & HC & Hcan & Em & La & Lb & Hk & _ & H). fold t g p in E2, HP, HU, HC, Hcan, Em, La, Lb, Hk, H.
  destruct (hyper_shape _ c Hcx ltac:(lia)) as (Hg & _ & Ej & Eni).
  destruct (rows_scaled branch_points 2 f s c es Hx Hn Hc Hs2 b ys) as (b' & Lb' & Hb').
  { intros k Hk' ye. apply edge_cycle; [exact Ej|exact Eni|]. apply (Hk k Hk'). }
  exists inter, st, b'. split; [exact E1|]. split; [exact E2|]. split; [exact HP|]. split; [exact HU|]. split; [exact HC|]. split; [exact Hcan|]. split; [exact Lb'|].
  split; [intros k Hk' ye; apply (Hb' k Hk')|]. intro Hsm. destruct (H Hsm) as (loops & omA & omB & P1 & P2 & P3 & P4 & P5 & P6).
  exists omA, omB. split; [|split; [exact P3|]; split; [exact P5|]].
  - unfold periods_gc. assert (Eh := homology_done branch_points squarefree sort param nonpos neg xgcd 2 f c es r' mn' Hx Hn Hsq Hc Et ys inter loops Ey E1 P1).
    change (Z.of_nat 2) with 2%Z in Eh. rewrite Eh. cbn [bind]. fold x p. rewrite Em. cbn [bind].
    destruct (integrals_tree_spec _ _ qsort (keys ys) _ rows Hq (eq_trans (repeat_length _ _) (eq_trans Ele (eq_sym Hkeys))) Em) as (_ & _ & _ & _ & Lr & _).
    rewrite (edge_rows_done c ys rows a); [cbn [bind]; rewrite P2; cbn [bind]; rewrite P4; reflexivity|rewrite Lr, Hkeys, Ely, Ele; reflexivity|transitivity t; [exact La|rewrite Ely, Ele; reflexivity]|].
    intros k Hk'. apply (Hk k). lia.
  - intros i k Hi Hk'. destruct (P6 i k Hi Hk') as (PA & PB).
    assert (Hrow : forall l, (l < 2 * g)%nat -> cycle_period b (nth l (stP st) []) i = (s * cycle_period b' (nth l (stP st) []) i)%C).
    { intros l Hl. unfold cycle_period. rewrite <- csum_scal. apply csum_ext. intros p' Hp'.
      assert (El : length (nth l (stP st) []) = t) by (destruct HP as (HP1 & HP2); apply HP2, nth_In; lia).
      destruct (Hb' p' ltac:(fold t; lia)) as (_ & Hv). specialize (Hv 0%nat i). rewrite Eni, Ej in Hv. specialize (Hv ltac:(cbn; lia) ltac:(cbn [nth]; unfold g in Hi; lia)).
      cbn [offset Nat.add] in Hv. change (Z.to_nat (1 + Z.of_nat 0)) with 1%nat in Hv. cbv beta. rewrite Hv, cpow_1. ring. }
    rewrite <- !Hrow by lia. split; [exact PA|exact PB].
Qed.

Lemma lead_only_roots {Key : Type} branch_points squarefree sort param nonpos neg xgcd up lg (qsort : list (Key * nat) -> list (Key * nat)) keys f f' :
  degree f = degree f' -> branch_points f = branch_points f' -> squarefree f = squarefree f' ->
  (forall rdef rturn fuel prec,
    periods_gc branch_points squarefree sort param nonpos neg xgcd up lg qsort keys rdef rturn fuel f prec =
    periods_gc branch_points squarefree sort param nonpos neg xgcd up lg qsort keys rdef rturn fuel f' prec) /\
  (forall rdef rprod rturn same m prec,
    periods_de branch_points squarefree sort param nonpos neg xgcd up lg qsort keys rdef rprod rturn same m f prec =
    periods_de branch_points squarefree sort param nonpos neg xgcd up lg qsort keys rdef rprod rturn same m f' prec).
Proof.
  intros E1 E2 E3. assert (H : forall m, homology branch_points squarefree sort param nonpos neg xgcd m f = homology branch_points squarefree sort param nonpos neg xgcd m f').
  { intro m. unfold homology, aj_init, sec_init_poly. now rewrite E1, E2, E3. }
  split; intros; unfold periods_gc, periods_de; now rewrite H.
Qed.
