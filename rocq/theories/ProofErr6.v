(** The integrals of an edge: the balls returned contain the integrals of x^i dx / y. *)
From Coq Require Import Reals Lra Lia List.
From Coquelicot Require Import Coquelicot.
From Verif Require Import CArg ModelTree ModelCurve ProofCurve ModelPeriod SpecPeriod ProofPeriod ProofPeriodMain ModelVec SpecVec ProofVec ModelQuad SpecQuad ModelCache SpecCache ProofCache SpecInter ModelEdge SpecEdge ProofEdge
  ModelTurn SpecTurn ProofTurn ModelGc SpecGc ProofGc ModelErr SpecErr ModelExtra SpecExtra ProofQuad ProofExtra ProofErr3 ProofErr4 ProofErr5.
Import ListNotations.
Local Open Scope R_scope.

(** ** Linearity of the integral *)
Lemma is_int_ext f g I : (forall t, -1 < t < 1 -> f t = g t) -> is_int f I -> is_int g I.
Proof.
  intros E [H1 H2].
  assert (P : filter_prod (at_right (-1)) (at_left 1)
    (fun bd : R * R => forall x, Rmin (fst bd) (snd bd) < x < Rmax (fst bd) (snd bd) -> -1 < x < 1)).
  { exists (fun a => -1 < a < 1) (fun b => -1 < b < 1).
    - exists (mkposreal 2 ltac:(lra)). intros y Hy Hl. unfold ball in Hy. cbn in Hy. unfold AbsRing_ball, abs, minus, plus, opp in Hy. cbn in Hy.
      apply Rabs_def2 in Hy. lra.
    - exists (mkposreal 2 ltac:(lra)). intros y Hy Hl. unfold ball in Hy. cbn in Hy. unfold AbsRing_ball, abs, minus, plus, opp in Hy. cbn in Hy.
      apply Rabs_def2 in Hy. lra.
    - intros a b Ha Hb x. cbn [fst snd]. unfold Rmin, Rmax. destruct (Rle_dec a b); lra. }
  split.
  - apply (is_RInt_gen_ext (fun t => fst (f t))); [|exact H1]. revert P. apply filter_imp. intros bd H x Hx. now rewrite E by now apply H.
  - apply (is_RInt_gen_ext (fun t => snd (f t))); [|exact H2]. revert P. apply filter_imp. intros bd H x Hx. now rewrite E by now apply H.
Qed.
Lemma gen_ext (f g : R -> R) I J : (forall t, f t = g t) -> I = J -> is_RInt_gen f (at_right (-1)) (at_left 1) I -> is_RInt_gen g (at_right (-1)) (at_left 1) J.
Proof.
  intros E <- H. apply (is_RInt_gen_ext f); [|exact H]. exists (fun _ => True) (fun _ => True); try (now apply filter_true). intros. apply E.
Qed.
Lemma gen_plus (f g : R -> R) I J : is_RInt_gen f (at_right (-1)) (at_left 1) I -> is_RInt_gen g (at_right (-1)) (at_left 1) J ->
  is_RInt_gen (fun t => f t + g t) (at_right (-1)) (at_left 1) (I + J).
Proof. intros H1 H2. exact (@is_RInt_gen_plus R_NormedModule (at_right (-1)) (at_left 1) _ _ f g I J H1 H2). Qed.
Lemma gen_scal (f : R -> R) c I : is_RInt_gen f (at_right (-1)) (at_left 1) I ->
  is_RInt_gen (fun t => c * f t) (at_right (-1)) (at_left 1) (c * I).
Proof. intros H. exact (@is_RInt_gen_scal R_NormedModule (at_right (-1)) (at_left 1) _ _ f c I H). Qed.
Lemma is_int_plus f g I J : is_int f I -> is_int g J -> is_int (fun t => f t + g t)%C (I + J)%C.
Proof.
  intros [H1 H2] [K1 K2]. split.
  - exact (gen_plus _ _ _ _ H1 K1).
  - exact (gen_plus _ _ _ _ H2 K2).
Qed.
Lemma is_int_scal c f I : is_int f I -> is_int (fun t => c * f t)%C (c * I)%C.
Proof.
  intros [H1 H2]. split.
  - apply (gen_ext (fun t => fst c * fst (f t) + - snd c * snd (f t)) _ (fst c * fst I + - snd c * snd I)).
    + intro t. cbn. ring.
    + cbn. ring.
    + exact (gen_plus _ _ _ _ (gen_scal _ (fst c) _ H1) (gen_scal _ (- snd c) _ H2)).
  - apply (gen_ext (fun t => fst c * snd (f t) + snd c * fst (f t)) _ (fst c * snd I + snd c * fst I)).
    + intro t. cbn. ring.
    + cbn. ring.
    + exact (gen_plus _ _ _ _ (gen_scal _ (fst c) _ H2) (gen_scal _ (snd c) _ H1)).
Qed.
Lemma is_int_csum n (c : nat -> C) (f : nat -> R -> C) (I : nat -> C) : (forall l, (l < S n)%nat -> is_int (f l) (I l)) ->
  is_int (fun t => csum (S n) (fun l => c l * f l t))%C (csum (S n) (fun l => c l * I l))%C.
Proof.
  induction n as [|n IH]; intro H.
  - cbn [csum]. apply (is_int_ext (fun t => c 0%nat * f 0%nat t)%C); [intros; ring|].
    replace (RtoC 0 + c 0%nat * I 0%nat)%C with (c 0%nat * I 0%nat)%C by ring. apply is_int_scal, H. lia.
  - apply (is_int_plus (fun t => csum (S n) (fun l => c l * f l t))%C (fun t => c (S n) * f (S n) t)%C).
    + apply IH. intros l Hl. apply H. lia.
    + apply is_int_scal, H. lia.
Qed.

(** ** The sum with the selected evaluation of roots *)
Lemma gc_nodes_run_same root y g xs : (forall x, In x xs -> root x = Done (y x) /\ root (- x) = Done (y (- x))) ->
  forall res, gc_nodes_run root g xs res = gc_nodes y g xs res.
Proof.
  induction xs as [|x xs IH]; intros H res; cbn [gc_nodes_run gc_nodes]; [reflexivity|].
  destruct (H x ltac:(now left)) as [-> E]. cbn [bind]. destruct (add_geom res 0 g (/ y x)%C (RtoC x)) as [r| | |]; cbn [bind]; try reflexivity.
  rewrite E. cbn [bind]. destruct (add_geom (fst r) _ _ _ _) as [r'| | |]; cbn [bind]; try reflexivity.
  apply IH. intros z Hz. apply H. now right.
Qed.
Lemma In_rget (xs : list R) x : In x xs -> exists k, (k < length xs)%nat /\ rget xs k = x.
Proof. intros H. destruct (In_nth xs x 0 H) as (k & Hk & E). exists k. split; assumption. Qed.
Lemma gc_integrals_run_same rdef rturn u d1 d g n y xs : (1 <= n)%nat -> gc_int_init n = Done xs -> (0 < d <= length u)%nat ->
  (forall t, y t = roots_product 2 (factors u d1 d t)) ->
  (rdef = true \/ forall k, (k < n)%nat -> ~ negative_real (SpecTurn.cprod (factors u d1 d (gc_node n k)))) ->
  gc_integrals_run rdef rturn u d1 d g n xs = gc_integrals_precomp y (y 0) g n xs.
Proof.
  intros Hn Ex Hd Hy Hneg. destruct (gc_table n Hn) as (xs' & Ex' & HL & Hx).
  assert (xs' = xs) by congruence. subst xs'. clear Ex'.
  assert (R : forall k, (k < n)%nat -> gc_root rdef rturn u d1 d (gc_node n k) = Done (y (gc_node n k))).
  { intros k Hk. rewrite Hy. destruct Hneg as [-> | Hneg].
    - unfold gc_root. apply (pol_def_ok 2). lia.
    - apply gc_root_ok; [lia|now apply Hneg]. }
  assert (Hdiv : (2 * (n / 2) <= n)%nat) by (pose proof (Nat.div_mod n 2); lia).
  unfold gc_integrals_run, gc_integrals_precomp. rewrite (gc_nodes_run_same _ y).
  - destruct (gc_nodes y g xs _) as [res| | |]; cbn [bind]; try reflexivity.
    destruct (n mod 2 =? 0)%nat; [reflexivity|].
    assert (E0 : sqrt_def u d1 d 0 = Done (y 0)) by (rewrite Hy; apply (pol_def_ok 2); lia).
    rewrite E0. reflexivity.
  - intros x Hin. destruct (In_rget xs x Hin) as (k & Hk & <-). rewrite HL in Hk. rewrite (Hx k Hk).
    split; [apply R; lia|]. rewrite <- gc_node_sym by lia. apply R. lia.
Qed.

Lemma finite_choice n (P : nat -> C -> Prop) : (forall l, (l < n)%nat -> exists I, P l I) ->
  exists w, length w = n /\ forall l, (l < n)%nat -> P l (vget w l).
Proof.
  induction n as [|n IH]; intro H.
  - exists []. split; [reflexivity|]. intros l Hl. lia.
  - destruct IH as (w & HL & Hw); [intros l Hl; apply H; lia|]. destruct (H n ltac:(lia)) as (I & HI).
    exists (w ++ [I]). split; [rewrite app_length, HL; cbn; lia|]. intros l Hl. unfold vget.
    destruct (Nat.eq_dec l n) as [->|Hne].
    + rewrite app_nth2 by lia. rewrite HL, Nat.sub_diag. exact HI.
    + rewrite app_nth1 by lia. apply Hw. lia.
Qed.

(** ** Hyperelliptic curves *)
Lemma hyper_shape n c : sec_init 2 n = Done c -> (3 <= n)%Z -> (1 <= sec_g c)%Z /\ sec_n c = n /\ sec_j1 c = 1%Z /\ sec_ni c = [sec_g c].
Proof.
  intros Hc Hn. destruct (genus_exact_final 2 n c Hc ltac:(lia)) as (Hg & _).
  destruct (sec_init_fields 2 n c Hc) as (_ & En).
  destruct (differentials_count_final 2 n c Hc ltac:(lia)) as (Hs & Hl).
  destruct (sec_init_curve_ok 2 n c Hc ltac:(lia)) as (Hok & _ & _). destruct Hok as (_ & Hj & _ & _).
  assert (1 <= Z.gcd 2 n <= 2)%Z.
  { pose proof (Z.gcd_nonneg 2 n). pose proof (Z.gcd_divide_l 2 n) as D. pose proof (Z.divide_pos_le _ 2 ltac:(lia) D).
    assert (Z.gcd 2 n <> 0)%Z by (intro E; apply Z.gcd_eq_0 in E; lia). lia. }
  split; [lia|]. split; [exact En|].
  assert (Hj1 : (1 <= sec_j1 c)%Z).
  { destruct (differentials_exact_final 2 n c Hc ltac:(lia)) as (Hh & Hb & _).
    destruct (Z.le_gt_cases 1 (sec_j1 c)) as [L|L]; [exact L|].
    assert (E0 : sec_j1 c = 0%Z) by lia.
    assert (Hlen : length (sec_ni c) = 2%nat) by lia.
    destruct (sec_ni c) as [|a [|b [|]]] eqn:Eni; cbn in Hlen; try lia.
    assert (H0 := proj2 (Hh 1%Z 0%Z)). rewrite E0 in H0. change (nth (Z.to_nat (0 - 0)) [a; b] 0%Z) with a in H0.
    assert (Ha := Hb a ltac:(now left)).
    specialize (H0 ltac:(lia)). exfalso. unfold SpecCurve.holomorphic in H0. lia. }
  destruct (sec_ni c) as [|a [|b l]] eqn:Eni; cbn [length fold_right] in *; try lia.
  split; [lia|]. f_equal. lia.
Qed.

Section Edge.
Context (nonpos neg : C -> bool) (x : list C) (a b : nat) (n : Z) (c : sec) (ye : ydata).
Hypothesis Hc : sec_init 2 n = Done c.
Hypothesis Hn : (3 <= n)%Z.
Hypothesis Hx : Z.of_nat (length x) = n.
Hypothesis Ha : (a < length x)%nat.
Hypothesis Hb : (b < length x)%nat.
Hypothesis Hab : vget x a <> vget x b.
Hypothesis Hye : ydata_init_edge nonpos neg x a b 2 = Done ye.
Let xa := vget x a.
Let xb := vget x b.
Let yt (t : R) : C := y_tilde 2 (y_u ye) (y_n1 ye) (RtoC t).
(** the branch used by the code *)
Definition edge_branch (t : R) : C := (y_c ye * RtoC (sqrt (1 - t * t)) * yt t)%C.

Lemma edge_fields : length (y_u ye) = Z.to_nat (n - 2) /\ y_ba2 ye = ((xb - xa) / RtoC 2)%C /\
  y_ab ye = ((xa + xb) / (xb - xa))%C /\ y_c ye <> RtoC 0.
Proof using Ha Hb Hab Hye Hx Hn.
  destruct (init_spec nonpos neg x a b 2 Ha Hb Hab ltac:(lia)) as (y & E & HP & _ & _ & _ & E1 & E2 & _ & Hc0 & _).
  change (Z.of_nat 2) with 2%Z in E. assert (y = ye) by congruence. subst y.
  assert (a <> b) by (intros E'; apply Hab; now rewrite E').
  split; [|split; [exact E1|split; [exact E2|exact Hc0]]].
  apply Permutation_length in HP. rewrite map_length in HP. pose proof (other_points_length (length x) a b). lia.
Qed.
Lemma edge_branch_ok : is_branch x xa xb (y_ya ye) (y_yb ye) edge_branch.
Proof using Ha Hb Hab Hye.
  destruct (init_spec nonpos neg x a b 2 Ha Hb Hab ltac:(lia)) as (y & E & _ & _ & _ & _ & _ & _ & _ & _ & Eya & Eyb).
  change (Z.of_nat 2) with 2%Z in *. assert (y = ye) by congruence. subst y.
  exists (fun t => y_c ye * yt t)%C. split; [rewrite Eya; unfold yt; ring|]. split; [rewrite Eyb; unfold yt; ring|]. split.
  - intros t _. apply (ccont_mult (fun _ => y_c ye) yt); [apply ccont_const|apply y_cont].
  - intros t Ht. split; [unfold edge_branch; ring|].
    assert (Eq := curve_equation nonpos neg x a b 2 Ha Hb Hab ltac:(lia) ye (RtoC t) Hye). fold xa xb in Eq. rewrite Eq.
    change (Z.of_nat 2) with 2%Z. fold (yt t).
    assert (E1 : (RtoC (sqrt (1 - t * t)) * RtoC (sqrt (1 - t * t)))%C = (RtoC 1 - RtoC t * RtoC t)%C).
    { rewrite <- RtoC_mult, sqrt_sqrt by nra. now rewrite RtoC_minus, RtoC_mult. }
    rewrite <- E1. unfold edge_branch. cbn [cpow]. ring.
Qed.
Lemma edge_integral w w' i (Hy : forall t, -1 < t < 1 -> yt t <> RtoC 0) : length w = Z.to_nat (sec_g c) ->
  (forall l, (l < Z.to_nat (sec_g c))%nat -> is_int (SpecQuad.integrand 2 yt 1 l) (vget w l)) ->
  edge_result_gc c ye w = Done w' -> (Z.of_nat i < sec_g c)%Z ->
  exists I, is_edge_integral xa xb edge_branch i I /\ vget w' i = (RtoC 2 * I)%C.
Proof using Ha Hb Hab Hye Hc Hn Hx.
  intros Hw HI E Hi. destruct (hyper_shape n c Hc Hn) as (Hg & En & Ej & Eni).
  destruct edge_fields as (_ & Eba & Eab & Hc0).
  destruct (edge_factors_vec 2 n c w (y_ba2 ye) (y_ab ye) (y_c ye) Hc ltac:(lia) ltac:(lia)) as (v' & Ev & _ & G).
  unfold edge_result_gc in E. assert (v' = w') by congruence. subst v'. clear Ev.
  specialize (G 0%nat i). rewrite Eni, Ej in G. specialize (G ltac:(cbn; lia) Hi).
  change (offset [sec_g c] 0) with 0%nat in G. rewrite !Nat.add_0_l in G.
  change (1 + Z.of_nat 0)%Z with 1%Z in G. change (Z.to_nat 1) with 1%nat in G. rewrite cpow_1 in G.
  assert (Hba : (xb - xa)%C <> RtoC 0).
  { intro E0. apply Hab. fold xa xb. transitivity (xb - (xb - xa))%C; [ring|]. rewrite E0. ring. }
  assert (N2 : RtoC 2 <> RtoC 0) by (intro E0; injection E0; lra).
  set (k := (y_ba2 ye * cpow (y_ba2 ye) i / y_c ye)%C).
  exists (k * csum (S i) (fun l => NC (binom i l) * cpow (y_ab ye) (i - l) * vget w l))%C. split.
  - unfold is_edge_integral.
    apply (is_int_ext (fun t => k * csum (S i) (fun l => NC (binom i l) * cpow (y_ab ye) (i - l) * SpecQuad.integrand 2 yt 1 l t))%C).
    + intros t Ht.
      assert (Hs : 0 < sqrt (1 - t * t)) by (apply sqrt_lt_R0; nra).
      assert (Hs0 : RtoC (sqrt (1 - t * t)) <> RtoC 0) by (intro E0; injection E0; lra).
      assert (E1 : edge_point xa xb (RtoC t) = (y_ba2 ye * (RtoC t + y_ab ye))%C).
      { unfold edge_point. rewrite Eba, Eab. field. split; assumption. }
      rewrite E1, cpow_mul, binomial_formula.
      rewrite (csum_ext (S i) (fun l => NC (binom i l) * cpow (y_ab ye) (i - l) * SpecQuad.integrand 2 yt 1 l t)%C
        (fun l => (NC (binom i l) * cpow (y_ab ye) (i - l) * cpow (RtoC t) l) * / (RtoC (sqrt (1 - t * t)) * yt t))%C).
      2:{ intros l _. unfold SpecQuad.integrand. rewrite rroot_2 by nra. rewrite cpow_1. unfold Cdiv. ring. }
      rewrite csum_scal_r. unfold k, edge_branch. rewrite <- Eba. field. repeat split; [apply Hy; lra|assumption|assumption].
    + apply is_int_scal, (is_int_csum i (fun l => NC (binom i l) * cpow (y_ab ye) (i - l))%C (SpecQuad.integrand 2 yt 1) (vget w)).
      intros l Hl. apply HI. lia.
  - rewrite G. assert (Er : root 2 (-1) = RtoC (-1)).
    { unfold root. replace (2 * PI * IZR (-1) / IZR 2)%R with (- PI)%R by field. unfold cis. rewrite cos_neg, sin_neg, cos_PI, sin_PI.
      unfold RtoC. f_equal. ring. }
    change (- (1))%Z with (-1)%Z. rewrite Er, <- RtoC_minus. replace (1 - -1) with 2 by ring. unfold k.
    change (fun l => NC (binom i l) * cpow (y_ab ye) (i - l) * vget w (0 + l)%nat)%C with (fun l => NC (binom i l) * cpow (y_ab ye) (i - l) * vget w l)%C.
    field. assumption.
Qed.

Lemma edge_gc rdef rturn fuel cached prec np e r s :
  gc_params fuel (y_u ye) (Z.to_nat (sec_g c)) prec = Done (np, e, r) -> avoids r (y_u ye) -> (0 < np)%Z ->
  gc_scheme c cached np = Done s -> (np <= s)%Z ->
  (rdef = true \/ forall k, (k < Z.to_nat s)%nat ->
    ~ negative_real (SpecTurn.cprod (factors (y_u ye) (y_n1 ye) (length (y_u ye)) (gc_node (Z.to_nat s) k)))) ->
  exists v e' w w', e = Some e' /\ edge_moments_gc rdef rturn fuel c cached ye prec = Done (v, Some e', s) /\
    length v = Z.to_nat (sec_g c) /\ within e' v w /\ edge_result_gc c ye w = Done w' /\
    edge_integrals x xa xb (y_ya ye) (y_yb ye) (sec_g c) w'.
Proof using Ha Hb Hab Hye Hc Hn Hx.
  intros Hp Hav Hnp Hs Hle Hneg. destruct (hyper_shape n c Hc Hn) as (Hg & En & Ej & Eni).
  destruct edge_fields as (Hlu & _).
  assert (Hr := gc_r_ge_1 _ _ _ _ _ _ _ Hp).
  destruct (computed_error fuel (y_u ye) (y_n1 ye) (Z.to_nat (sec_g c)) prec np e r (Z.to_nat s) (Z.to_nat (sec_g c)) Hp Hav Hr Hnp ltac:(lia) ltac:(lia))
    as (e' & v & Ee & Ev & HLv & HI).
  fold yt in Ev, HI. change (fun t : R => yt t) with yt in *.
  destruct (finite_choice (Z.to_nat (sec_g c)) (fun l I => is_int (SpecQuad.integrand 2 yt 1 l) I /\ Cmod (vget v l - I)%C <= e')) as (w & HLw & Hw).
  { intros l Hl. apply HI; lia. }
  destruct (edge_factors_vec 2 n c w (y_ba2 ye) (y_ab ye) (y_c ye) Hc ltac:(lia) ltac:(lia)) as (w' & Ew & _ & _).
  exists v, e', w, w'. split; [exact Ee|]. split.
  - unfold edge_moments_gc. rewrite En, <- Hlu, firstn_all, Hp. cbn [bind]. rewrite Hs. cbn [bind].
    unfold gc_integrals in Ev. destruct (gc_int_init (Z.to_nat s)) as [xs| | |] eqn:Ex; try discriminate. cbn [bind] in *.
    rewrite (gc_integrals_run_same rdef rturn (y_u ye) (y_n1 ye) (length (y_u ye)) (Z.to_nat (sec_g c)) (Z.to_nat s) yt xs); [|lia|exact Ex|lia| |exact Hneg].
    + change (gc_integrals_precomp yt (yt 0) (Z.to_nat (sec_g c)) (Z.to_nat s) xs = Done v) in Ev. rewrite Ev, Ee. reflexivity.
    + intro t. unfold yt. rewrite <- root_pol_tilde. apply edge_def_same.
  - split; [exact HLv|]. split; [split; [lia|intros k Hk; apply Hw; lia]|]. split; [exact Ew|].
    exists edge_branch. split; [exact edge_branch_ok|]. intros i Hi. apply (edge_integral w w' i).
    + intros t Ht. apply (y_neq_0 (y_u ye) (y_n1 ye) 0); [|lra..]. apply Forall_forall. intros p Hp'.
      unfold avoids in Hav. rewrite Forall_forall in Hav. rewrite cosh_0. specialize (Hav p Hp'). lra.
    + exact HLw.
    + intros l Hl. apply Hw, Hl.
    + exact Ew.
    + exact Hi.
Qed.
End Edge.

(** ** All the edges of a tree *)
Lemma tree_loop {Row Key : Type} (c : sec) (integ : Z -> nat -> outcome (Row * Z)) (req : nat -> Z) (good : nat -> Row -> Prop) (d : Row) :
  forall (t : list (Key * nat)) a rows ss,
  (forall k a s, In k (map snd t) -> gc_scheme c a (req k) = Done s -> (req k <= s)%Z -> exists row, integ a k = Done (row, s) /\ good k row) ->
  NoDup (map snd t) -> (forall k, In k (map snd t) -> (k < length rows)%nat) ->
  gc_schemes c a (map req (map snd t)) = Done ss -> Forall2 (fun s n => (n <= s)%Z) ss (map req (map snd t)) ->
  exists rows', edge_loop integ t a rows = Done rows' /\ length rows' = length rows /\
    (forall k, In k (map snd t) -> good k (nth k rows' d)) /\ (forall k, ~ In k (map snd t) -> nth k rows' d = nth k rows d).
Proof.
  induction t as [|[key k] t IH]; intros a rows ss Hg Hnd Hlt Hss Hen; cbn [edge_loop map snd gc_schemes] in *.
  - exists rows. split; [reflexivity|]. split; [reflexivity|]. split; [intros k []|reflexivity].
  - destruct (gc_scheme c a (req k)) as [s| | |] eqn:Es; try discriminate. cbn [bind] in Hss.
    destruct (gc_schemes c s (map req (map snd t))) as [ss'| | |] eqn:Ess; try discriminate. injection Hss as <-.
    inversion Hen as [|? ? ? ? Hs Hen']; subst.
    destruct (Hg k a s (or_introl eq_refl) Es Hs) as (row & Er & Hrow). rewrite Er. cbn [bind snd fst].
    assert (Hk := Hlt k (or_introl eq_refl)). rewrite (proj2 (Nat.ltb_lt _ _) Hk).
    inversion Hnd as [|? ? Hk0 Hnd']; subst.
    destruct (IH s (upd rows k row) ss') as (rows' & E & HL & Hin & Hout).
    + intros k' a' s' Hk'. apply Hg. now right.
    + exact Hnd'.
    + intros k' Hk'. rewrite upd_length. apply Hlt. now right.
    + exact Ess.
    + exact Hen'.
    + rewrite upd_length in HL. exists rows'. split; [exact E|]. split; [exact HL|]. split.
      * intros q [<-|Hq]; [|now apply Hin]. rewrite Hout by exact Hk0. rewrite (nth_upd d rows k row k Hk), Nat.eqb_refl. exact Hrow.
      * intros q Hq. rewrite Hout by (intro; apply Hq; now right). rewrite (nth_upd d rows k row q Hk). destruct (Nat.eqb_spec q k) as [->|_]; [|reflexivity]. exfalso. apply Hq. now left.
Qed.
Lemma tree_ydata_nth nonpos neg x m es : forall ys k, tree_ydata nonpos neg x m es = Done ys -> (k < length es)%nat ->
  ydata_init_edge (nonpos (nth k es no_edge)) (neg (nth k es no_edge)) x (ea (nth k es no_edge)) (eb (nth k es no_edge)) m = Done (nth k ys no_ydata).
Proof.
  induction es as [|e es IH]; intros ys k E Hk; cbn [length] in Hk; [lia|]. cbn [tree_ydata] in E.
  destruct (ydata_init_edge (nonpos e) (neg e) x (ea e) (eb e) m) as [y| | |] eqn:Ey; try discriminate. cbn [bind] in E.
  destruct (tree_ydata nonpos neg x m es) as [ys'| | |] eqn:Es; try discriminate. injection E as <-.
  destruct k as [|k]; cbn [nth]; [exact Ey|]. apply IH; [reflexivity|lia].
Qed.
Lemma map_snd_combine {A B} (l : list A) : forall (k : list B), length l = length k -> map snd (combine l k) = k.
Proof. induction l as [|a l IH]; intros [|b k] H; cbn in *; try discriminate; [reflexivity|]. now rewrite IH by lia. Qed.
Lemma tree_gc {Key : Type} (qsort : list (Key * nat) -> list (Key * nat)) rdef rturn fuel n c x es nonpos neg ys prec keys rows
  (np : nat -> Z) (e : nat -> option R) (r : nat -> R) ss :
  (forall l, Permutation (qsort l) l) -> sec_init 2 n = Done c -> (3 <= n)%Z -> Z.of_nat (length x) = n ->
  SpecExtra.edges_of x es -> tree_ydata nonpos neg x 2 es = Done ys -> length keys = length es -> length rows = length es ->
  (forall k, (k < length es)%nat -> let u := y_u (nth k ys no_ydata) in
    gc_params fuel u (Z.to_nat (sec_g c)) prec = Done (np k, e k, r k) /\ avoids (r k) u /\ (0 < np k)%Z /\
    (rdef = true \/ forall t, -1 < t < 1 -> ~ negative_real (SpecTurn.cprod (factors u (y_n1 (nth k ys no_ydata)) (length u) t)))) ->
  let order := map snd (qsort (combine keys (seq 0 (length keys)))) in
  gc_schemes c 0 (map np order) = Done ss -> Forall2 (fun s n => (n <= s)%Z) ss (map np order) ->
  exists rows', tree_moments_gc qsort rdef rturn fuel c ys prec keys rows = Done rows' /\ length rows' = length es /\
    forall k, (k < length es)%nat -> let ye := nth k ys no_ydata in
      let a := vget x (ea (nth k es no_edge)) in let b := vget x (eb (nth k es no_edge)) in
      exists v e' w w', nth k rows' ([], None) = (v, Some e') /\ e k = Some e' /\ Z.of_nat (length v) = sec_g c /\ within e' v w /\ edge_result_gc c ye w = Done w' /\
        edge_integrals x a b (y_ya ye) (y_yb ye) (sec_g c) w'.
Proof.
  intros Hq Hc Hn Hx Hes Hys Hkeys Hrows Hp order Hss Hen.
  assert (HP : Permutation order (seq 0 (length es))).
  { unfold order. rewrite Hq, Hkeys. rewrite map_snd_combine by (rewrite seq_length; lia). reflexivity. }
  assert (Hin : forall k, In k order <-> (k < length es)%nat).
  { intro k. split; intro H.
    - apply (Permutation_in _ HP), in_seq in H. lia.
    - apply (Permutation_in _ (Permutation_sym HP)), in_seq. lia. }
  destruct (tree_loop c (fun s k => do r <- edge_moments_gc rdef rturn fuel c s (nth k ys no_ydata) prec; let '(v, e, s) := r in Done ((v, e), s))
    np (fun k row => let ye := nth k ys no_ydata in
      exists v e' w w', row = (v, Some e') /\ e k = Some e' /\ Z.of_nat (length v) = sec_g c /\ within e' v w /\ edge_result_gc c ye w = Done w' /\
        edge_integrals x (vget x (ea (nth k es no_edge))) (vget x (eb (nth k es no_edge))) (y_ya ye) (y_yb ye) (sec_g c) w')
    ([], None) (qsort (combine keys (seq 0 (length keys)))) 0%Z rows ss) as (rows' & E & HL & Hg & _).
  - intros k a s Hk Es Hs. fold order in Hk. apply Hin in Hk. destruct (Hp k Hk) as (H1 & H2 & Hk1 & H3).
    destruct (Hes (nth k es no_edge) (nth_In es no_edge Hk)) as (A1 & A2 & A3).
    destruct (edge_gc _ _ x (ea (nth k es no_edge)) (eb (nth k es no_edge)) n c (nth k ys no_ydata) Hc Hn Hx A1 A2 A3
      (tree_ydata_nth nonpos neg x 2 es ys k Hys Hk) rdef rturn fuel a prec (np k) (e k) (r k) s H1 H2 Hk1 Es Hs)
      as (v & e' & w & w' & B1 & B2 & B3 & B4 & B5 & B6).
    { destruct H3 as [H3|H3]; [now left|right]. intros q Hq'. apply H3.
      unfold gc_node. set (s' := Z.to_nat s) in *. assert (P := PI_RGT_0).
      assert (N1 : 1 <= INR s') by (change 1 with (INR 1); apply le_INR; lia).
      assert (0 < INR (2 * q + 1) * PI / (2 * INR s') < PI).
      { assert (0 < INR (2 * q + 1)) by (apply lt_0_INR; lia).
        assert (INR (2 * q + 1) < 2 * INR s') by (replace (2 * INR s') with (INR (2 * s')) by (rewrite mult_INR; reflexivity); apply lt_INR; lia).
        split.
        - apply Rdiv_lt_0_compat; [apply Rmult_lt_0_compat|]; lra.
        - apply Rlt_div_l; [lra|]. rewrite (Rmult_comm PI). apply Rmult_lt_compat_r; lra. }
      split; [rewrite <- cos_PI|rewrite <- cos_0]; apply cos_decreasing_1; lra. }
    exists (v, Some e'). rewrite B2. split; [reflexivity|]. exists v, e', w, w'.
    split; [reflexivity|]. split; [exact B1|]. split; [destruct (hyper_shape n c Hc Hn) as (Hg & _); lia|]. split; [exact B4|]. split; [exact B5|exact B6].
  - fold order. apply (Permutation_NoDup (Permutation_sym HP)), seq_NoDup.
  - fold order. intros k Hk. rewrite Hrows. now apply Hin.
  - exact Hss.
  - exact Hen.
  - exists rows'. split; [exact E|]. split; [lia|]. intros k Hk. apply Hg. fold order. now apply Hin.
Qed.

(** ** The precision asked for *)
Lemma gc_node_open s k : (k < s)%nat -> -1 < gc_node s k < 1.
Proof.
  intro Hk. unfold gc_node. assert (P := PI_RGT_0).
  assert (N1 : 1 <= INR s) by (change 1 with (INR 1); apply le_INR; lia).
  assert (0 < INR (2 * k + 1) * PI / (2 * INR s) < PI).
  { assert (0 < INR (2 * k + 1)) by (apply lt_0_INR; lia).
    assert (INR (2 * k + 1) < 2 * INR s) by (replace (2 * INR s) with (INR (2 * s)) by (rewrite mult_INR; reflexivity); apply lt_INR; lia).
    split.
    - apply Rdiv_lt_0_compat; [apply Rmult_lt_0_compat|]; lra.
    - apply Rlt_div_l; [lra|]. rewrite (Rmult_comm PI). apply Rmult_lt_compat_r; lra. }
  split; [rewrite <- cos_PI|rewrite <- cos_0]; apply cos_decreasing_1; lra.
Qed.
Lemma edge_precision up lg d prec n c x es ed nonpos neg ye rdef rturn fuel :
  rounds_up up -> 0 <= d -> log2_within lg d -> sec_init 2 n = Done c -> (3 <= n)%Z -> Z.of_nat (length x) = n ->
  edges_of x es -> In ed es -> ydata_init_edge nonpos neg x (ea ed) (eb ed) 2 = Done ye -> (2 <= fuel)%nat ->
  let p := intprec up lg prec x es c in
  within_reach (Z.to_nat (sec_g c)) p (y_u ye) ->
  (rdef = true \/ forall t, -1 < t < 1 -> ~ negative_real (SpecTurn.cprod (factors (y_u ye) (y_n1 ye) (length (y_u ye)) t))) ->
  exists v e s v' w', edge_moments_gc rdef rturn fuel c 0 ye p = Done (v, Some e, s) /\ edge_result_gc c ye v = Done v' /\
    edge_integrals x (vget x (ea ed)) (vget x (eb ed)) (y_ya ye) (y_yb ye) (sec_g c) w' /\
    forall i, (Z.of_nat i < sec_g c)%Z -> Cmod (vget v' i - vget w' i)%C <= 4 * INR (S i) * two_to (d - IZR prec).
Proof.
  intros Hup Hd Hlg Hc Hn Hx Hes He Hye Hf p Hpr Hneg.
  destruct (Hes ed He) as (A1 & A2 & A3). destruct (hyper_shape n c Hc Hn) as (Hg & En & Ej & Eni).
  assert (Hne : y_u ye <> []).
  { destruct (edge_fields nonpos neg x (ea ed) (eb ed) n ye Hn Hx A1 A2 A3 Hye) as (HL & _). intro E. rewrite E in HL. cbn in HL. lia. }
  destruct fuel as [|[|fuel]]; [lia|lia|].
  destruct (gc_enough fuel (y_u ye) (Z.to_nat (sec_g c)) p Hne Hpr) as (np & e & r & Hp & Hnp & Hr & Hav & Hb).
  destruct (edge_gc nonpos neg x (ea ed) (eb ed) n c ye Hc Hn Hx A1 A2 A3 Hye rdef rturn (S (S fuel)) 0 p np (Some e) r np Hp Hav Hnp eq_refl ltac:(lia))
    as (v & e' & w & w' & B1 & B2 & B3 & B4 & B5 & B6).
  { destruct Hneg as [->|Hneg]; [now left|right]. intros k Hk. apply Hneg. now apply gc_node_open. }
  injection B1 as <-. destruct B4 as (L1 & L2).
  destruct (precision_final up lg d prec 2 n c x es ed nonpos neg ye v w 2 Hup Hd Hlg Hc ltac:(lia) Hx Hes He Hye ltac:(lia) ltac:(lia) ltac:(lra))
    as (v' & w2 & C1 & C2 & C3).
  { intro k. fold p. destruct (Nat.lt_ge_cases k (length v)) as [Lk|Lk].
    - eapply Rle_trans; [apply L2, Lk|]. unfold two_to. apply Hb.
    - unfold vget. rewrite !nth_overflow by lia. replace (RtoC 0 - RtoC 0)%C with (RtoC 0) by ring. rewrite Cmod_0.
      apply Rmult_le_pos; [lra|]. unfold two_to. left. apply exp_pos. }
  unfold edge_result_gc in B5 |- *. assert (w2 = w') by congruence. subst w2.
  exists v, e, np, v', w'. split; [exact B2|]. split; [exact C1|]. split; [exact B6|].
  intros i Hi. specialize (C3 0%nat i). rewrite Eni in C3. specialize (C3 ltac:(cbn; lia) Hi).
  change (offset [sec_g c] 0) with 0%nat in C3. rewrite !Nat.add_0_l in C3. lra.
Qed.
