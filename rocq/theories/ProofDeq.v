(** Integrals of the edges of a superelliptic curve by the double exponential rule. *)
From Coq Require Import Reals Lra Lia List.
From Coquelicot Require Import Coquelicot.
From Verif Require Import CArg ModelTree ModelCurve ProofCurve ModelPeriod SpecPeriod ProofPeriod ProofPeriodMain ModelVec SpecVec ProofVec ModelQuad SpecQuad ModelCache SpecCache ProofCache SpecInter ModelEdge SpecEdge ProofEdge
  ModelTurn SpecTurn ProofTurn ModelDe SpecDe ModelDeq SpecErr SpecDeq ModelExtra SpecExtra ProofQuad ProofTrap ProofExtra ProofDe2 ProofErr3 ProofErr4 ProofErr5 ProofErr6
  ProofHol7 ProofHol10 ProofHol11.
Import ListNotations.
Local Open Scope R_scope.

(** ** Positions in the list of differentials *)
Definition in_block (ni : list Z) (q i : nat) : Prop := (q < length ni)%nat /\ (Z.of_nat i < nth q ni 0)%Z.
Lemma offset_split ni : forall pos, (pos < total ni)%nat -> exists q i, in_block ni q i /\ pos = (offset ni q + i)%nat.
Proof.
  induction ni as [|n ni IH]; intros pos H; cbn [total] in H; [lia|].
  destruct (Nat.lt_ge_cases pos (Z.to_nat n)) as [L|L].
  - exists 0%nat, pos. split; [split; cbn; lia|reflexivity].
  - destruct (IH (pos - Z.to_nat n)%nat ltac:(lia)) as (q & i & (H1 & H2) & E). exists (S q), i. split; [split; cbn; [lia|exact H2]|]. cbn [offset]. lia.
Qed.
Lemma offset_inj ni : forall q i q' i', in_block ni q i -> in_block ni q' i' -> (offset ni q + i = offset ni q' + i')%nat -> q = q' /\ i = i'.
Proof.
  induction ni as [|n ni IH]; intros q i q' i' [H1 H2] [H3 H4] E; cbn [length] in *; [lia|].
  destruct q as [|q], q' as [|q']; cbn [offset nth] in *; try lia.
  destruct (IH q i q' i') as [-> ->]; [split; [lia|exact H2]|split; [lia|exact H4]|lia|easy].
Qed.
Lemma block_total ni q i : in_block ni q i -> (offset ni q + i < total ni)%nat.
Proof. intros [H1 H2]. now apply offset_total. Qed.
Lemma blocks_choice ni (P : nat -> nat -> C -> Prop) : (forall q i, in_block ni q i -> exists I, P q i I) ->
  exists w, length w = total ni /\ forall q i, in_block ni q i -> P q i (vget w (offset ni q + i)).
Proof.
  intro H. destruct (finite_choice (total ni) (fun pos I => forall q i, in_block ni q i -> pos = (offset ni q + i)%nat -> P q i I)) as (w & HL & Hw).
  - intros pos Hp. destruct (offset_split ni pos Hp) as (q & i & Hb & E). destruct (H q i Hb) as (I & HI). exists I.
    intros q' i' Hb' E'. destruct (offset_inj ni q i q' i' Hb Hb' ltac:(lia)) as [<- <-]. exact HI.
  - exists w. split; [exact HL|]. intros q i Hb. apply (Hw _ (block_total ni q i Hb)); [exact Hb|reflexivity].
Qed.
Lemma bound_choice n (P : nat -> R -> Prop) : (forall l K K', (l < n)%nat -> K <= K' -> P l K -> P l K') ->
  (forall l, (l < n)%nat -> exists K, 0 <= K /\ P l K) -> exists K, 0 <= K /\ forall l, (l < n)%nat -> P l K.
Proof.
  intros Mo H. induction n as [|n IH].
  - exists 0. split; [lra|]. intros l Hl. lia.
  - destruct IH as (K & HK & HP); [intros; eapply Mo; eauto|intros; apply H; lia|]. destruct (H n ltac:(lia)) as (K' & HK' & HP').
    exists (Rmax K K'). split; [eapply Rle_trans; [exact HK|apply Rmax_l]|]. intros l Hl. destruct (Nat.eq_dec l n) as [->|E].
    + apply (Mo n K'); [lia|apply Rmax_r|exact HP'].
    + apply (Mo l K); [lia|apply Rmax_l|apply HP; lia].
Qed.
Lemma blocks_bound ni (P : nat -> nat -> R -> Prop) : (forall q i K K', in_block ni q i -> K <= K' -> P q i K -> P q i K') ->
  (forall q i, in_block ni q i -> exists K, 0 <= K /\ P q i K) -> exists K, 0 <= K /\ forall q i, in_block ni q i -> P q i K.
Proof.
  intros Mo H. destruct (bound_choice (total ni) (fun pos K => forall q i, in_block ni q i -> pos = (offset ni q + i)%nat -> P q i K)) as (K & HK & HP).
  - intros l K K' _ HK HP q i Hb E. apply (Mo q i K); [exact Hb|exact HK|now apply HP].
  - intros pos Hp. destruct (offset_split ni pos Hp) as (q & i & Hb & E). destruct (H q i Hb) as (K & HK & HI). exists K. split; [exact HK|].
    intros q' i' Hb' E'. destruct (offset_inj ni q i q' i' Hb Hb' ltac:(lia)) as [<- <-]. exact HI.
  - exists K. split; [exact HK|]. intros q i Hb. apply (HP _ (block_total ni q i Hb)); [exact Hb|reflexivity].
Qed.

(** ** The sum with the selected evaluation of roots *)
Lemma de_nodes_run_same root y c : forall nds l res,
  (forall nd, In nd nds -> root (de_x nd) = Done (y (de_x nd)) /\ root (- de_x nd) = Done (y (- de_x nd))) ->
  de_nodes_run root c l nds res = de_nodes y c l nds res.
Proof.
  induction nds as [|nd nds IH]; intros l res H; cbn [de_nodes_run de_nodes]; [reflexivity|].
  destruct (H nd (or_introl eq_refl)) as [E1 E2]. rewrite E1. cbn [bind]. destruct (de_start (y (de_x nd)) c nd) as [y1 wy].
  destruct (de_blocks add_geom _ _ _ _ _ _ _) as [r| | |]; cbn [bind]; try reflexivity.
  rewrite E2. cbn [bind]. destruct (l =? 0)%nat; cbn [bind].
  - apply IH. intros z Hz. apply H. now right.
  - destruct (de_start (y (- de_x nd)) c nd) as [y2 wy2]. destruct (de_blocks sub_geom _ _ _ _ _ _ _) as [r'| | |]; cbn [bind]; try reflexivity.
    apply IH. intros z Hz. apply H. now right.
Qed.
Lemma node_open h l m k : -1 < de_x (de_int_node h l m k) < 1.
Proof.
  unfold de_int_node. destruct (k =? 0)%nat; cbn [de_x]; [lra|]. set (s := sinh (h * INR k) * l).
  assert (H := ProofDe2.cosh_pos s). unfold sinh, cosh in *. assert (E1 := exp_pos s). assert (E2 := exp_pos (- s)).
  split; [apply Rlt_div_r|apply Rlt_div_l]; lra.
Qed.
Lemma run_same rdef rprod rturn prec u d1 c y h l N : 
  (forall t, -1 < t < 1 -> de_root rdef rprod rturn prec (sec_m c) u d1 (length u) t = Done (y t)) ->
  de_integrals_run rdef rprod rturn prec u d1 (length u) c (de_int_init h l N (sec_m c)) = de_integrals_precomp y c (de_int_init h l N (sec_m c)).
Proof.
  intro H. unfold de_integrals_run, de_integrals_precomp. rewrite (de_nodes_run_same _ y); [reflexivity|].
  intros nd Hn. unfold de_int_init in Hn. cbn [fst] in Hn. apply in_map_iff in Hn. destruct Hn as (k & <- & _).
  assert (O := node_open h l (sec_m c) k). split; apply H; lra.
Qed.
Lemma de_root_safe rdef rprod rturn prec m u d1 t : (1 <= m)%Z -> u <> [] -> safe_roots rdef rprod rturn prec u d1 ->
  (forall p, In p u -> forall t, -1 <= t <= 1 -> p <> RtoC t) -> -1 < t < 1 ->
  de_root rdef rprod rturn prec m u d1 (length u) t = Done (y_tilde m u d1 (RtoC t)).
Proof.
  intros Hm Hu Hs Hp Ht. rewrite <- root_pol_tilde, edge_def_same.
  assert (HL : (0 < length u)%nat) by (destruct u; [easy|cbn; lia]).
  assert (Hz : forall z, In z (factors u d1 (length u) t) -> z <> RtoC 0).
  { intros z Hz. unfold factors in Hz. apply in_map_iff in Hz. destruct Hz as (k & E & Hk). apply in_seq in Hk.
    assert (Hin : In (nth k u (RtoC 0)) u) by (apply nth_In; lia). assert (K := Hp _ Hin t ltac:(lra)). intro E0. apply K. subst z.
    destruct (k <? d1)%nat.
    - transitivity ((nth k u (RtoC 0) - RtoC t) + RtoC t)%C; [ring|]. rewrite E0. ring.
    - transitivity (RtoC t - (RtoC t - nth k u (RtoC 0)))%C; [ring|]. rewrite E0. ring. }
  assert (P1 : pol_prod m u d1 (length u) t = Done (roots_product m (factors u d1 (length u) t))) by (apply pol_prod_ok; [lia|lia|exact Hz]).
  destruct Hs as [->|[->|[[-> Hs]|Hs]]].
  - unfold de_root. apply pol_def_ok. lia.
  - unfold de_root. destruct rdef; [apply pol_def_ok; lia|exact P1].
  - unfold de_root. destruct rdef; [apply pol_def_ok; lia|]. destruct rprod; [exact P1|].
    destruct ((1000 <? prec)%Z && (5 <? length u)%nat) eqn:E; [|exact P1]. apply andb_prop in E. destruct E as [E1 E2].
    apply Z.ltb_lt in E1. apply Nat.ltb_lt in E2. lia.
  - apply de_root_ok; [lia|lia|exact Hz|apply Hs; exact Ht].
Qed.

(** ** Parameters *)
Lemma params_done rk m prec r : (1 < m)%Z -> choose_r rk = Done r -> de_params_d rk m prec = Done (r, p_h r m prec, p_n r m prec).
Proof.
  intros Hm Hr. destruct (de_params_d rk m prec) as [[[r' h] n]| | |] eqn:E.
  - destruct (de_params_d_eq rk m prec r' h n Hm E) as (E1 & E2 & E3). assert (r' = r) by congruence. subst r'. rewrite E3, E2. reflexivity.
  - unfold de_params_d in E. rewrite Hr in E. discriminate E.
  - unfold de_params_d in E. rewrite Hr in E. discriminate E.
  - unfold de_params_d in E. rewrite Hr in E. discriminate E.
Qed.
Lemma rate_pos m j p : 0 < de_rate m j p.
Proof. unfold de_rate, Rpower; apply exp_pos. Qed.

(** ** One edge *)
Lemma y_neq_m m u n1 t : (1 <= m)%Z -> (forall p, In p u -> (p - RtoC t)%C <> RtoC 0 /\ (RtoC t - p)%C <> RtoC 0) ->
  y_tilde m u n1 (RtoC t) <> RtoC 0.
Proof.
  intros Hm Hz.
  assert (Hr : forall z, z <> RtoC 0 -> croot m z <> RtoC 0).
  { intros z H E. apply (f_equal (fun q => cpow q (Z.to_nat m))) in E. replace m with (Z.of_nat (Z.to_nat m)) in E by lia.
    rewrite Nat2Z.id, croot_pow in E by lia. destruct (Z.to_nat m) eqn:En; [lia|]. rewrite cpow_S, Cmult_0_l in E. now apply H. }
  unfold y_tilde. apply Cmult_neq_0'; apply cprod_neq_0; intros p Hp; apply Hr; apply Hz.
  - rewrite <- (firstn_skipn n1 u). apply in_or_app. now left.
  - rewrite <- (firstn_skipn n1 u). apply in_or_app. now right.
Qed.
Section Edge.
Context (nonpos neg : C -> bool) (x : list C) (a b : nat) (m : nat) (c : sec) (ye : ydata).
Let M := Z.of_nat m.
Hypothesis Hc : sec_init M (Z.of_nat (length x)) = Done c.
Hypothesis Hn : (3 <= length x)%nat.
Hypothesis Ha : (a < length x)%nat.
Hypothesis Hb : (b < length x)%nat.
Hypothesis Hab : vget x a <> vget x b.
Hypothesis Hye : ydata_init_edge nonpos neg x a b M = Done ye.
Hypothesis Hfree : forall p, In p (y_u ye) -> forall t, -1 <= t <= 1 -> p <> RtoC t.
Let xa := vget x a.
Let xb := vget x b.
Let u := y_u ye.
Let yt (t : R) : C := y_tilde M u (y_n1 ye) (RtoC t).
Definition sheet (t : R) : C := (y_c ye * RtoC (rroot M (1 - t * t)) * yt t)%C.

Lemma m_ge_2 : (2 <= M)%Z.
Proof using All. destruct (sec_init_inv M (Z.of_nat (length x)) c Hc ltac:(lia)) as (H & _). exact H. Qed.
Lemma block_j q i : in_block (sec_ni c) q i -> (1 <= sec_j1 c + Z.of_nat q < M)%Z.
Proof using All.
  intros [H1 H2]. assert (J := sec_init_j1 M _ c Hc ltac:(lia)). destruct (differentials_count_final M _ c Hc ltac:(lia)) as [_ L]. lia.
Qed.
Lemma g_total : Z.of_nat (total (sec_ni c)) = sec_g c.
Proof using All.
  destruct (sec_init_curve_ok M _ c Hc ltac:(lia)) as ((_ & _ & Hni & Hsum) & _ & _). rewrite total_sum by exact Hni. exact Hsum.
Qed.
Lemma fields : length u = (length x - 2)%nat /\ y_ba2 ye = ((xb - xa) / RtoC 2)%C /\ y_ab ye = ((xa + xb) / (xb - xa))%C /\ y_c ye <> RtoC 0.
Proof using All.
  assert (H2 := m_ge_2).
  destruct (init_spec nonpos neg x a b m Ha Hb Hab ltac:(unfold M in H2; lia)) as (y & E & HP & _ & _ & _ & E1 & E2 & _ & Hc0 & _).
  assert (y = ye) by (fold M in E; congruence). subst y.
  assert (a <> b) by (intros E'; apply Hab; now rewrite E').
  split; [|split; [exact E1|split; [exact E2|exact Hc0]]].
  apply Permutation_length in HP. rewrite map_length in HP. pose proof (other_points_length (length x) a b). unfold u. lia.
Qed.
Lemma sheet_ok : branch_over m x xa xb (y_ya ye) (y_yb ye) sheet.
Proof using All.
  assert (H2 := m_ge_2).
  destruct (init_spec nonpos neg x a b m Ha Hb Hab ltac:(unfold M in H2; lia)) as (y & E & _ & _ & _ & _ & _ & _ & _ & _ & Eya & Eyb).
  assert (y = ye) by (fold M in E; congruence). subst y.
  exists (fun t => y_c ye * yt t)%C. split; [rewrite Eya; unfold yt, u; fold M; ring|]. split; [rewrite Eyb; unfold yt, u; fold M; ring|]. split.
  - intros t _. apply (ccont_mult (fun _ => y_c ye) yt); [apply ccont_const|apply y_cont_m; lia].
  - intros t Ht. split; [unfold sheet; fold M; ring|].
    assert (Eq := curve_equation nonpos neg x a b m Ha Hb Hab ltac:(unfold M in H2; lia) ye (RtoC t) Hye). fold xa xb in Eq. rewrite Eq. fold M u (yt t).
    assert (E1 : cpow (RtoC (rroot M (1 - t * t))) m = (RtoC 1 - RtoC t * RtoC t)%C).
    { rewrite cpow_RtoC. unfold M. rewrite CArg.rroot_pow; [|unfold M in H2; lia|assert (K := Rmult_le_pos (1 - t) (1 + t) ltac:(lra) ltac:(lra)); lra]. now rewrite RtoC_minus, RtoC_mult. }
    rewrite <- E1. unfold sheet. rewrite !cpow_mul. ring.
Qed.
Lemma yt_neq t : -1 < t < 1 -> yt t <> RtoC 0.
Proof using All.
  intro Ht. assert (H2 := m_ge_2).
  assert (Hz : forall p, In p u -> (p - RtoC t)%C <> RtoC 0 /\ (RtoC t - p)%C <> RtoC 0).
  { intros p Hp. assert (K := Hfree p Hp t ltac:(lra)). split; intro E0; apply K.
    - transitivity ((p - RtoC t) + RtoC t)%C; [ring|]. rewrite E0. ring.
    - transitivity (RtoC t - (RtoC t - p))%C; [ring|]. rewrite E0. ring. }
  unfold yt. apply y_neq_m; [lia|exact Hz].
Qed.

(** moments to integrals over the cycle *)
Lemma edge_cycle w : length w = Z.to_nat (sec_g c) ->
  (forall q i, in_block (sec_ni c) q i ->
     is_int (SpecQuad.integrand M yt (Z.to_nat (sec_j1 c + Z.of_nat q)) i) (vget w (offset (sec_ni c) q + i))) ->
  exists w', integrals_edge_factors w (y_ba2 ye) (y_ab ye) (y_c ye) c = Done w' /\ length w' = length w /\
    cycle_integrals m c x xa xb (y_ya ye) (y_yb ye) w'.
Proof using All.
  intros Hw HI. assert (H2 := m_ge_2). destruct fields as (_ & Eba & Eab & Hc0).
  assert (Hgt := g_total).
  destruct (edge_factors_vec M _ c w (y_ba2 ye) (y_ab ye) (y_c ye) Hc ltac:(lia) ltac:(lia)) as (w' & Ew & HL & G).
  exists w'. split; [exact Ew|]. split; [exact HL|]. exists sheet. split; [exact sheet_ok|]. intros q i Hq Hi.
  set (j := Z.to_nat (sec_j1 c + Z.of_nat q)). destruct (block_j q i (conj Hq Hi)) as [J1 J2].
  specialize (G q i Hq Hi). fold j in G.
  assert (Hba : (xb - xa)%C <> RtoC 0).
  { intro E0. apply Hab. fold xa xb. transitivity (xb - (xb - xa))%C; [ring|]. rewrite E0. ring. }
  assert (N2 : RtoC 2 <> RtoC 0) by (intro E0; injection E0; lra).
  assert (Hcj : cpow (y_c ye) j <> RtoC 0) by now apply cpow_neq_0.
  set (k := (y_ba2 ye * cpow (y_ba2 ye) i / cpow (y_c ye) j)%C).
  set (S0 := csum (S i) (fun l => NC (binom i l) * cpow (y_ab ye) (i - l) * vget w (offset (sec_ni c) q + l)%nat)%C) in *.
  assert (HS : is_int (fun t => k * csum (S i) (fun l => NC (binom i l) * cpow (y_ab ye) (i - l) * SpecQuad.integrand M yt j l t))%C (k * S0)%C).
  { apply is_int_scal, (is_int_csum i (fun l => NC (binom i l) * cpow (y_ab ye) (i - l))%C (SpecQuad.integrand M yt j) (fun l => vget w (offset (sec_ni c) q + l)%nat)).
    intros l Hl. apply HI. split; [exact Hq|lia]. }
  assert (Hpt : forall t, -1 < t < 1 -> (k * csum (S i) (fun l => NC (binom i l) * cpow (y_ab ye) (i - l) * SpecQuad.integrand M yt j l t))%C
     = ((xb - xa) / RtoC 2 * (cpow (edge_point xa xb (RtoC t)) i / cpow (sheet t) j))%C).
  { intros t Ht.
    assert (Hs : 0 < rroot M (1 - t * t)) by (apply rroot_pos; nra).
    assert (Hs0 : cpow (RtoC (rroot M (1 - t * t))) j <> RtoC 0) by (apply cpow_neq_0; intro E0; injection E0; lra).
    assert (Hy0 : cpow (yt t) j <> RtoC 0) by (apply cpow_neq_0, yt_neq; lra).
    assert (E1 : edge_point xa xb (RtoC t) = (y_ba2 ye * (RtoC t + y_ab ye))%C).
    { unfold edge_point. rewrite Eba, Eab. field. split; assumption. }
    rewrite E1, cpow_mul, binomial_formula.
    rewrite (csum_ext (S i) (fun l => NC (binom i l) * cpow (y_ab ye) (i - l) * SpecQuad.integrand M yt j l t)%C
      (fun l => (NC (binom i l) * cpow (y_ab ye) (i - l) * cpow (RtoC t) l) * / (cpow (RtoC (rroot M (1 - t * t)) * yt t) j))%C).
    2:{ intros l _. unfold SpecQuad.integrand. unfold Cdiv. ring. }
    rewrite csum_scal_r. unfold k, sheet. fold M. rewrite <- Eba, !cpow_mul. field. repeat split; assumption. }
  exists (k * S0)%C, (root M (- Z.of_nat j) * (k * S0))%C. split; [|split].
  - unfold integral_over. apply (is_int_ext _ _ _ (fun t Ht => Hpt t Ht) HS).
  - unfold integral_over.
    apply (is_int_ext (fun t => root M (- Z.of_nat j) * (k * csum (S i) (fun l => NC (binom i l) * cpow (y_ab ye) (i - l) * SpecQuad.integrand M yt j l t)))%C).
    2: now apply is_int_scal.
    intros t Ht. rewrite (Hpt t Ht). fold M. rewrite cpow_mul, root_pow. rewrite Z.mul_1_r.
    assert (Hsj : cpow (sheet t) j <> RtoC 0).
    { apply cpow_neq_0. unfold sheet. fold M. assert (Hs : 0 < rroot M (1 - t * t)) by (apply rroot_pos; nra).
      apply Cmult_neq_0'; [apply Cmult_neq_0'; [exact Hc0|intro E0; injection E0; lra]|apply yt_neq; lra]. }
    assert (Hr0 : root M (Z.of_nat j) <> RtoC 0) by (intro E0; assert (K := root_mod1 M (Z.of_nat j)); rewrite E0, Cmod_0 in K; lra).
    assert (Er : (root M (- Z.of_nat j) * root M (Z.of_nat j))%C = RtoC 1) by (rewrite <- root_add; replace (- Z.of_nat j + Z.of_nat j)%Z with 0%Z by lia; apply root_0).
    assert (Ei : root M (- Z.of_nat j) = (/ root M (Z.of_nat j))%C).
    { transitivity (root M (- Z.of_nat j) * root M (Z.of_nat j) * / root M (Z.of_nat j))%C; [field; exact Hr0|]. rewrite Er. ring. }
    rewrite Ei. field. repeat split; assumption.
  - rewrite G. fold S0. replace (- (sec_j1 c + Z.of_nat q))%Z with (- Z.of_nat j)%Z by (unfold j; lia). unfold k. field. exact Hcj.
Qed.

(** errors go through the factors of the edge *)
Lemma edge_linear : exists B, 0 <= B /\ forall v w v' w' (e : nat -> R),
  length v = Z.to_nat (sec_g c) -> length w = Z.to_nat (sec_g c) ->
  integrals_edge_factors v (y_ba2 ye) (y_ab ye) (y_c ye) c = Done v' -> integrals_edge_factors w (y_ba2 ye) (y_ab ye) (y_c ye) c = Done w' ->
  (forall q, 0 <= e q) -> (forall q i, in_block (sec_ni c) q i -> Cmod (vget v (offset (sec_ni c) q + i) - vget w (offset (sec_ni c) q + i))%C <= e q) ->
  forall q i, in_block (sec_ni c) q i -> Cmod (vget v' (offset (sec_ni c) q + i) - vget w' (offset (sec_ni c) q + i))%C <= B * e q.
Proof using All.
  set (ni := sec_ni c).
  destruct (blocks_bound ni (fun q i B => forall v w v' w' (e : nat -> R),
    length v = Z.to_nat (sec_g c) -> length w = Z.to_nat (sec_g c) ->
    integrals_edge_factors v (y_ba2 ye) (y_ab ye) (y_c ye) c = Done v' -> integrals_edge_factors w (y_ba2 ye) (y_ab ye) (y_c ye) c = Done w' ->
    (forall q, 0 <= e q) -> (forall q i, in_block ni q i -> Cmod (vget v (offset ni q + i) - vget w (offset ni q + i))%C <= e q) ->
    Cmod (vget v' (offset ni q + i) - vget w' (offset ni q + i))%C <= B * e q)) as (B & HB & H).
  - intros q i K K' _ HK HP v w v' w' e H1 H2 H3 H4 H5 H6. eapply Rle_trans; [apply (HP v w v' w' e); assumption|].
    apply Rmult_le_compat_r; [apply H5|exact HK].
  - intros q i [Hq Hi]. assert (Hgt := g_total).
    set (j := (sec_j1 c + Z.of_nat q)%Z). set (F := (y_ba2 ye * cpow (y_ba2 ye) i * ((RtoC 1 - root M (- j)) / cpow (y_c ye) (Z.to_nat j)))%C).
    destruct (finite_max (fun l => Cmod (NC (binom i l) * cpow (y_ab ye) (i - l))%C) (S i)) as (K & HK & HP).
    exists (INR (S i) * K * Cmod F). split.
    { apply Rmult_le_pos; [apply Rmult_le_pos; [apply pos_INR|exact HK]|apply Cmod_ge_0]. }
    intros v w v' w' e H1 H2 H3 H4 H5 H6.
    destruct (edge_factors_vec M _ c v (y_ba2 ye) (y_ab ye) (y_c ye) Hc ltac:(lia) ltac:(lia)) as (v'' & Ev & _ & Gv).
    assert (v'' = v') by congruence. subst v''.
    destruct (edge_factors_vec M _ c w (y_ba2 ye) (y_ab ye) (y_c ye) Hc ltac:(lia) ltac:(lia)) as (w'' & Ew & _ & Gw).
    assert (w'' = w') by congruence. subst w''.
    fold ni in Gv, Gw. rewrite (Gv q i Hq Hi), (Gw q i Hq Hi). fold j.
    match goal with |- Cmod (?p * ?b * ?z - ?p' * ?b * ?z)%C <= _ =>
      replace (p * b * z - p' * b * z)%C with ((p - p') * F)%C by (unfold F; ring) end.
    rewrite Cmod_mult.
    replace (INR (S i) * K * Cmod F * e q) with (INR (S i) * (K * e q) * Cmod F) by ring.
    apply Rmult_le_compat_r; [apply Cmod_ge_0|].
    assert (E : (csum (S i) (fun l => NC (binom i l) * cpow (y_ab ye) (i - l) * vget v (offset ni q + l)%nat)
      - csum (S i) (fun l => NC (binom i l) * cpow (y_ab ye) (i - l) * vget w (offset ni q + l)%nat))%C
      = csum (S i) (fun l => (NC (binom i l) * cpow (y_ab ye) (i - l)) * (vget v (offset ni q + l)%nat - vget w (offset ni q + l)%nat))%C).
    { rewrite (csum_ext (S i) (fun l => (NC (binom i l) * cpow (y_ab ye) (i - l)) * (vget v (offset ni q + l)%nat - vget w (offset ni q + l)%nat))%C
        (fun l => NC (binom i l) * cpow (y_ab ye) (i - l) * vget v (offset ni q + l)%nat + (RtoC (-1)) * (NC (binom i l) * cpow (y_ab ye) (i - l) * vget w (offset ni q + l)%nat))%C).
      - rewrite csum_add, csum_scal, m1. ring.
      - intros l _. rewrite m1. ring. }
    rewrite E. apply csum_bound. intros l Hl. rewrite Cmod_mult.
    apply Rmult_le_compat; [apply Cmod_ge_0|apply Cmod_ge_0|apply HP; exact Hl|apply H6; split; [exact Hq|lia]].
  - exists B. split; [exact HB|]. intros v w v' w' e H1 H2 H3 H4 H5 H6 q i Hb'. apply (H q i Hb' v w v' w' e); assumption.
Qed.
Definition row_with (rdef rprod rturn : bool) (prec : Z) (s : de_store) : outcome vec :=
  do v <- de_integrals_run rdef rprod rturn prec (y_u ye) (y_n1 ye) (Z.to_nat (sec_n c - 2)) c
            (de_int_init (st_h s) (PI / 2) (Z.to_nat (st_n s)) (sec_m c));
  integrals_edge_factors v (y_ba2 ye) (y_ab ye) (y_c ye) c.
Definition store_of (r : R) (prec : Z) : de_store := {| st_n := p_n r M prec; st_h := p_h r M prec |}.

Theorem edge_de : exists r1 w', choose_r (map de_tau u) = Done r1 /\ length w' = Z.to_nat (sec_g c) /\
  cycle_integrals m c x xa xb (y_ya ye) (y_yb ye) w' /\
  forall r, 0 < r <= r1 -> exists K, 0 <= K /\ forall rdef rprod rturn prec, (0 <= prec)%Z -> safe_roots rdef rprod rturn prec u (y_n1 ye) ->
    exists v', row_with rdef rprod rturn prec (store_of r prec) = Done v' /\ length v' = Z.to_nat (sec_g c) /\
      forall q i, in_block (sec_ni c) q i ->
        Cmod (vget v' (offset (sec_ni c) q + i) - vget w' (offset (sec_ni c) q + i))%C <= K * de_rate M (sec_j1 c + Z.of_nat q) prec.
Proof using All.
  assert (H2 := m_ge_2). assert (Hgt := g_total). destruct fields as (Hlu & _).
  destruct (tau_points u Hfree) as (Hpts & r1 & Hr1).
  assert (Hu : u <> []) by (intro E; rewrite E in Hlu; cbn in Hlu; lia).
  destruct (choose_r_scaled _ _ Hr1) as ((Hr0 & _) & _).
  destruct (blocks_choice (sec_ni c) (fun q i I => is_int (SpecQuad.integrand M yt (Z.to_nat (sec_j1 c + Z.of_nat q)) i) I)) as (w & HLw & Hw).
  { intros q i Hbk. destruct (block_j q i Hbk) as [J1 J2].
    destruct (de_single u (map de_tau u) r1 r1 M (y_n1 ye) (Z.to_nat (sec_j1 c + Z.of_nat q)) i Hr1 Hpts ltac:(lra) ltac:(lia)) as (K & I & _ & HI & _).
    exists I. exact HI. }
  assert (HLw' : length w = Z.to_nat (sec_g c)) by lia.
  destruct (edge_cycle w HLw' Hw) as (w' & Ew & HL' & Hcy).
  exists r1, w'. split; [exact Hr1|]. split; [lia|]. split; [exact Hcy|]. intros r Hr.
  destruct edge_linear as (B & HB & HBl).
  destruct (blocks_bound (sec_ni c) (fun q i K => forall prec, (0 <= prec)%Z ->
     Cmod (de_rule (PI / 2) (p_h r M prec) (Z.to_nat (p_n r M prec) - 1) (SpecQuad.integrand M yt (Z.to_nat (sec_j1 c + Z.of_nat q)) i) - vget w (offset (sec_ni c) q + i))%C
       <= K * de_rate M (sec_j1 c + Z.of_nat q) prec)) as (K & HK & HKl).
  { intros q i K K' _ HKK HP prec Hp. eapply Rle_trans; [apply HP, Hp|]. apply Rmult_le_compat_r; [left; apply rate_pos|exact HKK]. }
  { intros q i Hbk. destruct (block_j q i Hbk) as [J1 J2].
    destruct (de_single u (map de_tau u) r1 r M (y_n1 ye) (Z.to_nat (sec_j1 c + Z.of_nat q)) i Hr1 Hpts ltac:(lra) ltac:(lia)) as (K & I & HK & HI & HE).
    exists K. split; [exact HK|]. intros prec Hp. rewrite (is_int_unique _ _ _ (Hw q i Hbk) HI). rewrite Z2Nat.id in HE by lia. apply HE, Hp. }
  exists (B * K). split; [now apply Rmult_le_pos|]. intros rdef rprod rturn prec Hp Hs.
  destruct (sec_init_curve_ok M _ c Hc ltac:(lia)) as (_ & Em & Hgg).
  assert (En : (sec_n c) = Z.of_nat (length x)) by apply (sec_init_fields M _ c Hc).
  destruct (choose_r_scaled _ _ Hr1) as ((_ & Hr2) & _).
  assert (Hpn : (1 <= p_n r M prec)%Z) by (assert (K0 := p_n_pos r M ltac:(assert (K1 := PI2_3_2); lra) ltac:(lia) prec Hp); lia).
  destruct (de_sums M _ c (p_h r M prec) (PI / 2) (Z.to_nat (p_n r M prec)) yt Hc ltac:(lia) ltac:(lia) yt_neq) as (v & Ev & HLv & Hv).
  destruct (edge_factors_vec M _ c v (y_ba2 ye) (y_ab ye) (y_c ye) Hc ltac:(lia) HLv) as (v' & Ev' & HLv' & _).
  exists v'. split; [|split; [lia|]].
  - unfold row_with, store_of. cbn [st_n st_h]. replace (Z.to_nat (sec_n c - 2)) with (length (y_u ye)) by (unfold u in Hlu; lia).
    rewrite (run_same rdef rprod rturn prec (y_u ye) (y_n1 ye) c yt).
    + rewrite Em. fold M in Ev. rewrite Ev. exact Ev'.
    + intros t Ht. rewrite Em. apply de_root_safe; [lia|exact Hu|exact Hs|exact Hfree|exact Ht].
  - intros q i Hbk. rewrite Rmult_assoc. apply (HBl v w v' w' (fun q => K * de_rate M (sec_j1 c + Z.of_nat q) prec)); [lia|lia|exact Ev'|exact Ew| | |exact Hbk].
    + intro q'. apply Rmult_le_pos; [exact HK|left; apply rate_pos].
    + intros q' i' [Hq' Hi']. rewrite (Hv q' i' Hq' Hi'). apply HKl; [split; assumption|exact Hp].
Qed.
End Edge.
