(** Lemmas for C107 and C108. *)
From Coquelicot Require Import Coquelicot.
From Verif Require Import CArg ModelTree ModelEdge ModelGpGc ModelGpDe SpecMaRoot SpecGpDe ProofEdge ProofErr3 ProofHol11 SpecEdge ProofGpGc.
Local Open Scope R_scope.

(** ** the map *)
Definition wt (l s : R) : R := cosh s / cosh (l * sinh s).
Lemma cosh_pos x : 0 < cosh x.
Proof. unfold cosh. pose proof (exp_pos x). pose proof (exp_pos (- x)). lra. Qed.
Lemma cosh2 x : cosh x * cosh x - sinh x * sinh x = 1.
Proof. unfold cosh, sinh. assert (exp x * exp (- x) = 1) by (rewrite <- exp_plus, Rplus_opp_r; apply exp_0). nra. Qed.
Lemma phi_derive l s : Derive (phi l) s = l * cosh s / (cosh (l * sinh s) * cosh (l * sinh s)).
Proof.
  apply is_derive_unique. unfold phi, tanh.
  assert (D0 : is_derive (fun s => l * sinh s) s (l * cosh s)).
  { apply (is_derive_scal sinh s l). apply is_derive_Reals, derivable_pt_lim_sinh. }
  assert (D1 : is_derive (fun s => sinh (l * sinh s)) s (l * cosh s * cosh (l * sinh s))).
  { apply (is_derive_comp sinh (fun s => l * sinh s)); [apply is_derive_Reals, derivable_pt_lim_sinh|exact D0]. }
  assert (D2 : is_derive (fun s => cosh (l * sinh s)) s (l * cosh s * sinh (l * sinh s))).
  { apply (is_derive_comp cosh (fun s => l * sinh s)); [apply is_derive_Reals, derivable_pt_lim_cosh|exact D0]. }
  pose proof (cosh_pos (l * sinh s)) as P.
  pose proof (is_derive_div _ _ s _ _ D1 D2 ltac:(lra)) as D.
  replace (l * cosh s / (cosh (l * sinh s) * cosh (l * sinh s))) with
    ((l * cosh s * cosh (l * sinh s) * cosh (l * sinh s) - sinh (l * sinh s) * (l * cosh s * sinh (l * sinh s))) / cosh (l * sinh s) ^ 2); [exact D|].
  replace (l * cosh s * cosh (l * sinh s) * cosh (l * sinh s) - sinh (l * sinh s) * (l * cosh s * sinh (l * sinh s)))
    with (l * cosh s * (cosh (l * sinh s) * cosh (l * sinh s) - sinh (l * sinh s) * sinh (l * sinh s))) by ring.
  rewrite cosh2. field. lra.
Qed.
Lemma phi_one l s : 1 - phi l s * phi l s = / (cosh (l * sinh s) * cosh (l * sinh s)).
Proof.
  unfold phi, tanh. pose proof (cosh_pos (l * sinh s)). apply (Rmult_eq_reg_r (cosh (l * sinh s) * cosh (l * sinh s))); [|nra].
  rewrite Rinv_l by nra. replace ((1 - sinh (l * sinh s) / cosh (l * sinh s) * (sinh (l * sinh s) / cosh (l * sinh s))) * (cosh (l * sinh s) * cosh (l * sinh s)))
    with (cosh (l * sinh s) * cosh (l * sinh s) - sinh (l * sinh s) * sinh (l * sinh s)) by (field; lra). apply cosh2.
Qed.
Lemma phi_range l s : -1 < phi l s < 1.
Proof.
  pose proof (phi_one l s) as E. pose proof (cosh_pos (l * sinh s)).
  assert (0 < / (cosh (l * sinh s) * cosh (l * sinh s))) by (apply Rinv_0_lt_compat; nra). nra.
Qed.
Lemma phi_sqrt l s : sqrt (1 - phi l s * phi l s) = / cosh (l * sinh s).
Proof.
  rewrite phi_one. pose proof (cosh_pos (l * sinh s)). rewrite Rinv_mult. apply sqrt_square. apply Rlt_le, Rinv_0_lt_compat. assumption.
Qed.
(** derivative = l * weight * sqrt(1 - phi^2) *)
Lemma phi_weight l s : Derive (phi l) s = l * wt l s * sqrt (1 - phi l s * phi l s).
Proof. rewrite phi_derive, phi_sqrt. unfold wt. pose proof (cosh_pos (l * sinh s)). field. lra. Qed.
Lemma sinh_opp s : sinh (- s) = - sinh s.
Proof. unfold sinh. rewrite Ropp_involutive. lra. Qed.
Lemma cosh_opp s : cosh (- s) = cosh s.
Proof. unfold cosh. rewrite Ropp_involutive. lra. Qed.
Lemma phi_opp l s : phi l (- s) = - phi l s.
Proof.
  unfold phi, tanh. rewrite sinh_opp. replace (l * - sinh s) with (- (l * sinh s)) by ring. rewrite sinh_opp, cosh_opp. pose proof (cosh_pos (l * sinh s)). field. lra.
Qed.
Lemma wt_opp l s : wt l (- s) = wt l s.
Proof. unfold wt. rewrite sinh_opp, cosh_opp. replace (l * - sinh s) with (- (l * sinh s)) by ring. now rewrite cosh_opp. Qed.
Lemma phi_0 l : phi l 0 = 0.
Proof. unfold phi, tanh. rewrite sinh_0, Rmult_0_r, sinh_0. unfold Rdiv. ring. Qed.
Lemma wt_0 l : wt l 0 = 1.
Proof. unfold wt. rewrite sinh_0, Rmult_0_r, !cosh_0. field. Qed.

Lemma thsh_ok h l todo : forall k, thsh_loop todo (exp h) (1 / exp h) l (exp (INR k * h)) (exp (- (INR k * h))) =
  map (fun i => (phi l (INR (S i) * h), wt l (INR (S i) * h))) (seq k todo).
Proof.
  induction todo as [|todo IH]; intros k; [reflexivity|]. cbn [thsh_loop seq map].
  assert (E1 : exp (INR k * h) * exp h = exp (INR (S k) * h)) by (rewrite <- exp_plus; f_equal; rewrite S_INR; ring).
  assert (E2 : exp (- (INR k * h)) * (1 / exp h) = exp (- (INR (S k) * h))).
  { unfold Rdiv. rewrite Rmult_1_l, <- exp_Ropp, <- exp_plus. f_equal. rewrite S_INR. ring. }
  rewrite E1, E2, IH. f_equal. set (s := INR (S k) * h).
  change ((exp s - exp (- s)) / 2) with (sinh s). set (w := l * sinh s).
  assert (E3 : 1 / exp w = exp (- w)) by (unfold Rdiv; rewrite Rmult_1_l, exp_Ropp; reflexivity). rewrite E3.
  assert (P : 0 < exp w + exp (- w)) by (pose proof (exp_pos w); pose proof (exp_pos (- w)); lra).
  unfold phi, wt, tanh. fold w. unfold sinh, cosh. f_equal; field; lra.
Qed.
Lemma points_ok h l N : integration_points_thsh h N l = (h * l, map (fun i => (phi l (INR (S i) * h), wt l (INR (S i) * h))) (seq 0 N)).
Proof.
  unfold integration_points_thsh. f_equal. rewrite <- thsh_ok. cbn [INR]. rewrite Rmult_0_l, Ropp_0, exp_0. reflexivity.
Qed.

(** ** the sums *)
Lemma add_two_length res : forall tp tm xp xm, length (add_two res tp tm xp xm) = length res.
Proof. induction res as [|r res IH]; intros; cbn; [reflexivity|now rewrite IH]. Qed.
Lemma add_two_get res : forall tp tm xp xm j, (j < length res)%nat -> vget (add_two res tp tm xp xm) j = (vget res j + (tp * cpow xp j + tm * cpow xm j))%C.
Proof.
  induction res as [|r res IH]; intros tp tm xp xm j Hj; cbn in Hj; [lia|]. unfold vget. destruct j as [|j]; cbn [add_two nth].
  - cbn. ring.
  - change (nth j (add_two res (tp * xp)%C (tm * xm)%C xp xm) (RtoC 0)) with (vget (add_two res (tp * xp)%C (tm * xm)%C xp xm) j).
    rewrite IH by lia. unfold vget. cbn [cpow]. ring.
Qed.
Lemma geometric_length g : forall t d, length (geometric g t d) = g.
Proof. induction g as [|g IH]; intros; cbn; [reflexivity|now rewrite IH]. Qed.
Lemma geometric_get g : forall t d j, (j < g)%nat -> vget (geometric g t d) j = (t * cpow d j)%C.
Proof.
  induction g as [|g IH]; intros t d j Hj; [lia|]. unfold vget. destruct j as [|j]; cbn [geometric nth]; [cbn; ring|].
  change (nth j (geometric g (t * d)%C d) (RtoC 0)) with (vget (geometric g (t * d)%C d) j). rewrite IH by lia. cbn [cpow]. ring.
Qed.

(** the value of one node *)
Definition node_value (aj : bool) (u : list C) (dp : C) (j : nat) (x dx : R) : C :=
  (RtoC dx / sqrt_affinereduction_gc u (RtoC x) * (if aj then RtoC (sqrt (1 - x)) else RtoC 1) * cpow (dp + RtoC x) j)%C.
Definition off_roots (u : list C) : Prop := forall x, -1 <= x <= 1 -> sqrt_affinereduction_gc u (RtoC x) <> RtoC 0.

Lemma de_loop_ok aj u dp pts : off_roots u -> (forall x dx, In (x, dx) pts -> -1 <= x <= 1) -> forall res,
  exists res', de_loop aj u dp pts res = Done res' /\ length res' = length res /\
    forall j, (j < length res)%nat ->
      vget res' j = (vget res j + fold_right (fun p r => node_value aj u dp j (fst p) (snd p) + node_value aj u dp j (- fst p)%R (snd p) + r) (RtoC 0) pts)%C.
Proof.
  intros O. induction pts as [|[x dx] pts IH]; intros R0 res.
  - exists res. split; [reflexivity|]. split; [reflexivity|]. intros j _. cbn. ring.
  - cbn [de_loop]. assert (X : -1 <= x <= 1) by (apply (R0 x dx); now left).
    destruct (Ceq_dec _ _) as [E|_]; [now apply O in E|]. destruct (Ceq_dec _ _) as [E|_]; [apply O in E; [contradiction|lra]|].
    match goal with |- context [de_loop aj u dp pts ?r] => destruct (IH ltac:(intros y dy Hy; apply (R0 y dy); now right) r) as [res' [E [L V]]] end.
    rewrite add_two_length in L, V. exists res'. split; [exact E|]. split; [exact L|]. intros j Hj. rewrite V, add_two_get by assumption.
    cbn [fold_right fst snd]. rewrite <- !Cplus_assoc. f_equal. unfold node_value.
    replace (dp + RtoC (- x))%C with (dp - RtoC x)%C by (rewrite RtoC_opp; ring). replace (1 - - x)%R with (x + 1)%R by ring.
    destruct aj; ring.
Qed.

Lemma fold_seq (F : nat -> C) N : forall k, fold_right (fun i r => (F i + r)%C) (RtoC 0) (seq k N) = csum N (fun i => F (k + i)%nat).
Proof.
  induction N as [|N IH]; intros k; [reflexivity|]. rewrite csum_S_l. cbn [seq fold_right]. rewrite IH, Nat.add_0_r. f_equal. apply csum_ext. intros i _. f_equal. lia.
Qed.
Lemma fold_map {X Y} (f : X -> Y) (F : Y -> C) l : fold_right (fun p r => (F p + r)%C) (RtoC 0) (map f l) = fold_right (fun i r => (F (f i) + r)%C) (RtoC 0) l.
Proof. induction l as [|x l IH]; cbn; [reflexivity|]. now rewrite IH. Qed.

Lemma de_sums_ok aj u dp g h l N : off_roots u -> (1 <= g)%nat ->
  exists res, de_sums aj u dp g (snd (integration_points_thsh h N l)) = Done res /\
    forall j, (j < g)%nat -> vget res j =
      (node_value aj u dp j (phi l 0) (wt l 0) +
       csum N (fun k => node_value aj u dp j (phi l (INR (S k) * h)) (wt l (INR (S k) * h)) + node_value aj u dp j (phi l (- (INR (S k) * h))) (wt l (- (INR (S k) * h)))))%C.
Proof.
  intros O Hg. unfold de_sums. destruct (Ceq_dec _ _) as [E|_]; [apply O in E; [contradiction|lra]|].
  destruct (Nat.eqb_spec g 0) as [E|_]; [lia|]. rewrite points_ok. cbn [snd].
  match goal with |- context [de_loop aj u dp ?p ?r] => destruct (de_loop_ok aj u dp p O) with (res := r) as [res [E [L V]]] end.
  { intros x dx H. apply in_map_iff in H as [i [H _]]. apply (f_equal fst) in H. cbn [fst] in H. rewrite <- H. pose proof (phi_range l (INR (S i) * h)). lra. }
  exists res. split; [exact E|]. rewrite geometric_length in L, V. intros j Hj. rewrite V, geometric_get by assumption. f_equal.
  - unfold node_value. rewrite phi_0, wt_0, Rminus_0_r, sqrt_1, Cplus_0_r. destruct aj; ring.
  - rewrite (fold_map _ (fun p => node_value aj u dp j (fst p) (snd p) + node_value aj u dp j (- fst p)%R (snd p))%C).
    rewrite (fold_seq (fun i => node_value aj u dp j (fst (phi l (INR (S i) * h), wt l (INR (S i) * h))) (snd (phi l (INR (S i) * h), wt l (INR (S i) * h))) +
      node_value aj u dp j (- fst (phi l (INR (S i) * h), wt l (INR (S i) * h)))%R (snd (phi l (INR (S i) * h), wt l (INR (S i) * h))))%C).
    apply csum_ext. intros k _. cbn [fst snd]. rewrite phi_opp, wt_opp. rewrite Nat.add_0_l. reflexivity.
Qed.

(** the value of a rule, node by node *)
Lemma rule_scal aj u dp j h l N c F : (forall s, let t := phi l s in (node_value aj u dp j t (wt l s) * c)%C = de_term h l F s) ->
  ((node_value aj u dp j (phi l 0) (wt l 0) +
       csum N (fun k => node_value aj u dp j (phi l (INR (S k) * h)) (wt l (INR (S k) * h)) + node_value aj u dp j (phi l (- (INR (S k) * h))) (wt l (- (INR (S k) * h))))) * c)%C =
  de_rule h l N F.
Proof.
  intros H. unfold de_rule. rewrite Cmult_plus_distr_r. f_equal; [apply H|]. rewrite <- csum_scal_r. apply csum_ext. intros k _. rewrite Cmult_plus_distr_r. f_equal; apply H.
Qed.

Lemma croot2_sq w : (croot 2 w * croot 2 w)%C = w.
Proof. pose proof (croot_pow 2 w ltac:(lia)) as E. cbn [cpow Z.of_nat Pos.of_succ_nat Pos.succ] in E. rewrite <- E at 3. ring. Qed.
Lemma croot2_nz w : w <> RtoC 0 -> croot 2 w <> RtoC 0.
Proof. intros H E. apply H. rewrite <- (croot2_sq w), E. ring. Qed.
Lemma sqrt_nz t : -1 < t < 1 -> RtoC (sqrt (1 - t * t)) <> RtoC 0.
Proof. intros H E. injection E as E. apply sqrt_eq_0 in E; nra. Qed.

(** ** the periods *)
Section Periods.
  Variables (A : list C) (a b : nat).
  Hypothesis Ha : (a < length A)%nat.
  Hypothesis Hb : (b < length A)%nat.
  Hypothesis Hab : vget A a <> vget A b.
  Let u := ab_points_gc A a b.
  Let h := ((vget A b - vget A a) / RtoC 2)%C.
  Let Y (t : R) := (cpow (croot 2 h) (length u) * sqrt_affinereduction_gc u (RtoC t))%C.

  Lemma periods_ok g st l N : (1 <= g)%nat -> clear_edge A a b ->
    exists res, int_periods A g a b (fst (integration_points_thsh st N l)) (snd (integration_points_thsh st N l)) = Done (res, (Y (-1) / h)%C, (Y 1 / h)%C) /\
      forall j, (j < g)%nat -> res j =
        de_rule st l N (fun t => cpow (edge_point (vget A a) (vget A b) (RtoC t)) j * h / (- Ci * h * RtoC (sqrt (1 - t * t)) * Y t))%C.
  Proof using Ha Hb Hab.
    intros Hg Hc. unfold int_periods. destruct (Ceq_dec _ _) as [E|_]; [now apply (diff_nz A a b Ha Hb Hab) in E|]. fold u h.
    assert (SN : off_roots u).
    { intros t Ht E. apply (Y_nz A a b Ha Hb Hab t Hc Ht). fold u. rewrite E. ring. }
    destruct (de_sums_ok false u ((vget A b + vget A a) / (vget A b - vget A a))%C g st l N SN Hg) as [res [E V]]. rewrite E. cbn [bind].
    eexists. split.
    - assert (EY : forall t, Y t = (sqrt_affinereduction_gc u (RtoC t) * cpow (croot 2 h) (length u))%C) by (intros t; unfold Y; ring).
      rewrite !EY. reflexivity.
    - intros j Hj. cbv beta. rewrite (V j Hj), <- Cmult_assoc. apply rule_scal. intros s t. unfold de_term. fold t.
      rewrite phi_weight. fold t. rewrite points_ok. cbn [fst].
      assert (HN := h_nz A a b Ha Hb Hab). fold h in HN. assert (TR : -1 < t < 1) by apply phi_range.
      assert (EP : edge_point (vget A a) (vget A b) (RtoC t) = (h * ((vget A b + vget A a) / (vget A b - vget A a) + RtoC t))%C).
      { unfold edge_point, h. field. split; [apply (diff_nz A a b Ha Hb Hab)|apply two_neq]. }
      rewrite EP, cpow_mul. unfold Y, node_value.
      assert (S1 : cpow (croot 2 h) (length u) <> RtoC 0) by (apply cpow_neq_0, croot2_nz, HN).
      assert (S2 : sqrt_affinereduction_gc u (RtoC t) <> RtoC 0) by (apply SN; lra).
      assert (S3 := sqrt_nz t TR). assert (CN : Ci <> RtoC 0) by (intros E0; injection E0; lra).
      rewrite !RtoC_mult. set (q := cpow _ j). set (s1 := cpow _ (length u)) in *. set (s2 := sqrt_affinereduction_gc _ _) in *. set (s3 := RtoC (sqrt _)) in *. set (hj := cpow h j).
      assert (I2 : (Ci * Ci = - RtoC 1)%C) by (apply injective_projections; cbn; ring).
      assert (CQ : (h / (- Ci * h * s3 * (s1 * s2)))%C = (Ci / (s3 * (s1 * s2)))%C).
      { transitivity (h * (- (Ci * Ci)) / (- Ci * h * s3 * (s1 * s2)))%C; [rewrite I2; unfold Cdiv; ring|].
        field. repeat split; auto; try (intros E0; apply CN; replace Ci with (- - Ci)%C by ring; rewrite E0; ring). }
      replace (hj * q * h / (- Ci * h * s3 * (s1 * s2)))%C with (hj * q * (h / (- Ci * h * s3 * (s1 * s2))))%C by (unfold Cdiv; ring).
      rewrite CQ. cbv iota. clear CQ. field. repeat split; auto.
  Qed.
End Periods.

(** ** from a point to a branch point *)
Lemma perm_one n a : (a < n)%nat -> Permutation (seq 0 n) (a :: filter (fun i => negb (i =? a)%nat) (seq 0 n)).
Proof.
  intros H. apply NoDup_Permutation; [apply seq_NoDup| |].
  - constructor; [|apply NoDup_filter, seq_NoDup]. rewrite filter_In, Nat.eqb_refl. cbn. intros [_ E]. discriminate.
  - intros k. cbn [In]. rewrite filter_In. destruct (Nat.eqb_spec k a) as [->|N]; cbn; rewrite in_seq; intuition (try lia; try discriminate).
Qed.

Section Path.
  Variables (A : list C) (a : nat) (p : C).
  Hypothesis Ha : (a < length A)%nat.
  Hypothesis Hp : p <> vget A a.
  Let u := a_points A a p.
  Let h := ((p - vget A a) / RtoC 2)%C.
  Let W (t : R) := (cpow (croot 2 h) (length u) * sqrt_affinereduction_gc u (RtoC t))%C.
  Let x (t : R) := edge_point (vget A a) p (RtoC t).
  Let rest := filter (fun i => negb (i =? a)%nat) (seq 0 (length A)).

  Lemma pdiff_nz : (p - vget A a)%C <> RtoC 0.
  Proof using Ha Hp. intros E. apply Hp. replace p with (p - vget A a + vget A a)%C by ring. rewrite E. ring. Qed.
  Lemma ph_nz : h <> RtoC 0.
  Proof using Ha Hp. intros E. apply pdiff_nz. replace (p - vget A a)%C with (h * RtoC 2)%C by (unfold h; field; apply two_neq). rewrite E. ring. Qed.
  Lemma W_sq t : (W t * W t)%C = cprod (fun k => x t - vget A k)%C rest.
  Proof using Ha Hp.
    rewrite (cprod_ext (fun k => x t - vget A k)%C (fun k => h * (RtoC t - (RtoC 2 * vget A k - vget A a - p) / (p - vget A a)))%C).
    2: { intros k _. unfold x, edge_point, h. rewrite two. field. split; [apply pdiff_nz|intros H0; injection H0; lra]. }
    rewrite (cprod_scal h (fun k => RtoC t - (RtoC 2 * vget A k - vget A a - p) / (p - vget A a))%C). unfold W.
    set (s := cpow (croot 2 h) (length u)). set (r := sqrt_affinereduction_gc u (RtoC t)).
    replace (s * r * (s * r))%C with (s * s * (r * r))%C by ring. unfold r. rewrite root_sq. unfold s. rewrite <- cpow_mul, croot2_sq.
    unfold u, a_points. rewrite map_length, cprod_map. reflexivity.
  Qed.
  Lemma poly_one t : poly_at A t = ((t - vget A a) * cprod (fun k => t - vget A k)%C rest)%C.
  Proof using Ha.
    unfold poly_at. rewrite <- (roots_list A) at 1. rewrite cprod_map. rewrite (cprod_perm _ _ _ (perm_one (length A) a Ha)). reflexivity.
  Qed.
  Lemma W_nz t : clear_path A a p -> -1 <= t <= 1 -> W t <> RtoC 0.
  Proof using Ha Hp.
    intros Hc Ht E. pose proof (W_sq t) as S2. rewrite E in S2.
    assert (N : cprod (fun k => x t - vget A k)%C rest <> RtoC 0).
    { apply cprod_neq. intros k Hk. unfold rest in Hk. apply filter_In in Hk as [Hk Hka]. apply in_seq in Hk. destruct (Nat.eqb_spec k a) as [_|Hka']; [discriminate|].
      intros E'. apply (Hc k t ltac:(lia) Hka' Ht). fold (x t). replace (vget A k) with (x t - (x t - vget A k))%C by ring. rewrite E'. ring. }
    apply N. rewrite <- S2. ring.
  Qed.
  Let y (t : R) := (croot 2 h * RtoC (sqrt (1 + t)) * W t)%C.
  Lemma y_sq t : -1 <= t -> (y t * y t)%C = poly_at A (x t).
  Proof using Ha Hp.
    intros Ht. rewrite poly_one, <- W_sq. unfold y.
    assert (Q : (RtoC (sqrt (1 + t)) * RtoC (sqrt (1 + t)) = RtoC 1 + RtoC t)%C) by (rewrite <- RtoC_mult, sqrt_sqrt by lra; apply RtoC_plus).
    assert (E1 : (x t - vget A a)%C = (h * (RtoC 1 + RtoC t))%C) by (unfold x, edge_point, h; rewrite two; field; intros H0; injection H0; lra).
    rewrite E1. transitivity (croot 2 h * croot 2 h * (RtoC (sqrt (1 + t)) * RtoC (sqrt (1 + t))) * (W t * W t))%C; [ring|]. rewrite Q, croot2_sq. ring.
  Qed.
  Lemma y_cont t : ccont y t.
  Proof using.
    unfold y. apply ccont_mult; [apply ccont_mult; [apply ccont_const|]|].
    - apply (ccont_R (fun t => sqrt (1 + t))). apply (continuous_comp (fun t => 1 + t) sqrt); [|apply continuous_sqrt].
      apply (continuous_plus (fun _ => 1) (fun t => t)); [apply continuous_const|apply continuous_id].
    - unfold W. apply ccont_mult; [apply ccont_const|apply root_cont].
  Qed.
  Lemma u_length : length A = S (length u).
  Proof using Ha. unfold u, a_points. rewrite map_length. pose proof (Permutation_length (perm_one (length A) a Ha)) as L. rewrite seq_length in L. exact L. Qed.

  Lemma path_ok g st l N yp : (1 <= g)%nat -> clear_path A a p -> (yp * yp)%C = poly_at A p ->
    exists res s, (s = 1 \/ s = -1) /\
      int_AbelJacobi A g a p yp (fst (integration_points_thsh st N l)) (snd (integration_points_thsh st N l)) = Done res /\
      (RtoC s * y 1)%C = yp /\
      forall j, (j < g)%nat -> res j = (- de_rule st l N (fun t => cpow (x t) j * h / (RtoC s * y t)))%C.
  Proof using Ha Hp.
    intros Hg Hc Hy. unfold int_AbelJacobi. destruct (Ceq_dec _ _) as [E|_]; [now apply pdiff_nz in E|]. fold u h.
    assert (SN : off_roots u).
    { intros t Ht E. apply (W_nz t Hc Ht). unfold W. rewrite E. ring. }
    assert (HN := ph_nz). assert (RN := croot2_nz h HN).
    destruct (de_sums_ok true u ((p + vget A a) / (p - vget A a))%C g st l N SN Hg) as [res [E V]]. rewrite E. cbn [bind].
    assert (Y1 : (cpow (croot 2 h) (length A) * sqrt_affinereduction_gc u (RtoC 1))%C = (croot 2 h * W 1)%C) by (rewrite u_length; cbn [cpow]; unfold W; ring).
    rewrite Y1. assert (WN : W 1 <> RtoC 0) by (apply W_nz; [exact Hc|lra]).
    destruct (Ceq_dec _ _) as [E0|D0]; [exfalso; apply (Cmult_neq_0 _ _ RN WN E0)|].
    assert (EX : x 1 = p) by (unfold x, edge_point; rewrite two; field; intros H0; injection H0; lra).
    assert (YY : (yp * yp)%C = (y 1 * y 1)%C) by (rewrite y_sq, EX by lra; exact Hy).
    assert (SG : exists s, (s = 1 \/ s = -1) /\ (RtoC s * y 1)%C = yp).
    { assert (Z0 : ((yp - y 1) * (yp + y 1))%C = RtoC 0) by (replace ((yp - y 1) * (yp + y 1))%C with (yp * yp - y 1 * y 1)%C by ring; rewrite YY; ring).
      destruct (Ceq_dec (yp - y 1)%C (RtoC 0)) as [E1|N1].
      - exists 1. split; [now left|]. replace yp with (yp - y 1 + y 1)%C by ring. rewrite E1. ring.
      - destruct (Ceq_dec (yp + y 1)%C (RtoC 0)) as [E1|N2]; [|exfalso; apply (Cmult_neq_0 _ _ N1 N2 Z0)].
        exists (-1). split; [now right|]. replace yp with (yp + y 1 - y 1)%C by ring. rewrite E1. apply injective_projections; cbn; ring. }
    destruct SG as [s [Hs SY]].
    assert (GS : gp_sign (fst (yp / (croot 2 h * W 1))%C) = s).
    { replace (yp / (croot 2 h * W 1))%C with (RtoC (s * sqrt 2)).
      - cbn [fst RtoC]. assert (0 < sqrt 2) by (apply sqrt_lt_R0; lra). unfold gp_sign. destruct Hs as [-> | ->]; destruct (Rlt_dec _ _); try lra; destruct (Rlt_dec _ _); lra.
      - rewrite <- SY. unfold y. replace (1 + 1) with 2 by ring. rewrite RtoC_mult. field. repeat split; auto. }
    rewrite GS. exists (fun j => (RtoC s * (vget res j * (- RtoC (fst (integration_points_thsh st N l)) / (cpow (croot 2 h) (length u) / croot 2 h) * cpow h j)))%C), s.
    split; [exact Hs|]. split; [reflexivity|]. split; [exact SY|].
    intros j Hj. rewrite (V j Hj). rewrite points_ok. cbn [fst].
    match goal with |- (_ * (?S * _))%C = _ => set (SS := S) end.
    assert (K : (SS * (RtoC s * (RtoC (st * l) / (cpow (croot 2 h) (length u) / croot 2 h) * cpow h j)))%C = de_rule st l N (fun t => cpow (x t) j * h / (RtoC s * y t))%C).
    { unfold SS. apply rule_scal. intros r t. unfold de_term. fold t. rewrite phi_weight. fold t.
      assert (TR : -1 < t < 1) by apply phi_range.
      assert (EP : x t = (h * ((p + vget A a) / (p - vget A a) + RtoC t))%C).
      { unfold x, edge_point, h. field. split; [apply pdiff_nz|apply two_neq]. }
      rewrite EP, cpow_mul. unfold y, W, node_value.
      assert (S1 : cpow (croot 2 h) (length u) <> RtoC 0) by (apply cpow_neq_0, RN).
      assert (S2 : sqrt_affinereduction_gc u (RtoC t) <> RtoC 0) by (apply SN; lra).
      replace (1 - t * t) with ((1 - t) * (1 + t)) by ring. rewrite sqrt_mult by lra. rewrite !RtoC_mult.
      assert (S3 : RtoC (sqrt (1 + t)) <> RtoC 0) by (intros E0; injection E0 as E0; apply sqrt_eq_0 in E0; lra).
      assert (S4 : RtoC s <> RtoC 0) by (intros E0; injection E0 as E0; lra).
      assert (S5 : (RtoC s * RtoC s)%C = RtoC 1) by (rewrite <- RtoC_mult; f_equal; destruct Hs as [-> | ->]; ring).
      set (q := cpow _ j). set (s1 := cpow _ (length u)) in *. set (s2 := sqrt_affinereduction_gc u (RtoC t)) in *. set (s3 := RtoC (sqrt (1 + t))) in *. set (hj := cpow h j).
      set (rt := croot 2 h) in *.
      replace (hj * q * h / (RtoC s * (rt * s3 * (s1 * s2))))%C with (hj * q * (rt * rt) * (RtoC s * RtoC s) / (RtoC s * (rt * s3 * (s1 * s2))))%C.
      - cbv iota. field. repeat split; auto.
      - rewrite S5. unfold rt at 1 2. rewrite croot2_sq. unfold Cdiv. ring. }
    rewrite <- K. field. repeat split; auto. apply cpow_neq_0, RN.
  Qed.
End Path.

(** ** errors *)
Lemma de_loop_cases aj u dp pts : forall res, de_loop aj u dp pts res = Abort \/ exists r, de_loop aj u dp pts res = Done r.
Proof.
  induction pts as [|[x dx] pts IH]; intros res; cbn [de_loop]; [right; now eexists|].
  destruct (Ceq_dec _ _); [now left|]. destruct (Ceq_dec _ _); [now left|]. apply IH.
Qed.
Lemma path_error A a p k g yp fac pts : (k < length A)%nat -> p = vget A k -> (1 <= g)%nat -> int_AbelJacobi A g a p yp fac pts = Abort.
Proof.
  intros Hk Hp Hg. unfold int_AbelJacobi. destruct (Ceq_dec _ _) as [_|D]; [reflexivity|].
  assert (Ne : k <> a) by (intros ->; apply D; rewrite Hp; ring).
  assert (PN : p <> vget A a) by (intros E; apply D; rewrite E; ring).
  unfold de_sums. destruct (Ceq_dec _ _); [reflexivity|]. destruct (Nat.eqb_spec g 0); [lia|].
  match goal with |- context [de_loop ?aj ?u ?dp ?pts ?r] => destruct (de_loop_cases aj u dp pts r) as [->|[res ->]] end; [reflexivity|]. cbn [bind].
  assert (Z : sqrt_affinereduction_gc (a_points A a p) (RtoC 1) = RtoC 0).
  { destruct (Ceq_dec (sqrt_affinereduction_gc (a_points A a p) (RtoC 1)) (RtoC 0)) as [E|N]; [exact E|]. exfalso.
    apply (Cmult_neq_0 _ _ N N). rewrite root_sq. unfold a_points. rewrite cprod_map.
    assert (I : In k (filter (fun i => negb (i =? a)%nat) (seq 0 (length A)))).
    { apply filter_In. split; [apply in_seq; lia|]. destruct (Nat.eqb_spec k a); [contradiction|reflexivity]. }
    induction (filter _ _) as [|i l IH]; [destruct I|]. cbn [cprod]. destruct I as [->|I]; [|rewrite (IH I); ring].
    rewrite <- Hp. replace (RtoC 1 - (RtoC 2 * p - vget A a - p) / (p - vget A a))%C with (RtoC 0); [ring|]. rewrite two. field. exact D. }
  rewrite Z. destruct (Ceq_dec _ _) as [_|E]; [reflexivity|]. exfalso. apply E. ring.
Qed.
