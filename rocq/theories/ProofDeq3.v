(** Superelliptic curves: from the branch points to the period matrices, by the double exponential rule. *)
From Coq Require Import Reals Lra Lia List Sorting.Sorted.
From Coquelicot Require Import Coquelicot.
From Verif Require Import CArg SpecGc ModelTree SpecTree ProofTree ProofTreeEx ModelInter ModelCurve ProofCurve ModelSymp SpecSymp ProofSymp ProofSympMain ModelBasis SpecBasis
  ModelPeriod SpecPeriod ProofPeriod ProofPeriodMain ModelVec SpecVec ProofVec ModelQuad SpecQuad ModelCache SpecCache ProofCache SpecInter ModelEdge SpecEdge ProofEdge ProofAngle
  ModelTurn SpecTurn ProofTurn ModelDe SpecDe ModelDeq SpecErr SpecDeq ModelExtra SpecExtra ProofQuad ProofTrap ProofExtra ProofDe2 ProofErr3 ProofErr4 ProofErr5 ProofErr6
  ProofGauss ProofErr1 ProofHol7 ProofHol10 ProofHol11 ProofLat9 SpecHyp ProofHyp SpecFree ProofFree ProofFree2 ProofDeq ProofDeq2.
Import ListNotations.
Local Open Scope R_scope.

Lemma row_period_close c a b row j coord eps :
  (forall p, (p < length row)%nat -> Cmod (vget (nth (Z.to_nat (Z.of_nat p / (sec_m c - 1))) a []) coord - vget (nth (Z.to_nat (Z.of_nat p / (sec_m c - 1))) b []) coord)%C <= eps) ->
  Cmod (row_period c a row j coord - row_period c b row j coord)%C <= cycle_norm row * eps.
Proof.
  intro H. rewrite cycle_norm_sum. unfold row_period.
  set (k := fun p => (ZC (nth p row 0%Z) * root (sec_m c) (- ((Z.of_nat p mod (sec_m c - 1)) * j)))%C).
  set (va := fun p => vget (nth (Z.to_nat (Z.of_nat p / (sec_m c - 1))) a []) coord) in *.
  set (vb := fun p => vget (nth (Z.to_nat (Z.of_nat p / (sec_m c - 1))) b []) coord) in *.
  change (Cmod (csum (length row) (fun p => k p * va p) - csum (length row) (fun p => k p * vb p))%C <= rsum (length row) (fun p => Rabs (IZR (nth p row 0%Z))) * eps).
  assert (E : (csum (length row) (fun p => k p * va p) - csum (length row) (fun p => k p * vb p))%C = csum (length row) (fun p => (k p * (va p - vb p))%C)).
  { transitivity (csum (length row) (fun p => k p * va p + (- RtoC 1) * (k p * vb p))%C).
    - rewrite csum_add, csum_scal. match goal with |- (?a - ?b)%C = (?c + _ * ?d)%C => change c with a; change d with b; generalize a b end. intros. ring.
    - apply csum_ext. intros. ring. }
  rewrite E. eapply Rle_trans; [apply csum_mod|]. rewrite Rmult_comm, <- rsum_scal. apply rsum_le. intros p Hp.
  unfold k. rewrite !Cmod_mult, root_mod1, Rmult_1_r. unfold ZC. rewrite Cmod_R. rewrite (Rmult_comm eps). apply Rmult_le_compat_l; [apply Rabs_pos|]. now apply H.
Qed.
(** the first edge, with a fresh scheme *)
Lemma edge_first nonpos neg x a b m c ye : distinct x -> (3 <= length x)%nat -> sec_init (Z.of_nat m) (Z.of_nat (length x)) = Done c ->
  (a < length x)%nat -> (b < length x)%nat -> a <> b -> ydata_init_edge nonpos neg x a b (Z.of_nat m) = Done ye -> free_segment x (vget x a) (vget x b) ->
  exists w K, 0 <= K /\ Z.of_nat (length w) = sec_g c /\ cycle_integrals m c x (vget x a) (vget x b) (y_ya ye) (y_yb ye) w /\
    forall rdef rprod rturn same p, (0 <= p)%Z -> safe_roots rdef rprod rturn p (y_u ye) (y_n1 ye) ->
      exists v s, edge_integrals_de rdef rprod rturn same c no_store ye p = Done (v, s) /\ Z.of_nat (length v) = sec_g c /\
        forall q i, (q < length (sec_ni c))%nat -> (Z.of_nat i < nth q (sec_ni c) 0)%Z ->
          let pos := (offset (sec_ni c) q + i)%nat in
          Cmod (vget v pos - vget w pos)%C <= K * de_rate (Z.of_nat m) (sec_j1 c + Z.of_nat q) p.
Proof.
  intros Hd Hn Hc Ha Hb Hab Hye Hf.
  assert (H2 : (2 <= Z.of_nat m)%Z) by (destruct (sec_init_inv _ _ c Hc ltac:(lia)) as (H & _); exact H).
  assert (Hv := vget_neq x Hd a b Ha Hb Hab).
  assert (Hp := free_points nonpos neg x a b m ye Hd ltac:(lia) Ha Hb Hv Hye Hf).
  destruct (edge_de nonpos neg x a b m c ye Hc Hn Ha Hb Hv Hye Hp) as (r1 & w & Hr1 & HL & Hcy & HE).
  destruct (choose_r_scaled _ _ Hr1) as ((Hr0 & _) & _). destruct (HE r1 ltac:(lra)) as (K & HK & H).
  assert (Hgg : (0 <= sec_g c)%Z) by apply (genus_exact_final _ _ _ Hc ltac:(lia)).
  exists w, K. split; [exact HK|]. split; [lia|]. split; [exact Hcy|]. intros rdef rprod rturn same p Hp0 Hs.
  destruct (H rdef rprod rturn p Hp0 Hs) as (v & V1 & V2 & V3). exists v, (store_of m r1 p). split; [|split; [lia|]].
  - destruct (sec_init_fields _ _ c Hc) as (Em & En).
    assert (Hu : length (y_u ye) = (length x - 2)%nat) by apply (fields nonpos neg x a b m c ye Hc Hn Ha Hb Hv Hye Hp).
    unfold edge_integrals_de, edge_moments_de, edge_scheme_de. cbn [no_store st_n Z.eqb orb negb].
    rewrite En, Em. replace (Z.to_nat (Z.of_nat (length x) - 2)) with (length (y_u ye)) by (rewrite Hu; lia). rewrite firstn_all.
    rewrite (params_done _ _ _ r1) by (lia || exact Hr1). cbn [bind]. unfold row_with in V1. rewrite En, Em in V1.
    replace (Z.to_nat (Z.of_nat (length x) - 2)) with (length (y_u ye)) in V1 by (rewrite Hu; lia). fold (store_of m r1 p).
    destruct (de_integrals_run _ _ _ _ _ _ _ _ _) as [v0| | |]; try discriminate. cbn [bind fst snd] in *. rewrite V1. reflexivity.
  - intros q i Hq Hi pos. apply V3. split; assumption.
Qed.
Lemma tree_ydata_length nonpos neg x m es : forall ys, tree_ydata nonpos neg x m es = Done ys -> length ys = length es.
Proof.
  induction es as [|e es IH]; intros ys E; cbn [tree_ydata] in E; [now injection E as <-|].
  destruct (ydata_init_edge (nonpos e) (neg e) x (ea e) (eb e) m) as [y| | |]; try discriminate. cbn [bind] in E.
  destruct (tree_ydata nonpos neg x m es) as [ys'| | |]; try discriminate. injection E as <-. cbn. now rewrite (IH ys' eq_refl).
Qed.

Lemma super_periods xgcd sort param nonpos neg x m cv r0 mn es r' mn' (qsort : list (R * nat) -> list (R * nat)) :
  distinct x -> (3 <= length x)%nat -> sec_init (Z.of_nat m) (Z.of_nat (length x)) = Done cv ->
  qsort_ok sort -> tells_apart x param -> (forall l, Permutation (qsort l) l /\ StronglySorted Rle (map fst (qsort l))) -> xgcd_ok xgcd ->
  let t := Z.to_nat (tree_edges cv) in let g := Z.to_nat (sec_g cv) in let gens := (t * (m - 1))%nat in
  spanning_tree sort param (length x) t r0 mn = Done (es, r', mn') ->
  exists ys inter s b K, tree_ydata nonpos neg x (Z.of_nat m) es = Done ys /\ length ys = t /\
    intersection_of_data ys es (Z.of_nat m) = Done inter /\ symplectic_reduction xgcd (to_rows inter) g = Done s /\
    SpecSymp.square gens (stP s) /\ unimodular gens (stP s) /\ congruent gens (stP s) (to_rows inter) (stM s) /\
    (Z.gcd (Z.of_nat m) (Z.of_nat (length x)) = 1%Z \/ Z.gcd (Z.of_nat m) (Z.of_nat (length x)) = Z.of_nat m -> canonical gens g (stM s)) /\
    0 <= K /\ length b = t /\
    (forall k, (k < t)%nat -> let ye := nth k ys no_ydata in
      cycle_integrals m cv x (vget x (ea (nth k es no_edge))) (vget x (eb (nth k es no_edge))) (y_ya ye) (y_yb ye) (nth k b [])) /\
    (~ rows_fit (2 * g) (stP s) -> symplectic_basis xgcd (to_rows inter) g (Z.of_nat m) = Abort) /\
    forall rdef rprod rturn same p (rows : cmat), (0 <= p)%Z -> length rows = t ->
      (forall ye, In ye ys -> safe_roots rdef rprod rturn p (y_u ye) (y_n1 ye)) ->
      exists a, tree_integrals_de qsort rdef rprod rturn same cv ys p (map (fun ye => edge_key (y_u ye)) ys) rows = Done a /\
      (rows_small (2 * g) (stP s) -> exists loops omA omB,
        symplectic_basis xgcd (to_rows inter) g (Z.of_nat m) = Done loops /\
        period_matrix cv (map fst loops) a = Done omA /\ length omA = g /\
        period_matrix cv (map snd loops) a = Done omB /\ length omB = g /\
        forall k q i, (k < g)%nat -> (q < length (sec_ni cv))%nat -> (Z.of_nat i < nth q (sec_ni cv) 0)%Z ->
          let j := (sec_j1 cv + Z.of_nat q)%Z in let pos := (offset (sec_ni cv) q + i)%nat in
          Cmod (vget (nth pos omA []) k - row_period cv b (nth (2 * k) (stP s) []) j pos)%C
            <= cycle_norm (nth (2 * k) (stP s) []) * (K * de_rate (Z.of_nat m) j p) /\
          Cmod (vget (nth pos omB []) k - row_period cv b (nth (2 * k + 1) (stP s) []) j pos)%C
            <= cycle_norm (nth (2 * k + 1) (stP s) []) * (K * de_rate (Z.of_nat m) j p)).
Proof.
  intros Hdi Hn Hc Hs Ho Hq Hx t g gens Et.
  destruct (curve_counts m (length x) cv Hc ltac:(lia)) as (Hm & Htn & _ & Hr & Hg1). fold t g in Htn, Hr, Hg1.
  assert (Hs' : forall l, Permutation l (sort l)) by (intro l; apply (Hs l)).
  destruct (tree_final sort param (length x) t r0 mn Hs' Htn) as (l0 & r1 & mn1 & Et' & Hlen & Hgr & _ & _ & Hto & _).
  rewrite Et in Et'. injection Et' as <- <- <-.
  assert (Hes : edges_of x es).
  { intros e He. destruct (growing_edges es (length x) Hgr Hto e He) as (A1 & A2 & A3). split; [exact A1|]. split; [exact A2|].
    intro E. apply A3. apply (proj1 (NoDup_nth x (RtoC 0)) Hdi); [exact A1|exact A2|exact E]. }
  destruct (curve_reduces xgcd sort param nonpos neg x m cv r0 mn es r' mn' Hdi ltac:(lia) Hc Hs' Hx Et)
    as (ys & inter & s & Ey & H2 & H3 & HS & HA & HU & HC & _ & _ & _ & Hcan).
  fold t g gens in H3, HS, HA, HU, HC, Hcan.
  assert (Hly := tree_ydata_length _ _ _ _ _ _ Ey).
  destruct (reduction_congruence gens _ g xgcd s Hx HS HA H3) as (HP & _).
  assert (Hfree := tree_free sort param x t r0 mn es r' mn' Hdi Hn Hs Htn Ho Et).
  destruct (tree_de nonpos neg x m cv es ys qsort (map (fun ye => edge_key (y_u ye)) ys) Hc Hn Hdi Hes Ey) as (b & K & HK & HLb & Hb & Hab).
  { intros k Hk. apply Hfree, nth_In, Hk. }
  { intro l. apply (Hq l). } { intro l. apply (Hq l). } { now rewrite map_length. }
  { intros k Hk. rewrite (nth_indep _ 0 (edge_key (y_u no_ydata))) by (rewrite map_length; lia). now rewrite (map_nth (fun ye => edge_key (y_u ye))). }
  rewrite Hlen in *.
  exists ys, inter, s, b, K. split; [exact Ey|]. split; [exact Hly|]. split; [exact H2|]. split; [exact H3|]. split; [exact HP|]. split; [exact HU|]. split; [exact HC|]. split; [exact Hcan|].
  split; [exact HK|]. split; [exact HLb|]. split.
  { intros k Hk ye. apply (Hb k Hk). }
  assert (Hper : forall a, length a = t -> (forall row, In row a -> Z.of_nat (length row) = sec_g cv) ->
    (~ rows_fit (2 * g) (stP s) -> symplectic_basis xgcd (to_rows inter) g (Z.of_nat m) = Abort) /\
    (rows_small (2 * g) (stP s) -> exists loops omA omB,
      symplectic_basis xgcd (to_rows inter) g (Z.of_nat m) = Done loops /\
      period_matrix cv (map fst loops) a = Done omA /\ length omA = g /\
      period_matrix cv (map snd loops) a = Done omB /\ length omB = g /\
      forall k q i, (k < g)%nat -> (q < length (sec_ni cv))%nat -> (Z.of_nat i < nth q (sec_ni cv) 0)%Z ->
        vget (nth (offset (sec_ni cv) q + i) omA []) k =
          row_period cv a (nth (2 * k) (stP s) []) (sec_j1 cv + Z.of_nat q) (offset (sec_ni cv) q + i) /\
        vget (nth (offset (sec_ni cv) q + i) omB []) k =
          row_period cv a (nth (2 * k + 1) (stP s) []) (sec_j1 cv + Z.of_nat q) (offset (sec_ni cv) q + i))).
  { intros a La Ra.
    destruct (curve_periods xgcd sort param nonpos neg x m cv r0 mn es r' mn' a Hdi ltac:(lia) Hc Hs' Hx Et) as (ys2 & inter2 & s2 & K1 & K2 & K3 & K4 & K5).
    { split; [exact La|exact Ra]. }
    rewrite Ey in K1. injection K1 as <-. rewrite H2 in K2. injection K2 as <-. fold g in K3, K4, K5. rewrite H3 in K3. injection K3 as <-. split; [exact K4|exact K5]. }
  assert (Hgg : (0 <= sec_g cv)%Z) by apply (genus_exact_final _ _ _ Hc ltac:(lia)).
  split.
  { apply (Hper b HLb). intros row Hrow. destruct (In_nth b row [] Hrow) as (k & Hk & <-). rewrite HLb in Hk. rewrite (proj1 (Hb k Hk)). lia. }
  intros rdef rprod rturn same p rows Hp Hrows Hsafe.
  destruct (Hab rdef rprod rturn same p rows Hp Hrows) as (a & Ea & HLa & Hak).
  { intros k Hk. apply Hsafe, nth_In. lia. }
  exists a. split; [exact Ea|]. intro Hsm.
  destruct (proj2 (Hper a HLa ltac:(intros row Hrow; destruct (In_nth a row [] Hrow) as (k & Hk & <-); rewrite HLa in Hk; rewrite (proj1 (Hak k Hk)); lia)) Hsm)
    as (loops & omA & omB & P1 & P2 & P3 & P4 & P5 & P6).
  exists loops, omA, omB. split; [exact P1|]. split; [exact P2|]. split; [exact P3|]. split; [exact P4|]. split; [exact P5|].
  intros k q i Hk Hq' Hi j pos. destruct (P6 k q i Hk Hq' Hi) as (PA & PB). fold j pos in PA, PB. rewrite PA, PB.
  destruct (sec_init_fields _ _ cv Hc) as (Em & _).
  assert (Hrow : forall q, (q < 2 * g)%nat -> length (nth q (stP s) []) = gens).
  { intros q' Hq2. destruct HP as (HP1 & HP2). apply HP2, nth_In. lia. }
  assert (Hedge : forall p', (p' < gens)%nat -> (Z.to_nat (Z.of_nat p' / (sec_m cv - 1)) < t)%nat).
  { intros p' Hp'. rewrite Em. apply Nat2Z.inj_lt. rewrite Z2Nat.id by (apply Z.div_pos; lia). apply Z.div_lt_upper_bound; [lia|].
    unfold gens in Hp'. replace (Z.of_nat m - 1)%Z with (Z.of_nat (m - 1)) by lia. rewrite <- Nat2Z.inj_mul. lia. }
  split; apply row_period_close; (intros p' Hp'; rewrite Hrow in Hp' by lia; apply (Hak _ (Hedge p' Hp')); split; assumption).
Qed.

(** ** consequences for the parameters *)
Lemma half_sum_outside p : (forall t, -1 <= t <= 1 -> p <> RtoC t) -> 1 < half_sum p.
Proof.
  intro H. destruct p as [a b]. unfold half_sum.
  assert (E1 : ((a, b) - RtoC 1)%C = (a - 1, b)) by (apply injective_projections; cbn; ring).
  assert (E2 : ((a, b) + RtoC 1)%C = (a + 1, b)) by (apply injective_projections; cbn; ring).
  rewrite ?E1, ?E2. destruct (Req_dec b 0) as [->|Hb].
  - assert (G1 := Cmod_ge_fst (a - 1) 0). assert (G2 := Cmod_ge_fst (a + 1) 0).
    assert (Ha : a < -1 \/ 1 < a).
    { destruct (Rlt_le_dec a (-1)); [now left|]. destruct (Rlt_le_dec 1 a); [now right|]. exfalso. apply (H a); [lra|reflexivity]. }
    destruct Ha as [Ha|Ha]; [rewrite Rabs_left in G1, G2 by lra|rewrite Rabs_right in G1, G2 by lra]; lra.
  - assert (G1 := Cmod_gt_fst (a - 1) b Hb). assert (G2 := Cmod_gt_fst (a + 1) b Hb).
    assert (T1 := Rle_abs (a + 1)). assert (T2 := Rle_abs (- (a - 1))). rewrite Rabs_Ropp in T2. lra.
Qed.
Lemma tree_free_both sort param x n r mn l r' mn' : distinct x -> (3 <= length x)%nat -> (n < length x)%nat -> qsort_ok sort ->
  tells_apart x param ->
  spanning_tree sort param (length x) n r mn = Done (l, r', mn') ->
  forall e, In e l -> free_segment x (vget x (ea e)) (vget x (eb e)).
Proof.
  intros Hd H3 Hn Hs Ho Et. exact (tree_free sort param x n r mn l r' mn' Hd H3 Hs Hn Ho Et).
Qed.
Lemma tree_ydata_in nonpos neg x m es ys ye : tree_ydata nonpos neg x m es = Done ys -> In ye ys ->
  exists e, In e es /\ ydata_init_edge (nonpos e) (neg e) x (ea e) (eb e) m = Done ye.
Proof.
  revert ys. induction es as [|e es IH]; cbn [tree_ydata]; intros ys E H.
  - injection E as <-. destruct H.
  - destruct (ydata_init_edge _ _ _ _ _ _) as [y| | |] eqn:Ey; try discriminate. cbn [bind] in E.
    destruct (tree_ydata _ _ _ _ es) as [ys'| | |] eqn:Es; try discriminate. cbn [bind] in E. injection E as <-.
    destruct H as [<-|H]; [exists e; split; [now left|exact Ey]|]. destruct (IH ys' eq_refl H) as (e' & H1 & H2). exists e'. split; [now right|exact H2].
Qed.
Lemma tree_parameters nonpos neg sort param x m n r mn es r' mn' ys : distinct x -> (3 <= length x)%nat -> (2 <= m)%nat -> (n < length x)%nat -> qsort_ok sort ->
  tells_apart x param ->
  spanning_tree sort param (length x) n r mn = Done (es, r', mn') -> tree_ydata nonpos neg x (Z.of_nat m) es = Done ys ->
  forall ye, In ye ys -> (forall p, In p (y_u ye) -> 1 < half_sum p /\ 0 < de_tau p) /\
    forall prec, exists rr h N, de_params_d (map de_tau (y_u ye)) (Z.of_nat m) prec = Done (rr, h, N) /\ 0 < rr.
Proof.
  intros Hd H3 Hm Hn Hs Ho Et Ey ye Hye.
  destruct (tree_ydata_in _ _ _ _ _ _ _ Ey Hye) as (e & He & Eye).
  destruct (tree_final sort param (length x) n r mn ltac:(intro; apply (Hs l)) Hn) as (l0 & r1 & mn1 & Et' & Hlen & Hgr & _ & _ & Hto & _).
  rewrite Et in Et'. injection Et' as <- <- <-. destruct (growing_edges es (length x) Hgr Hto e He) as (A1 & A2 & A3).
  assert (Hp := free_points _ _ x (ea e) (eb e) m ye Hd ltac:(lia) A1 A2 (vget_neq x Hd _ _ A1 A2 A3) Eye (tree_free_both _ _ _ _ _ _ _ _ _ Hd H3 Hn Hs Ho Et e He)).
  split.
  - intros p Hin. split; [apply half_sum_outside, Hp, Hin|]. assert (H := Hp p Hin). apply tau_pos; [apply H; lra|apply H; lra|]. intros t Ht. apply H. lra.
  - intro prec. destruct (tau_points (y_u ye) Hp) as (_ & r2 & Hr). do 3 eexists. split; [apply params_done; [lia|exact Hr]|]. apply (choose_r_range _ _ Hr).
Qed.
