(** Ramification points in the Magma package: exact values when m and n are coprime. *)
From Coquelicot Require Import Coquelicot.
From Verif Require Import CArg ModelTree ModelVec ModelPeriod ModelTurn ModelSymp SpecSymp SpecInter ModelMaRoot ModelMaDiff ModelMaFactor ModelMaSum ModelMaTree ModelMaInter ModelMaSymp ModelMaAjm ModelMaPath ModelMaDivisor ModelMaPeriod ModelMaRam SpecVec SpecPeriod SpecCurve SpecTree SpecTurn SpecMaRoot SpecMaFactor SpecQuad SpecMaSum SpecMaTree SpecDeq SpecCross SpecMaInter SpecMaSymp SpecMaPeriod SpecMaPath SpecMaRam ProofEdge ProofVec ProofTree ProofPeriod ProofSympRank ProofRiem4 ProofMaTree4 ProofMaTree5 ProofMaDiff ProofMaFactor2 ProofMaAjm ProofMaAjm3 ProofMaPeriod ProofMaPeriod3 ProofMaPeriod4 ProofMaPeriod5 ProofMaRam SpecEdge.
From Verif Require ProofMaPath.
Local Open Scope nat_scope.

(** m times the integral along an edge is a sum of loops *)
Lemma loops_sum_aux (z : C) n c : csum n (fun l => (c - RtoC (INR l)) * (cpow z l - cpow z (S l)))%C = (c - csum n (fun l => cpow z l) + RtoC 1 + (RtoC (INR n) - c - RtoC 1) * cpow z n)%C.
Proof.
  induction n as [|n IH]; [cbn; ring|]. cbn [csum]. rewrite IH. rewrite S_INR, RtoC_plus. cbn [cpow]. ring.
Qed.
Lemma loops_sum m j I : 2 <= m -> (0 < Z.of_nat j < Z.of_nat m)%Z ->
  csum (m - 1) (fun l => ZC (Z.of_nat (m - 1 - l)) * over_loop m j l I)%C = (RtoC (INR m) * I)%C.
Proof.
  intros Hm Hj. set (z := root (Z.of_nat m) (- Z.of_nat j)).
  assert (P : forall l, root (Z.of_nat m) (- (Z.of_nat l * Z.of_nat j)) = cpow z l) by (intros l; unfold z; rewrite root_pow; f_equal; lia).
  rewrite (csum_ext _ _ (fun l => ((RtoC (INR (m - 1)) - RtoC (INR l)) * (cpow z l - cpow z (S l))) * I)%C).
  2: { intros l Hl. unfold over_loop. rewrite P. replace (Z.of_nat l + 1)%Z with (Z.of_nat (S l)) by lia. rewrite P. unfold ZC. rewrite <- INR_IZR_INZ, minus_INR by lia. rewrite RtoC_minus. ring. }
  rewrite csum_scal_r, loops_sum_aux.
  assert (S0 : csum m (fun l => cpow z l) = RtoC 0).
  { rewrite (csum_ext _ _ (fun l => root (Z.of_nat m) (Z.of_nat l * (- Z.of_nat j)))); [|intros l _; rewrite <- P; f_equal; lia]. apply root_sum; [lia|]. intros [q Hq]. clear P. destruct (Z_le_gt_dec 0 q) as [G|G]; [assert (0 <= q * Z.of_nat m)%Z by (apply Z.mul_nonneg_nonneg; lia); lia|]. assert (q * Z.of_nat m <= (-1) * Z.of_nat m)%Z by (apply Z.mul_le_mono_nonneg_r; lia). lia. }
  assert (S1 : csum m (fun l => cpow z l) = (csum (m - 1) (fun l => cpow z l) + cpow z (m - 1))%C) by (destruct m; [lia|]; replace (S m - 1) with m by lia; reflexivity).
  assert (S2 : csum (m - 1) (fun l => cpow z l) = (- cpow z (m - 1))%C) by (rewrite <- (Cplus_0_r (- cpow z (m - 1))%C), <- S0, S1; ring).
  rewrite S2. replace (RtoC (INR m)) with (RtoC (INR (m - 1)) + RtoC 1)%C by (rewrite <- RtoC_plus; f_equal; rewrite minus_INR by lia; cbn; ring). ring.
Qed.

Lemma path_csum row els : path_integral row els = csum (Nat.min (length row) (length els)) (fun k => RtoC (IZR (nth k row 0%Z)) * nth k els (RtoC 0))%C.
Proof.
  unfold path_integral. assert (G : forall row els z, fold_left (fun v p => (v + RtoC (IZR (fst p)) * snd p)%C) (combine row els) z =
    (z + csum (Nat.min (length row) (length els)) (fun k => RtoC (IZR (nth k row 0%Z)) * nth k els (RtoC 0)))%C).
  { clear row els. induction row as [|a row IH]; intros [|e els] z; cbn [combine fold_left length Nat.min]; try (cbn [csum]; ring). rewrite IH, csum_S_l. cbn [nth fst snd]. ring. }
  rewrite G. ring.
Qed.

Lemma best_exact best m v z : best_ok best -> 1 <= m -> (INR m * v)%R = IZR z -> best m v = v.
Proof.
  intros Hb Hm Hv. destruct (Hb m v Hm) as (a & b & Hb' & Eb & Hmin). specialize (Hmin z m ltac:(lia)).
  assert (Hm0 : INR m <> 0%R) by (apply not_0_INR; lia). replace (IZR z / INR m)%R with v in Hmin by (rewrite <- Hv; field; exact Hm0).
  replace (v - v)%R with 0%R in Hmin by ring. rewrite Rabs_R0 in Hmin. pose proof (Rabs_pos (v - best m v)). destruct (Req_dec (v - best m v) 0) as [E|E]; [lra|]. apply Rabs_no_R0 in E. lra.
Qed.

Lemma zsum_scale N (a q : nat -> Z) (B : C) : csum N (fun l => ZC (a l) * (ZC (q l) * B))%C = (B * RtoC (IZR (zsum N (fun l => (a l * q l)%Z))))%C.
Proof. induction N as [|N IH]; cbn [csum zsum]; [ring|]. rewrite IH. unfold ZC. rewrite plus_IZR, mult_IZR, RtoC_plus, RtoC_mult. ring. Qed.

Section Cop.
Context (m n : nat) (x : list C) (d : ma_diff) (es : list edge) (s : nat -> scheme) (w : C) (Y : nat -> R -> C) (b : mat).
Hypothesis Hm : 2 <= m.
Hypothesis Hn : 3 <= n.
Hypothesis Hdiff : ma_differentials (Z.of_nat m) (Z.of_nat n) = Done d.
Hypothesis Hes : length es = n - 1.
Hypothesis Hu : unimodular ((n - 1) * (m - 1)) b.
Let g := Z.to_nat (md_g d).
Hypothesis Hg : 2 * g = (n - 1) * (m - 1).
Context (big : cmat) (elem : list vec).
Hypothesis Hper : periods_over m x d es s w Y b (2 * g) (mget big).
Hypothesis Lel : length elem = length es.
Hypothesis Hel : forall k q i, k < length es -> q < length (md_df d) -> (Z.of_nat i < nth q (md_df d) 0)%Z ->
     let j := Z.to_nat (md_jm d + Z.of_nat q) in
     mget elem k (offset (md_df d) q + i) = scheme_rule m (s k) q j
       (form_on_edge x (ea (nth k es no_edge)) (eb (nth k es no_edge)) (fun t => w * Y k t)%C j i).

Lemma edge_combo : exists NN : nat -> nat -> Z, forall k ct, k < n - 1 -> ct < g ->
  (RtoC (INR m) * mget elem k ct)%C = csum (2 * g) (fun col => mget big ct col * RtoC (IZR (NN k col)))%C.
Proof using All.
  destruct Hu as (q & _ & Hq). exists (fun k col => zsum (m - 1) (fun l => Z.of_nat (m - 1 - l) * get q (k * (m - 1) + l) col)%Z).
  intros k ct Hk Hct. pose proof (diff_facts (Z.of_nat m) (Z.of_nat n) d Hdiff ltac:(lia) ltac:(lia)) as (J1 & EN & _ & JM & TG & _).
  destruct (offset_find (md_df d) ct ltac:(unfold g in Hct; lia)) as (qq & i & Hqq & Hi & ->). set (j := Z.to_nat (md_jm d + Z.of_nat qq)).
  set (E := fun k => mget elem k (offset (md_df d) qq + i)). set (Lp := fun kk => over_loop m j (kk mod (m - 1)) (E (kk / (m - 1)))).
  assert (HL : forall k l, l < m - 1 -> Lp (k * (m - 1) + l) = over_loop m j l (E k)).
  { intros k' l Hl. unfold Lp. rewrite Nat.add_comm, Nat.div_add, Nat.mod_add by lia. rewrite Nat.div_small, Nat.mod_small by exact Hl. reflexivity. }
  assert (HB : forall col, col < 2 * g -> mget big (offset (md_df d) qq + i) col = csum (2 * g) (fun kk => ZC (get b col kk) * Lp kk)%C).
  { intros col Hcol. rewrite (Hper qq i col Hqq Hi Hcol). cbv zeta. fold j. rewrite Hg, Hes, (Nat.mul_comm (n - 1)), csum_blocks. apply csum_ext. intros k' Hk'. apply csum_ext. intros l Hl.
    rewrite (Nat.mul_comm (m - 1) k'), HL by exact Hl. unfold E. rewrite (Hel k' qq i) by (try assumption; lia). reflexivity. }
  assert (HQ : forall kk, kk < 2 * g -> Lp kk = csum (2 * g) (fun col => ZC (get q kk col) * mget big (offset (md_df d) qq + i)%nat col)%C).
  { intros kk Hkk. transitivity (csum (2 * g) (fun k' => csum (2 * g) (fun col => ZC (get q kk col) * (ZC (get b col k') * Lp k'))))%C.
    - rewrite (csum_single _ _ kk Hkk).
      + rewrite (csum_ext _ _ (fun col => (ZC (get q kk col) * ZC (get b col kk)) * Lp kk)%C) by (intros; ring). rewrite csum_scal_r.
        rewrite <- Hg in Hq. destruct (Hq kk kk Hkk Hkk) as [_ Q]. unfold delta in Q. rewrite Nat.eqb_refl in Q.
        assert (Z1 : csum (2 * g) (fun col => ZC (get q kk col) * ZC (get b col kk))%C = ZC (zsum (2 * g) (fun col => get q kk col * get b col kk)%Z)).
        { generalize (2 * g) as N. induction N as [|N IH]; cbn [csum zsum]; [reflexivity|]. rewrite IH. unfold ZC. rewrite plus_IZR, mult_IZR, RtoC_plus, RtoC_mult. reflexivity. }
        rewrite Z1, Q. unfold ZC. ring.
      + intros k' Hk' Nk. rewrite (csum_ext _ _ (fun col => (ZC (get q kk col) * ZC (get b col k')) * Lp k')%C) by (intros; ring). rewrite csum_scal_r.
        rewrite <- Hg in Hq. destruct (Hq kk k' Hkk Hk') as [_ Q]. unfold delta in Q. destruct (Nat.eqb_spec kk k'); [congruence|].
        assert (Z1 : csum (2 * g) (fun col => ZC (get q kk col) * ZC (get b col k'))%C = ZC (zsum (2 * g) (fun col => get q kk col * get b col k')%Z)).
        { generalize (2 * g) as N. induction N as [|N IH]; cbn [csum zsum]; [reflexivity|]. rewrite IH. unfold ZC. rewrite plus_IZR, mult_IZR, RtoC_plus, RtoC_mult. reflexivity. }
        rewrite Z1, Q. unfold ZC. ring.
    - rewrite csum_swap. apply csum_ext. intros col Hcol. rewrite HB by exact Hcol. rewrite <- csum_scal. reflexivity. }
  fold (E k). rewrite <- (loops_sum m j (E k) Hm) by (unfold j; lia).
  transitivity (csum (m - 1) (fun l => csum (2 * g) (fun col => ZC (Z.of_nat (m - 1 - l)) * (ZC (get q (k * (m - 1) + l) col) * mget big (offset (md_df d) qq + i) col))))%C.
  { apply csum_ext. intros l Hl. rewrite csum_scal. rewrite <- (HL k l Hl). rewrite HQ; [reflexivity|]. rewrite Hg. nia. }
  rewrite csum_swap. apply csum_ext. intros col Hcol. set (Bc := mget big (offset (md_df d) qq + i) col).
  apply (zsum_scale (m - 1) (fun l => Z.of_nat (m - 1 - l)) (fun l => get q (k * (m - 1) + l) col) Bc).
Qed.

Lemma path_combo row : exists N : nat -> Z, forall ct, ct < g -> (RtoC (INR m) * ram_vector row elem ct)%C = csum (2 * g) (fun col => mget big ct col * RtoC (IZR (N col)))%C.
Proof using All.
  destruct edge_combo as (NN & HN). set (K := Nat.min (length row) (n - 1)). exists (fun col => zsum K (fun k => nth k row 0 * NN k col)%Z). intros ct Hct. unfold ram_vector. rewrite path_csum.
  assert (LM : length (map (fun e => vget e ct) elem) = n - 1) by (rewrite map_length; exact (eq_trans Lel Hes)). rewrite LM. fold K. rewrite <- csum_scal.
  transitivity (csum K (fun k => csum (2 * g) (fun col => RtoC (IZR (nth k row 0%Z)) * (mget big ct col * RtoC (IZR (NN k col)))))%C).
  { apply csum_ext. intros k Hk. rewrite csum_scal, <- HN by (try exact Hct; unfold K in Hk; lia). rewrite (nth_indep _ _ (vget [] ct)) by (rewrite LM; unfold K in Hk; lia).
    rewrite (map_nth (fun e => vget e ct)). change (vget (nth k elem []) ct) with (mget elem k ct). ring. }
  rewrite csum_swap. apply csum_ext. intros col Hcol. generalize K as N. induction N as [|N IH]; cbn [csum zsum]; [ring|]. rewrite IH, plus_IZR, mult_IZR, RtoC_plus, RtoC_mult. ring.
Qed.
End Cop.

Lemma ram_exact rank inv rinv best sort choose o p x m lc s small err base r tm ram : rank_ok rank -> inv_ok inv -> rinv_ok rinv -> best_ok best ->
  sort_ok sort -> distinct x -> same_sides p x -> 3 <= length x -> 2 <= m -> lc <> RtoC 0 -> base < length x -> Z.gcd (Z.of_nat m) (Z.of_nat (length x)) = 1%Z ->
  (forall d t, ma_differentials (Z.of_nat m) (Z.of_nat (length x)) = Done d -> spanning_tree_ma sort (chosen_type m o) p = Done t ->
     schemes_fit m d (length x - 1) (choose t) s) ->
  se_ramification rank inv rinv best sort choose o p x m lc small err base = Done (r, tm, ram) ->
  let g := length (p_big r) in
  (exists t ty', spanning_tree_ma sort (chosen_type m o) p = Done (t, ty') /\ forall i, i < length x -> goes (plains (s_edges t)) (nth i tm []) base i) /\
  length ram = length x /\
  (forall i k, i < length x -> k < 2 * g -> (exists z : Z, (INR m * nth i ram (fun _ => 0%R) k)%R = IZR z) /\ (- / 2 <= nth i ram (fun _ => 0%R) k <= / 2)%R) /\
  (forall i, i < length x -> in_lattice g (p_big r) (fun c => ram_vector (nth i tm []) (p_elem r) c - csum (2 * g) (fun k => mget (p_big r) c k * RtoC (nth i ram (fun _ => 0%R) k)))%C).
Proof.
  intros Hrk Hinv Hrinv Hbest Hso Hd Hp Hn Hm Hlc Hbase Hgcd Hsch Erun. cbv zeta. unfold se_ramification in Erun.
  destruct (ma_periods rank inv rinv sort choose o p x m lc s small true err Hrk Hinv Hrinv Hso Hd Hp Hn Hm Hlc Hsch) as (t & ty' & d & ds & T & b & ya & yb & Y & w & E & Edd & _ & _ & _ & _ & _ & _ & Ub & _ & _ & Hrun & _).
  destruct Hrun as [A|(_ & r0 & Er & Hok)]; [rewrite A in Erun; discriminate|]. rewrite Er in Erun. cbn [bind] in Erun. rewrite E in Erun. cbn [bind fst] in Erun.
  destruct (ProofMaPath.matrix_paths sort (chosen_type m o) p base Hso) as (t2 & ty2 & tm2 & E2 & ET & LT & HG); [rewrite (proj1 Hp); lia|rewrite (proj1 Hp); exact Hbase|].
  rewrite E in E2. injection E2 as <- <-. rewrite (proj1 Hp) in ET, LT, HG. rewrite ET in Erun. cbn [bind] in Erun.
  destruct (p_red r0) as [rd|] eqn:Erd; [|discriminate]. injection Erun as <- <- <-.
  destruct Hok as ((Lb & Lr) & Hper & (Lel & Hel) & _ & Hred). rewrite Erd in Hred. destruct Hred as [_ Hcoord]. set (g := Z.to_nat (md_g d)) in *. rewrite Lb.
  assert (LP : length (plains (s_edges t)) = length x - 1).
  { destruct (ma_spanning sort (chosen_type m o) p Hso) as (t3 & ty3 & E3 & L3 & _); [rewrite (proj1 Hp); lia|]. rewrite E in E3. injection E3 as <- <-. unfold plains. rewrite map_length, L3, (proj1 Hp). reflexivity. }
  assert (Hg : 2 * g = (length x - 1) * (m - 1)).
  { destruct (ma_done (Z.of_nat m) (Z.of_nat (length x)) ltac:(lia) ltac:(lia)) as (E' & _). cbv zeta in E'. rewrite Edd in E'.
    assert (G : md_g d = (((Z.of_nat m - 1) * (Z.of_nat (length x) - 1) - Z.gcd (Z.of_nat m) (Z.of_nat (length x)) + 1) / 2)%Z).
    { match type of E' with Done _ = Done ?t => assert (Hdd : d = t) by congruence end. rewrite Hdd. reflexivity. }
    assert (Gc : Z.gcd (Z.of_nat m) (Z.of_nat (length x)) = 1%Z). { exact Hgcd. }
    rewrite Gc in G. replace ((Z.of_nat m - 1) * (Z.of_nat (length x) - 1) - 1 + 1)%Z with ((Z.of_nat m - 1) * (Z.of_nat (length x) - 1))%Z in G by lia.
    assert (Ev : exists q, ((Z.of_nat m - 1) * (Z.of_nat (length x) - 1) = 2 * q)%Z).
    { destruct (Z.Even_or_Odd (Z.of_nat m)) as [[a Ha]|[a Ha]]; [|exists (a * (Z.of_nat (length x) - 1))%Z; rewrite Ha; ring].
      destruct (Z.Even_or_Odd (Z.of_nat (length x))) as [[c Hc]|[c Hc]]; [|exists (c * (Z.of_nat m - 1))%Z; rewrite Hc; ring].
      exfalso. assert (D2 : (2 | Z.gcd (Z.of_nat m) (Z.of_nat (length x)))%Z) by (apply Z.gcd_greatest; [exists a; lia|exists c; lia]). rewrite Gc in D2. destruct D2 as (k & Hk). lia. }
    destruct Ev as (q & Eq). rewrite Eq, Z.mul_comm, Z.div_mul in G by lia. assert (Gp : (0 <= (Z.of_nat m - 1) * (Z.of_nat (length x) - 1))%Z) by (apply Z.mul_nonneg_nonneg; lia). assert (Gq : (0 <= q)%Z) by (clear - Eq Gp; lia). rewrite <- G in Gq, Eq. unfold g. apply Nat2Z.inj. rewrite !Nat2Z.inj_mul, !Nat2Z.inj_sub, Z2Nat.id by lia. change (Z.of_nat 1) with 1%Z. change (Z.of_nat 2) with 2%Z. lia. }
  assert (Hri : rinverse_of (2 * g) (embed g (p_big r0)) rd /\ reduction_matrix rinv true g (p_big r0) = Done (Some rd)).
  { destruct (curve_run sort choose o p x m s Hso Hd Hp Hn Hm Hsch) as (t4 & ty4 & d4 & ds4 & T4 & b4 & ya4 & yb4 & Y4 & B4 & _ & Ed4 & _ & _ & _ & _ & _ & _ & _ & _ & _ & _ & _ & _ & _ & H4). destruct (H4 lc Hlc) as (el4 & bg4 & R4 & _).
    rewrite Edd in Ed4. injection Ed4 as <-. fold g in R4. rewrite R4 in Er. destruct (negb _); [discriminate|]. destruct (reduction_matrix rinv true g bg4) as [red| | |] eqn:Ered; try discriminate. cbn [bind] in Er.
    destruct (small_matrix inv small err g bg4); try discriminate. cbn [bind] in Er. injection Er as <-. cbn [p_red p_big] in *. subst red. split; [|exact Ered].
    unfold reduction_matrix in Ered. pose proof (Hrinv (2 * g) (embed g bg4)) as X. destruct (rinv (2 * g) (embed g bg4)); [injection Ered as <-; exact X|discriminate]. }
  destruct Hri as [Hri Ered]. destruct (reduction_lattice rinv g (p_big r0) rd Hrinv Ered) as (Hrange & Hlat & _).
  assert (Hex : forall i k, i < length x -> k < 2 * g -> (exists z : Z, (INR m * lattice_reduction g (red_data rd) (ram_vector (nth i tm2 []) (p_elem r0)) k)%R = IZR z) /\
     nth i (ram_points best m g rd tm2 (p_elem r0)) (fun _ => 0%R) k = lattice_reduction g (red_data rd) (ram_vector (nth i tm2 []) (p_elem r0)) k).
  { intros i k Hi Hk. destruct (path_combo m (length x) x d (plains (s_edges t)) s w Y b Hm Hn Edd LP Ub Hg (p_big r0) (p_elem r0) Hper Lel Hel (nth i tm2 [])) as (N & HN). fold g in HN.
    assert (Z0 : exists z : Z, (INR m * lattice_reduction g (red_data rd) (ram_vector (nth i tm2 []) (p_elem r0)) k)%R = IZR z).
    { rewrite reduction_is. pose proof (coords_combo g (p_big r0) rd (INR m) (ram_vector (nth i tm2 []) (p_elem r0)) (fun col => IZR (N col)) Hri HN k Hk) as X. unfold round_off.
      exists (N k - Z.of_nat m * round_near (coords g rd (ram_vector (nth i tm2 []) (p_elem r0)) k))%Z. rewrite minus_IZR, mult_IZR, <- INR_IZR_INZ, <- X. ring. }
    split; [exact Z0|]. destruct Z0 as (z & Hz). unfold ram_points. rewrite (nth_indep _ _ ((fun row k => best m (lattice_reduction g (red_data rd) (ram_vector row (p_elem r0)) k)) [])) by (rewrite map_length; lia).
    rewrite (map_nth (fun row k => best m (lattice_reduction g (red_data rd) (ram_vector row (p_elem r0)) k))). apply (best_exact best m _ z Hbest); [lia|exact Hz]. }
  split; [exists t, ty'; split; [exact E|]; intros i Hi; exact (proj1 (HG i Hi))|].
  split; [unfold ram_points; rewrite map_length; exact LT|]. split.
  - intros i k Hi Hk. destruct (Hex i k Hi Hk) as [Z0 Eq]. rewrite Eq. split; [exact Z0|apply Hrange].
  - intros i Hi. destruct (Hlat (ram_vector (nth i tm2 []) (p_elem r0))) as (N & HN). exists N. intros c Hc. rewrite <- HN by exact Hc. unfold Cminus. f_equal. apply (f_equal Copp). apply csum_ext. intros k Hk. rewrite (proj2 (Hex i k Hi Hk)). reflexivity.
Qed.
