From Coq Require Import Reals Lra Lia Permutation.
From Coquelicot Require Import Coquelicot.
From Verif Require Import Base ModelTree ModelInter SpecTree SpecInter ProofTree ProofTreeMax ProofTreeEx ProofInterMain ModelCurve SpecCurve ProofCurve CArg ModelEdge SpecEdge ProofEdge ProofAngle
  ModelSymp SpecSymp ProofSymp ProofSympMain ModelBasis SpecBasis ModelPeriod SpecPeriod ProofPeriod ProofPeriodMain ProofLat8 ProofLat9
  ModelVec SpecVec ProofVec ModelQuad ProofTrap ModelRun ModelTwo SpecRiem ProofRiem1 ProofRiem2 ProofRiem3 ProofRiem4.
Local Open Scope R_scope.

Section Run.
Context (branch_points : list Z -> list C) (squarefree : list Z -> bool)
  (sort : list edge -> list edge) (param : list C -> nat -> nat -> nat -> dbl) (nonpos neg : edge -> C -> bool)
  (xgcd : Z -> Z -> Z * Z * Z) (gamma : R -> R) (m : nat) (f : list Z) (c : sec).
Let x := branch_points f.
Let M := Z.of_nat m.
Let g := Z.to_nat (sec_g c).
Hypothesis (Hdi : distinct x) (Hlen : length x = 2%nat) (Hdeg : degree f = 2%Z) (Hsq : squarefree f = true)
  (Hm : (3 <= m)%nat) (Hc : sec_init M 2 = Done c) (Hsort : forall l, Permutation l (sort l)) (Hgcd : xgcd_ok xgcd).

Lemma counts : tree_edges c = 1%Z /\ (1 <= g)%nat /\ (2 * g <= m - 1 <= 2 * g + 1)%nat /\ length (sec_ni c) = g /\
  (forall q, (q < g)%nat -> (M < 2 * (sec_j1 c + Z.of_nat q))%Z /\ (sec_j1 c + Z.of_nat q < M)%Z) /\ sec_m c = M /\ Z.of_nat g = sec_g c.
Proof using Hm Hc.
  clear Hdi Hlen Hdeg Hsq Hsort Hgcd x branch_points squarefree sort param nonpos neg xgcd gamma f.
  destruct (curve_counts m 2 c Hc ltac:(lia)) as (H1 & H2 & H3 & H4 & _).
  destruct (two_points M c Hc) as (Hni & Hg & _).
  destruct (sec_init_curve_ok M 2 c Hc ltac:(lia)) as (_ & Em & _).
  assert (D : Z.gcd M 2 <> M).
  { intro E. assert (D := Z.gcd_divide_r M 2). rewrite E in D. apply Z.divide_pos_le in D; unfold M in *; lia. }
  assert (T : tree_edges c = 1%Z).
  { unfold tree_edges. unfold sec_init in Hc. destruct (M <? 2)%Z; [discriminate|]. destruct (negb _); [discriminate|].
    destruct (jmin M 2 _); try discriminate. cbn [bind] in Hc. destruct (M - a <? 0)%Z; [discriminate|]. injection Hc as <-.
    cbn [sec_n sec_delta sec_m]. change (to_ulong 2) with 2%Z. destruct (Z.eqb_spec (Z.gcd M 2) M); [contradiction|reflexivity]. }
  rewrite T in *. change (Z.to_nat 1) with 1%nat in *. fold g in H4. change (Z.of_nat 2) with 2%Z in H4. fold M in H4.
  assert (0 < Z.gcd M 2 <= 2)%Z.
  { assert (D2 := Z.gcd_divide_r M 2). apply Z.divide_pos_le in D2; [|lia]. assert (D3 := Z.gcd_nonneg M 2).
    destruct (Z.eq_dec (Z.gcd M 2) 0) as [E|]; [apply Z.gcd_eq_0_r in E; discriminate|lia]. }
  assert (G : (2 * g <= m - 1 <= 2 * g + 1)%nat) by lia.
  assert (L : length (sec_ni c) = g) by (rewrite Hni, repeat_length; reflexivity).
  assert (Gz : Z.of_nat g = sec_g c) by (unfold g; apply Z2Nat.id; destruct (Z_lt_le_dec (sec_g c) 0); [unfold g in G; rewrite Z2Nat.inj_neg in G || idtac; lia|assumption]).
  split; [reflexivity|]. split; [lia|]. split; [exact G|]. split; [exact L|]. split; [|split; [exact Em|exact Gz]].
  intros q Hq. split; [|unfold M in *; lia]. 
  assert (Z.gcd M 2 = 1 \/ Z.gcd M 2 = 2)%Z as [E|E] by lia; rewrite E in H4; [unfold M in *; lia|].
  assert (Z.to_nat 2 = 2%nat) as E2 by reflexivity. rewrite E2 in H4. unfold M in *; lia.
Qed.

Definition d2_value (q : nat) : R := let s := 1 - IZR (sec_j1 c + Z.of_nat q) / IZR M in sqrt PI * gamma s / gamma (s + / 2).

(** one run with two branch points *)
Lemma two_run : exists e ye inter s omA omB (w : nat -> C),
  (ea e < 2)%nat /\ (eb e < 2)%nat /\ ea e <> eb e /\
  ydata_init_edge (nonpos e) (neg e) x (ea e) (eb e) M = Done ye /\
  chain (m - 1) (to_rows inter) /\ symplectic_reduction xgcd (to_rows inter) g = Done s /\ inv (m - 1) g s /\
  unimodular (m - 1) (stP s) /\ congruent (m - 1) (stP s) (to_rows inter) (stM s) /\
  periods_d2 branch_points squarefree sort param nonpos neg xgcd gamma M f = Done (omA, omB) /\ length omA = g /\ length omB = g /\
  (forall q, (q < g)%nat -> let j := (sec_j1 c + Z.of_nat q)%Z in
    w q = ((RtoC 1 - root M (- j)) / cpow (y_c ye) (Z.to_nat j) * ((vget x (eb e) - vget x (ea e)) / RtoC 2 * RtoC (d2_value q)))%C) /\
  forall k q, (k < g)%nat -> (q < g)%nat -> let j := (sec_j1 c + Z.of_nat q)%Z in
    entry omA q k = com (m - 1) (stP s) (chainE m j (w q)) (2 * k) /\
    entry omB q k = com (m - 1) (stP s) (chainE m j (w q)) (2 * k + 1).
Proof using Hdi Hlen Hdeg Hsq Hm Hc Hsort Hgcd.
  destruct counts as (T & G1 & G2 & L & J & Em & Gz).
  assert (Hc' : sec_init (Z.of_nat m) (Z.of_nat (length x)) = Done c) by (rewrite Hlen; exact Hc).
  destruct (tree_final sort (param x) (length x) 1 (Some 0%Z) 0 Hsort ltac:(lia)) as (es & r' & mn' & Et & Hes & Hgr & _ & _ & Hto & _).
  assert (Et' : spanning_tree sort (param x) (length x) (Z.to_nat (tree_edges c)) (Some 0%Z) 0 = Done (es, r', mn')) by (rewrite T; exact Et).
  destruct (curve_reduces xgcd sort (param x) nonpos neg x m c _ _ es r' mn' Hdi ltac:(lia) Hc' Hsort Hgcd Et')
    as (ys & inter & s & Ey & Ei & Es & HS & HA & HU & HC & _).
  rewrite T in HS, HA, HU, HC. change (Z.to_nat 1) with 1%nat in *. rewrite Nat.mul_1_l in *. fold g in Es.
  destruct es as [|e [|e2 es]]; try (cbn in Hes; lia).
  assert (He := growing_edges [e] (length x) Hgr Hto e (or_introl eq_refl)). destruct He as (Ha & Hb & Hne).
  destruct (tree_ydata_done nonpos neg x m [e] Hdi ltac:(lia)) as (ys' & Ey' & Hly & Hny).
  { intros e' [<-|[]]. auto. }
  rewrite Ey in Ey'. injection Ey' as <-.
  assert (Hab : vget x (ea e) <> vget x (eb e)).
  { intro E. apply Hne. unfold distinct in Hdi. rewrite NoDup_nth in Hdi. apply (Hdi _ _ Ha Hb). exact E. }
  specialize (Hny 0%nat ltac:(cbn; lia)). cbn [nth] in Hny. set (ye := nth 0 ys no_ydata) in *.
  assert (F : y_ba2 ye = ((vget x (eb e) - vget x (ea e)) / RtoC 2)%C /\
    y_ab ye = ((vget x (ea e) + vget x (eb e)) / (vget x (eb e) - vget x (ea e)))%C /\ y_c ye <> RtoC 0).
  { destruct (init_spec (nonpos e) (neg e) x (ea e) (eb e) m Ha Hb Hab ltac:(lia)) as (y' & E' & _ & _ & _ & _ & H1 & H2 & _ & H3 & _).
    rewrite Hny in E'. injection E' as <-. auto. }
  destruct F as (F1 & F2 & F3).
  assert (HK : chain (m - 1) (to_rows inter)).
  { split; [exact HS|]. intros a b Hja Hjb.
    assert (RG : get (to_rows inter) a b = cell inter (Z.of_nat a) (Z.of_nat b)).
    { apply (rows_get x m [e] ys inter ltac:(lia) Hto Ei a b); cbn [length]; lia. }
    rewrite RG. destruct (self_final _ _ _ M inter ltac:(unfold M; lia) Ei 0 (Z.of_nat a) (Z.of_nat b) ltac:(cbn; lia) ltac:(unfold M; lia) ltac:(unfold M; lia)) as [S1 S2].
    cbv zeta in S1, S2. rewrite !Z.add_0_l in S1, S2. 
    destruct (Nat.eqb_spec b (a + 1)) as [E|E]; [apply S1; lia|]. destruct (Nat.eqb_spec a (b + 1)) as [E'|E']; [apply S2; lia|].
    destruct (returned_spec _ _ _ M inter ltac:(unfold M; lia) Ei) as [_ H].
    specialize (H 0%nat 0%nat (Z.of_nat a) (Z.of_nat b) ltac:(cbn; lia) ltac:(cbn; lia) ltac:(unfold M; lia) ltac:(unfold M; lia)).
    change (Z.of_nat 0 * (M - 1))%Z with 0%Z in H. rewrite !Z.add_0_l in H. rewrite H in *. unfold intersection in *. rewrite !Nat.ltb_irrefl in *.
    destruct (number_range M 1 (-1) (Z.of_nat b - Z.of_nat a)) as [Q|[Q|Q]].
    + exfalso. rewrite Q in S2. lia.
    + exact Q.
    + exfalso. rewrite Q in S1. lia. }
  destruct (chain_reduction xgcd (m - 1) g (to_rows inter) HK ltac:(lia)) as (s' & Es' & I). rewrite Es in Es'. injection Es' as <-.
  destruct (d2_values gamma M c Hc) as (D1 & D2 & D3).
  destruct (edge_factors_final M 2 c (vget x (ea e)) (vget x (eb e)) (y_c ye) (fun q h => RtoC (d2_value q) * h (RtoC 0))%C
    (integral_d2_raw gamma c) Hc ltac:(lia) Hab F3) as (v & Ev & Lv & Hv).
  { intros q n a. cbv beta. rewrite <- csum_scal. apply csum_ext. intros. ring. }
  { exact D1. }
  { intros q Hq l Hl. destruct (D2 q Hq) as [N1 N2]. rewrite N1 in Hl. change (Z.to_nat 1) with 1%nat in Hl. rewrite N2. replace (q + l)%nat with q by lia.
    rewrite (D3 q Hq). fold (d2_value q). replace l with O by lia. cbn [cpow]. unfold d2_value. fold M. ring. }
  rewrite <- F1, <- F2 in Ev.
  assert (IO : integrals_ok c (Z.to_nat (tree_edges c)) [v]).
  { rewrite T. split; [reflexivity|]. intros row [<-|[]]. rewrite Lv. exact D1. }
  destruct (curve_periods xgcd sort (param x) nonpos neg x m c _ _ [e] r' mn' [v] Hdi ltac:(lia) Hc' Hsort Hgcd Et' IO)
    as (ys2 & inter2 & s2 & Ey2 & Ei2 & Es2 & _ & HP).
  fold g in Es2, HP. fold M in Ey, Ei, Ey2, Ei2. assert (ys2 = ys) by congruence. subst ys2. assert (inter2 = inter) by congruence. subst inter2. assert (s2 = s) by congruence. subst s2.
  destruct HP as (loops & omA & omB & EL & EA & LA & EB & LB & HE).
  { intros i y Hi Hy. destruct (In_nth _ _ 0%Z Hy) as (p & Hp & <-).
    assert (SQ := iv_P _ _ _ I). assert (length (nth i (stP s) []) = (m - 1)%nat) as LR.
    { apply SQ. apply nth_In. rewrite (proj1 SQ). lia. }
    rewrite LR in Hp. destruct (inv_entries (m - 1) g s I i p ltac:(lia) Hp) as [Q|Q]; unfold get in Q; rewrite Q; lia. }
  exists e, ye, inter, s, omA, omB, (fun q => vget v q).
  split; [lia|]. split; [lia|]. split; [exact Hne|]. split; [exact Hny|]. split; [exact HK|]. split; [exact Es|]. split; [exact I|].
  split; [exact HU|]. split; [exact HC|]. split.
  { unfold periods_d2, homology. fold x.
    assert (AJ : aj_init M f (squarefree f) = Done (c, tree_edges c)).
    { unfold aj_init, sec_init_poly. rewrite Hdeg, Hc. cbn [bind]. rewrite Hsq. cbn [negb]. destruct (Z.ltb_spec (sec_g c) 1); [lia|reflexivity]. }
    rewrite AJ. cbn [bind]. rewrite Et'. cbn [bind]. rewrite Ey. cbn [bind]. rewrite Ei. cbn [bind]. fold g. fold M in EL. rewrite EL. cbn [bind].
    unfold integral_d2. fold ye. rewrite Ev. cbn [bind]. cbv zeta iota beta. match goal with |- context [period_matrix c (map fst loops) ?l] => change l with [v] end. rewrite EA. cbn [bind]. rewrite EB. reflexivity. }
  split; [exact LA|]. split; [exact LB|]. split.
  { intros q Hq. cbv zeta. destruct (D2 q ltac:(lia)) as [N1 N2]. specialize (Hv q 0%nat ltac:(lia) ltac:(lia)). rewrite N2, Nat.add_0_r in Hv.
    rewrite Hv. cbn [cpow]. ring. }
  intros k q Hk Hq. cbv zeta. destruct (D2 q ltac:(lia)) as [N1 N2]. destruct (HE k q 0%nat Hk ltac:(lia) ltac:(lia)) as [E1 E2].
  rewrite N2, Nat.add_0_r in E1, E2. unfold entry. rewrite E1, E2.
  assert (RP : forall i, (i < m - 1)%nat -> row_period c [v] (nth i (stP s) []) (sec_j1 c + Z.of_nat q) q = com (m - 1) (stP s) (chainE m (sec_j1 c + Z.of_nat q) (vget v q)) i).
  { intros i Hi. unfold row_period, com. assert (SQ := iv_P _ _ _ I). assert (length (nth i (stP s) []) = (m - 1)%nat) as ->.
    { apply SQ. apply nth_In. rewrite (proj1 SQ). lia. }
    apply csum_ext. intros p Hp. rewrite Em. unfold chainE, get. fold M. rewrite Z.mod_small, Z.div_small by (unfold M; lia). cbn [Z.to_nat nth]. ring. }
  split; apply RP; lia.
Qed.
End Run.
