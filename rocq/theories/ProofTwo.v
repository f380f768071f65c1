(** Two branch points: the values of the program are the periods, without error. *)
From Coq Require Import Reals Lra Lia Permutation.
From Coquelicot Require Import Coquelicot.
From Verif Require Import Base ModelTree ModelInter SpecTree ModelCurve CArg ModelEdge SpecEdge ProofEdge
  ModelSymp SpecSymp ModelBasis ModelPeriod SpecPeriod ModelVec ModelQuad ProofTrap SpecErr ProofErr6 SpecDeq SpecLead ProofDeq ProofLead
  ModelRun ModelTwo SpecRiem ProofRiem1 ProofRiem2 ProofRiem3 ProofRiem4 ProofRiem5 SpecGamma ProofBeta ProofGamma.
Local Open Scope R_scope.

(** the closed form is an integral *)
Lemma d2_integral (gamma : R -> R) m c : is_gamma gamma -> sec_init m 2 = Done c -> forall q, (q < length (sec_ni c))%nat ->
  exists v, vget (integral_d2_raw gamma c) q = RtoC v /\
    is_RInt_gen (fun t => Rpower (1 - t * t) (- (IZR (sec_j1 c + Z.of_nat q) / IZR m))) (at_right (-1)) (at_left 1) v.
Proof.
  intros HG Hc q Hq. destruct (d2_values gamma m c Hc) as (_ & _ & D3). destruct (two_points m c Hc) as (Hni & Hg & Hm).
  eexists. split; [exact (D3 q Hq)|]. set (s := 1 - IZR (sec_j1 c + Z.of_nat q) / IZR m).
  assert (Hs : 0 < s).
  { rewrite Hni, repeat_length in Hq. unfold s. assert (Hz : (sec_j1 c + Z.of_nat q < m)%Z) by lia. apply IZR_lt in Hz.
    assert (0 < IZR m) by (apply IZR_lt; lia). apply (Rmult_lt_reg_r (IZR m)); [assumption|]. rewrite Rmult_0_l, Rmult_minus_distr_r. unfold Rdiv.
    rewrite Rmult_assoc, Rinv_l by lra. lra. }
  assert (B := bint_gamma gamma HG s Hs). unfold bint, gen in B.
  replace (- (IZR (sec_j1 c + Z.of_nat q) / IZR m)) with (s - 1) by (unfold s; ring). exact B.
Qed.

Lemma is_int_real (f : R -> R) I : gen f I -> is_int (fun t => RtoC (f t)) (RtoC I).
Proof.
  intros H. split; [exact H|]. cbn. assert (E := gen_ext_in _ _ _ (fun t _ => Rmult_0_l (f t)) (gen_scal f 0 I H)).
  rewrite Rmult_0_l in E. exact E.
Qed.

Section Exact.
Context (branch_points : list Z -> list C) (squarefree : list Z -> bool)
  (sort : list edge -> list edge) (param : list C -> nat -> nat -> nat -> dbl) (nonpos neg : edge -> C -> bool)
  (xgcd : Z -> Z -> Z * Z * Z) (gamma : R -> R) (m : nat) (f : list Z) (c : sec) (s : C).
Let x := branch_points f.
Let M := Z.of_nat m.
Let g := Z.to_nat (sec_g c).
Hypothesis (Hx : roots_of f x) (Hdi : distinct x) (Hlen : length x = 2%nat) (Hsq : squarefree f = true)
  (Hm : (3 <= m)%nat) (Hc : sec_init M 2 = Done c) (Hs : cpow s m = ZC (leading f)) (Hsort : forall l, Permutation l (sort l)) (Hgcd : xgcd_ok xgcd)
  (HG : is_gamma gamma).

Lemma Cinv_RtoC r : r <> 0 -> (/ RtoC r)%C = RtoC (/ r).
Proof. intros H. rewrite RtoC_inv by exact H. reflexivity. Qed.

Lemma edge_exact e ye (w : nat -> C) :
  (ea e < 2)%nat -> (eb e < 2)%nat -> ea e <> eb e -> ydata_init_edge (nonpos e) (neg e) x (ea e) (eb e) M = Done ye ->
  (forall q, (q < g)%nat -> let j := (sec_j1 c + Z.of_nat q)%Z in
    w q = ((RtoC 1 - root M (- j)) / cpow (y_c ye) (Z.to_nat j) * ((vget x (eb e) - vget x (ea e)) / RtoC 2 * RtoC (d2_value gamma m c q)))%C) ->
  cycle_integrals m c x (vget x (ea e)) (vget x (eb e)) (y_ya ye) (y_yb ye) (vtab g w).
Proof using All.
  intros Ha Hb Hne Hye Hw. destruct (counts m c Hm Hc) as (_ & G1 & _ & L & J & _ & _). fold g in G1, L, J.
  assert (Hab : vget x (ea e) <> vget x (eb e)).
  { intro E. apply Hne. unfold distinct in Hdi. rewrite NoDup_nth in Hdi. apply (Hdi (ea e) (eb e)); [lia|lia|exact E]. }
  destruct (init_spec (nonpos e) (neg e) x (ea e) (eb e) m ltac:(lia) ltac:(lia) Hab ltac:(lia)) as (y' & E' & HP & _ & _ & _ & _ & _ & _ & H3 & Eya & Eyb).
  fold M in E'. rewrite Hye in E'. injection E' as <-.
  assert (Eu : y_u ye = []).
  { apply Permutation_length in HP. rewrite map_length in HP. pose proof (other_points_length (length x) (ea e) (eb e) ltac:(lia) ltac:(lia) Hne). destruct (y_u ye); [reflexivity|]. cbn in HP. lia. }
  assert (Et : forall t, y_tilde M (y_u ye) (y_n1 ye) t = RtoC 1).
  { intro t. unfold y_tilde. rewrite Eu. destruct (y_n1 ye); cbn; ring. }
  fold M in Eya, Eyb. rewrite Et in Eya, Eyb.
  exists (fun t => RtoC (rroot M (1 - t * t)) * y_c ye)%C. split.
  - exists (fun _ => y_c ye). split; [rewrite Eya; ring|]. split; [rewrite Eyb; ring|]. split.
    + intros t _. split; apply continuous_const.
    + intros t Ht. split; [reflexivity|].
      assert (Eq := curve_equation (nonpos e) (neg e) x (ea e) (eb e) m ltac:(lia) ltac:(lia) Hab ltac:(lia) ye (RtoC t) Hye). rewrite Eq. fold M. rewrite Et.
      rewrite Cmult_1_r, cpow_mul. f_equal. rewrite cpow_RtoC. unfold M. rewrite CArg.rroot_pow; [|lia|assert (K := Rmult_le_pos (1 - t) (1 + t) ltac:(lra) ltac:(lra)); lra].
      now rewrite RtoC_minus, RtoC_mult.
  - destruct (d2_values gamma M c Hc) as (_ & D2 & _).
    intros q i Hq Hi j. destruct (D2 q Hq) as (E1 & Eo). rewrite E1 in Hi. replace i with O by lia. rewrite Eo, Nat.add_0_r.
    rewrite L in Hq. destruct (J q Hq) as (J1 & J2). set (jz := (sec_j1 c + Z.of_nat q)%Z) in *.
    set (I1 := ((vget x (eb e) - vget x (ea e)) / RtoC 2 / cpow (y_c ye) j * RtoC (d2_value gamma m c q))%C).
    assert (H1 : integral_over (vget x (ea e)) (vget x (eb e)) (fun t => RtoC (rroot M (1 - t * t)) * y_c ye)%C j 0 I1).
    { unfold integral_over, I1. set (sv := 1 - IZR jz / IZR M).
      assert (Mp : 0 < IZR M) by (apply IZR_lt; unfold M; lia).
      assert (Hsv : 0 < sv).
      { unfold sv. apply (Rmult_lt_reg_r (IZR M)); [exact Mp|]. rewrite Rmult_0_l, Rmult_minus_distr_r. unfold Rdiv. rewrite Rmult_assoc, Rinv_l by lra.
        apply IZR_lt in J2. fold M in J2. lra. }
      apply (is_int_scaled (fun t => RtoC (Rpower (1 - t * t) (sv - 1)))).
      - intros t Ht. cbn [cpow]. assert (P := ProofBeta.sq_pos t Ht). rewrite cpow_mul, cpow_RtoC.
        assert (Er : rroot M (1 - t * t) ^ j = Rpower (1 - t * t) (IZR jz / IZR M)).
        { unfold rroot. destruct (Rlt_dec 0 (1 - t * t)); [|contradiction]. rewrite <- Rpower_pow by apply exp_pos. rewrite Rpower_mult. f_equal.
          rewrite INR_IZR_INZ. unfold j. rewrite Z2Nat.id by lia. fold jz. unfold Rdiv. ring. }
        rewrite Er. unfold Cdiv. rewrite Cinv_prod, (Cinv_RtoC (Rpower (1 - t * t) (IZR jz / IZR M))) by (apply Rgt_not_eq, exp_pos).
        rewrite <- Rpower_Ropp. replace (- (IZR jz / IZR M)) with (sv - 1) by (unfold sv; ring). ring.
      - apply is_int_real. exact (bint_gamma gamma HG sv Hsv). }
    exists I1, (I1 / cpow (root M 1) j)%C. split; [exact H1|]. split; [exact (integral_scaled _ _ _ _ _ _ (root M 1) H1)|].
    rewrite vget_tab by (exact Hq). rewrite (Hw q Hq). fold jz j. rewrite root_pow. unfold I1.
    assert (Er : (/ root M (Z.of_nat j * 1))%C = root M (- jz)).
    { assert (E2 : (root M (Z.of_nat j * 1) * root M (- jz))%C = RtoC 1).
      { rewrite <- root_add, <- (root_0 M). f_equal. unfold j. rewrite Z2Nat.id by lia. fold jz. lia. }
      assert (N : root M (Z.of_nat j * 1) <> RtoC 0) by (intro E0; rewrite E0, Cmult_0_l in E2; injection E2; lra).
      transitivity (/ root M (Z.of_nat j * 1) * (root M (Z.of_nat j * 1) * root M (- jz)))%C; [rewrite E2; ring|]. rewrite Cmult_assoc, Cinv_l by exact N. ring. }
    unfold Cdiv. rewrite Er. ring.
Qed.

Lemma two_exact : exists a b ya yb w P N omA omB,
  (a < 2)%nat /\ (b < 2)%nat /\ a <> b /\
  curve_integrals m c f (vget x a) (vget x b) ya yb w /\
  (exists inter, chain (m - 1) inter /\ SpecSymp.square (m - 1) P /\ unimodular (m - 1) P /\ congruent (m - 1) P inter N /\ canonical (m - 1) g N) /\
  periods_d2 branch_points squarefree sort param nonpos neg xgcd gamma M f = Done (omA, omB) /\ length omA = g /\ length omB = g /\
  forall k q, (k < g)%nat -> (q < g)%nat -> let j := (sec_j1 c + Z.of_nat q)%Z in
    entry omA q k = (cpow s (Z.to_nat j) * row_period c [w] (nth (2 * k) P []) j q)%C /\
    entry omB q k = (cpow s (Z.to_nat j) * row_period c [w] (nth (2 * k + 1) P []) j q)%C.
Proof using All.
  assert (Hdeg : degree f = 2%Z) by (rewrite (proj1 Hx), Hlen; reflexivity).
  assert (Hs0 : s <> RtoC 0) by (apply (lead_nonzero f m); [lia|lia|exact Hs]).
  destruct (counts m c Hm Hc) as (_ & G1 & G2 & L & J & Em & _). fold g in G1, G2, L, J.
  destruct (two_run branch_points squarefree sort param nonpos neg xgcd gamma m f c Hdi Hlen Hdeg Hsq Hm Hc Hsort Hgcd)
    as (e & ye & inter & st & omA & omB & w & Ha & Hb & Hne & Hye & HK & Es & I & HU & HC & Er & LA & LB & Hw & HE).
  fold x in Hye, Hw. fold g in Es, I, LA, LB, Hw, HE. fold M in Hye, Hw, Er.
  assert (HCy := edge_exact e ye w Ha Hb Hne Hye Hw).
  destruct (curve_scaled m f x s Hx Hs Hs0 c _ _ _ _ _ HCy) as (w' & HI & Hsc).
  exists (ea e), (eb e), (s * y_ya ye)%C, (s * y_yb ye)%C, w', (stP st), (stM st), omA, omB.
  split; [exact Ha|]. split; [exact Hb|]. split; [exact Hne|]. split; [exact HI|]. split.
  { exists (to_rows inter). split; [exact HK|]. split; [exact (iv_P _ _ _ I)|]. split; [exact HU|]. split; [exact HC|]. apply (inv_canonical _ _ _ I). lia. }
  split; [exact Er|]. split; [exact LA|]. split; [exact LB|].
  destruct (d2_values gamma M c Hc) as (_ & D2 & _).
  assert (Hrow : forall q k, (q < g)%nat -> (k < m - 1)%nat -> let j := (sec_j1 c + Z.of_nat q)%Z in
    com (m - 1) (stP st) (chainE m j (w q)) k = (cpow s (Z.to_nat j) * row_period c [w'] (nth k (stP st) []) j q)%C).
  { intros q k Hq Hk j. assert (Hw' : w q = (cpow s (Z.to_nat j) * vget w' q)%C).
    { destruct (D2 q ltac:(lia)) as (E1 & Eo). specialize (Hsc q 0%nat ltac:(lia) ltac:(rewrite E1; lia)). cbv zeta in Hsc. rewrite Eo, Nat.add_0_r, vget_tab in Hsc by exact Hq. exact Hsc. }
    unfold com, row_period. destruct (iv_P _ _ _ I) as [SP1 SP2]. rewrite (SP2 (nth k (stP st) [])) by (apply nth_In; lia).
    rewrite <- csum_scal. apply csum_ext. intros p Hp. unfold chainE. rewrite Em. fold M.
    assert (Pm : (Z.of_nat p mod (M - 1))%Z = Z.of_nat p) by (apply Z.mod_small; unfold M; lia).
    assert (Pd : (Z.of_nat p / (M - 1))%Z = 0%Z) by (apply Z.div_small; unfold M; lia).
    rewrite Pm, Pd. cbn [Z.to_nat nth]. rewrite Hw'. unfold get. ring. }
  intros k q Hk Hq j. destruct (HE k q Hk Hq) as [EA EB]. rewrite EA, EB. split; apply Hrow; lia.
Qed.
End Exact.
