From Coq Require Import Reals Lra Lia Permutation.
From Coquelicot Require Import Coquelicot.
From Verif Require Import Base ModelTree ModelInter SpecTree ModelCurve CArg ModelEdge SpecEdge
  ModelSymp SpecSymp ModelBasis ModelPeriod SpecPeriod ModelVec ModelQuad ModelRun ModelTwo SpecRiem ProofRiem1 ProofRiem2 ProofRiem3 ProofRiem4 ProofRiem5.
From Verif Require Import ProofEdge.
Local Open Scope R_scope.

Lemma ZC_conj z : Cconj (ZC z) = ZC z.
Proof. unfold ZC, RtoC, Cconj. cbn. f_equal. ring. Qed.
Lemma com_conj N P F k : com N P (fun p => Cconj (F p)) k = Cconj (com N P F k).
Proof. unfold com. rewrite Cconj_csum. apply csum_ext. intros. now rewrite Cmult_conj, ZC_conj. Qed.

Lemma unique_quotient g A B tau tau' : nonsingular g A -> solves g A tau B -> solves g A tau' B ->
  forall i k, (i < g)%nat -> (k < g)%nat -> tau i k = tau' i k.
Proof.
  intros HN H1 H2 i k Hi Hk. assert (E : (tau i k - tau' i k)%C = C0).
  { apply (nonsing_right g A HN (fun l => (tau l k - tau' l k)%C)); [|exact Hi]. intros q Hq.
    rewrite (csum_ext g _ (fun l => A q l * tau l k + (- C1) * (A q l * tau' l k))%C) by (intros; ring).
    rewrite csum_add, csum_scal, H1, H2 by assumption. ring. }
  replace (tau i k) with (tau i k - tau' i k + tau' i k)%C by ring. rewrite E. ring.
Qed.

Lemma riemann_two branch_points squarefree sort param nonpos neg xgcd gamma m f c :
  let x := branch_points f in let g := Z.to_nat (sec_g c) in
  distinct x -> length x = 2%nat -> degree f = 2%Z -> squarefree f = true -> (3 <= m)%nat -> sec_init (Z.of_nat m) 2 = Done c ->
  (forall l, Permutation l (sort l)) -> xgcd_ok xgcd -> (forall s, 0 < s -> 0 < gamma s) ->
  exists omA omB, periods_d2 branch_points squarefree sort param nonpos neg xgcd gamma (Z.of_nat m) f = Done (omA, omB) /\
    length omA = g /\ length omB = g /\
    exists tau, solves g (entry omA) tau (entry omB) /\ riemann_matrix g tau /\
      forall tau', solves g (entry omA) tau' (entry omB) -> forall i k, (i < g)%nat -> (k < g)%nat -> tau' i k = tau i k.
Proof.
  intros x g Hdi Hlen Hdeg Hsq Hm Hc Hsort Hgcd Hgam.
  destruct (counts m c Hm Hc) as (_ & G1 & G2 & _ & J & _ & _). fold g in G1, G2, J.
  destruct (two_run branch_points squarefree sort param nonpos neg xgcd gamma m f c Hdi Hlen Hdeg Hsq Hm Hc Hsort Hgcd)
    as (e & ye & inter & s & omA & omB & w & Ha & Hb & Hne & Hye & HK & Es & I & HU & HC & Er & LA & LB & Hw & HE).
  fold x in Hye, Hw. fold g in Es, I, LA, LB, Hw, HE.
  assert (HM := inv_canonical (m - 1) g s I ltac:(lia)). assert (HR := inv_rest (m - 1) g s I ltac:(lia)).
  exists omA, omB. split; [exact Er|]. split; [exact LA|]. split; [exact LB|].
  assert (Hab : vget x (ea e) <> vget x (eb e)).
  { intro E. apply Hne. unfold distinct in Hdi. rewrite NoDup_nth in Hdi. apply (Hdi (ea e) (eb e)); [fold x; lia|fold x; lia|exact E]. }
  assert (F3 : y_c ye <> RtoC 0).
  { destruct (init_spec (nonpos e) (neg e) x (ea e) (eb e) m ltac:(lia) ltac:(lia) Hab ltac:(lia)) as (y' & E' & _ & _ & _ & _ & _ & _ & _ & H3 & _).
    rewrite Hye in E'. injection E' as <-. exact H3. }
  set (M := Z.of_nat m) in *. set (jj := fun q => (sec_j1 c + Z.of_nat q)%Z) in *.
  assert (HW : forall q, (q < g)%nat -> w q <> C0).
  { intros q Hq. rewrite Hw by exact Hq. destruct (J q Hq) as [J1 J2]. fold (jj q) in J1, J2 |- *.
    assert (Mp : 0 < IZR M) by (apply IZR_lt; unfold M; lia).
    assert (S0 : 0 < 1 - IZR (jj q) / IZR M).
    { apply IZR_lt in J2. apply (Rmult_lt_reg_r (IZR M)); [exact Mp|]. replace ((1 - IZR (jj q) / IZR M) * IZR M) with (IZR M - IZR (jj q)) by (field; lra). lra. }
    apply Cmult_neq_0'; [|apply Cmult_neq_0'].
    - unfold Cdiv. apply Cmult_neq_0'.
      + intro E. apply (root_neq_1 M (- jj q)); [unfold M; lia| |].
        * intros [z Hz]. assert (z = 0 \/ z < -1 \/ z = -1 \/ 0 < z)%Z by lia. unfold M in *. nia.
        * replace (root M (- jj q)) with (C1 - (C1 - root M (- jj q)))%C by ring. rewrite E. ring.
      + intro E. apply (f_equal (fun z => cpow (y_c ye) (Z.to_nat (jj q)) * z)%C) in E.
        rewrite Cinv_r in E by now apply cpow_neq_0. rewrite Cmult_0_r in E. injection E. lra.
    - unfold Cdiv. apply Cmult_neq_0'.
      + intro E. apply Hab. replace (vget x (eb e)) with (vget x (eb e) - vget x (ea e) + vget x (ea e))%C by ring. rewrite E. ring.
      + intro E. apply (f_equal (fun z => RtoC 2 * z)%C) in E. rewrite Cinv_r in E by (intro Q; injection Q; lra). rewrite Cmult_0_r in E. injection E. lra.
    - intro E. injection E as E. assert (0 < d2_value gamma m c q); [|lra]. unfold d2_value. fold M. fold (jj q).
      apply Rdiv_lt_0_compat; [apply Rmult_lt_0_compat; [apply sqrt_lt_R0, PI_RGT_0|apply Hgam, S0]|apply Hgam; lra]. }
  set (E := fun q => chainE m (jj q) (w q)). set (X := fun q => chainX m (jj q) (w q)).
  assert (EX : forall q, (q < g)%nat -> forall p, (p < m - 1)%nat -> csum (m - 1) (fun k => ZC (get (to_rows inter) p k) * X q k)%C = E q p).
  { intros q Hq. apply (chainX_solves m Hm (to_rows inter) HK). apply J, Hq. }
  assert (RZ : forall q, (q < g)%nat -> forall i, (2 * g <= i < m - 1)%nat -> com (m - 1) (stP s) (E q) i = C0).
  { intros q Hq. apply (rest_zero (m - 1) g (stP s) (to_rows inter) (stM s) HU HC ltac:(lia) (E q) (X q) (EX q Hq) HR). }
  set (h := fun q => (fst (w q) * fst (w q) + snd (w q) * snd (w q)) * (INR m / (2 * - sin (2 * PI * IZR (jj q) / IZR M)))).
  assert (R1 : forall j l, (j < g)%nat -> (l < g)%nat -> csum g (fun k => (entry omA j k * entry omB l k - entry omB j k * entry omA l k)%C) = C0).
  { intros j l Hj Hl.
    rewrite (csum_ext g _ (fun k => com (m - 1) (stP s) (E j) (2 * k) * com (m - 1) (stP s) (E l) (2 * k + 1) - com (m - 1) (stP s) (E j) (2 * k + 1) * com (m - 1) (stP s) (E l) (2 * k))%C).
    2:{ intros k Hk. destruct (HE k j Hk Hj) as [-> ->]. destruct (HE k l Hk Hl) as [-> ->]. reflexivity. }
    rewrite (bilinear (m - 1) g (stP s) (to_rows inter) (stM s) HU HC HM ltac:(lia) (E j) (X j) (E l) (EX j Hj) (RZ l Hl)).
    apply (first_relation m Hm); apply J; assumption. }
  assert (R2 : forall j l, (j < g)%nat -> (l < g)%nat ->
    csum g (fun k => (entry omA j k * Cconj (entry omB l k) - entry omB j k * Cconj (entry omA l k))%C) = if Nat.eqb j l then (0, - h j) else C0).
  { intros j l Hj Hl.
    rewrite (csum_ext g _ (fun k => com (m - 1) (stP s) (E j) (2 * k) * com (m - 1) (stP s) (fun p => Cconj (E l p)) (2 * k + 1) -
       com (m - 1) (stP s) (E j) (2 * k + 1) * com (m - 1) (stP s) (fun p => Cconj (E l p)) (2 * k))%C).
    2:{ intros k Hk. rewrite !com_conj. destruct (HE k j Hk Hj) as [-> ->]. destruct (HE k l Hk Hl) as [-> ->]. reflexivity. }
    rewrite (bilinear (m - 1) g (stP s) (to_rows inter) (stM s) HU HC HM ltac:(lia) (E j) (X j) (fun p => Cconj (E l p)) (EX j Hj)).
    2:{ intros i Hi. rewrite com_conj, RZ by assumption. unfold Cconj, RtoC. cbn. f_equal. ring. }
    unfold X, E. rewrite (second_relation m Hm (jj j) (jj l) (w j) (w l) (J j Hj) (J l Hl)).
    destruct (Nat.eqb_spec j l) as [<-|Ne].
    - rewrite Z.eqb_refl. unfold h. fold M. assert (Hs := sin_neg_j m Hm (jj j) (J j Hj)). fold M in Hs.
      destruct (w j) as [a b]. unfold Cconj, Cmult. apply injective_projections; cbn [fst snd]; field; lra.
    - destruct (Z.eqb_spec (jj j) (jj l)) as [Q|Q]; [unfold jj in Q; lia|reflexivity]. }
  assert (Hh : forall j, (j < g)%nat -> 0 < h j).
  { intros j Hj. unfold h. assert (Hs := sin_neg_j m Hm (jj j) (J j Hj)). fold M in Hs. apply Rmult_lt_0_compat; [apply sq_pos, HW, Hj|].
    apply Rdiv_lt_0_compat; [apply lt_0_INR; lia|lra]. }
  assert (NS := relations_nonsing g (entry omA) (entry omB) h Hh R1 R2).
  destruct (solvable g (entry omA) (entry omB) NS) as (tau & Ht). exists tau. split; [exact Ht|].
  split; [exact (relations_riemann g (entry omA) (entry omB) h Hh R1 R2 tau Ht)|].
  intros tau' Ht'. apply (unique_quotient g (entry omA) (entry omB)); assumption.
Qed.
