(** The run on balls for two branch points follows the exact one. *)
From Coq Require Import Reals Lra Lia Permutation.
From Coquelicot Require Import Coquelicot.
From Verif Require Import Base CArg ModelTree SpecTree ProofTreeEx ModelInter ModelCurve ModelSymp SpecSymp ModelBasis
  ModelPeriod SpecPeriod ModelVec ModelQuad ModelEdge SpecEdge SpecDeq ModelRun SpecLead ModelTwo SpecRiem SpecTwo SpecGamma ProofLead ProofTwo ProofRiem5 ProofRiem6
  ProofEdge ProofAngle SpecExtra ModelBall SpecBall ProofBall1 ProofBall4 ProofBall5 ProofBall6 ModelBallTwo SpecBallTwo.
From Verif Require SpecBallTau.
Local Open Scope R_scope.

Section Two.
Context (A : arith) (G : gammas A) (mem : ball A -> C -> Prop) (gamma : R -> R)
  (bp : Z -> list Z -> list (ball A)) (squarefree : list Z -> bool) (sort : list edge -> list edge)
  (param : list (ball A) -> nat -> nat -> nat -> dbl) (xgcd : Z -> Z -> Z * Z * Z) (extra : list (ball A) -> list edge -> sec -> Z)
  (m : nat) (f : list Z) (c : sec) (prec : Z).
Let M := Z.of_nat m.
Let g := Z.to_nat (sec_g c).
Hypotheses (S : sound A mem) (HG : gsound A G mem gamma) (Hpos : forall t, 0 < t -> 0 < gamma t) (Hf : finds_roots mem bp f) (Hdeg : degree f = 2%Z) (Hsq : squarefree f = true)
  (Hm : (3 <= m)%nat) (Hc : sec_init M 2 = Done c) (Hsort : forall l, Permutation l (sort l)).
Notation mv := (Forall2 mem).
Notation mm := (Forall2 (Forall2 mem)).
Local Notation sim := (simu (undecided A mem)).

Lemma raw_mem p : mv (b_integral_d2_raw A G p c) (integral_d2_raw gamma c).
Proof using All.
  destruct (counts m c Hm Hc) as (_ & G1 & G2 & L & J & Em & Gz). fold g in G1, G2, L, J.
  unfold b_integral_d2_raw, integral_d2_raw. apply Forall2_tab. intros k Hk. fold g in Hk.
  assert (Hj : (0 < sec_g c - Z.of_nat k)%Z) by (unfold g in Hk; lia). assert (Hm0 : (0 < sec_m c)%Z) by (rewrite Em; lia).
  set (j := (sec_g c - Z.of_nat k)%Z) in *.
  assert (R1 : 0 < IZR (sec_m c)) by now apply IZR_lt.
  set (jm := IZR j / IZR (sec_m c)).
  assert (E1 : jm + / 2 = IZR (2 * j + sec_m c) / IZR (2 * sec_m c)).
  { unfold jm. rewrite plus_IZR, !mult_IZR. field. lra. }
  assert (P0 : 0 < jm) by (apply Rdiv_lt_0_compat; [now apply IZR_lt|exact R1]).
  assert (P1 := Hpos (jm + / 2) ltac:(lra)).
  rewrite RtoC_div, RtoC_mult by lra. apply (s_div A mem S).
  - apply (s_mul A mem S); [apply (g_sqrt_pi A G mem gamma HG)|]. now apply (g_gamma A G mem gamma HG).
  - rewrite E1. apply (g_gamma A G mem gamma HG); lia.
Qed.

Lemma two_sim : exists x nonpos neg (pr : list C -> nat -> nat -> nat -> dbl), roots_of f x /\ distinct x /\ length x = 2%nat /\
  sim (fun R r => mm (fst R) (fst r) /\ mm (snd R) (snd r))
    (b_periods_d2 A G bp squarefree sort param xgcd extra M f prec)
    (periods_d2 (fun _ => x) squarefree sort pr nonpos neg xgcd gamma M f).
Proof using All.
  destruct (counts m c Hm Hc) as (T & G1 & G2 & L & J & Em & Gz). fold g in G1, G2, L, J, Gz.
  assert (AJ : aj_init M f (squarefree f) = Done (c, tree_edges c)).
  { unfold aj_init, sec_init_poly. rewrite Hdeg, Hc. cbn [bind]. rewrite Hsq. cbn [negb]. destruct (Z.ltb_spec (sec_g c) 1); [lia|reflexivity]. }
  assert (L2 : forall p, length (bp p f) = 2%nat).
  { intro p. destruct (Hf p) as (x & Hx & _ & HX). rewrite (Forall2_len _ _ _ HX). destruct Hx as [Hx _]. lia. }
  destruct (tree_final sort (param (bp 64%Z f)) 2 1 (Some 0%Z) 0 Hsort ltac:(lia)) as (es & r' & mn' & Et & Hes & Hgr & _ & _ & Hto & _).
  destruct es as [|e [|e2 es]]; try (cbn in Hes; lia).
  set (ip := (prec + extra (bp 64%Z f) [e] c)%Z). set (cp := (ip + 10)%Z).
  destruct (Hf cp) as (x & Hx & Hd & HX). assert (Lx : length x = 2%nat) by (destruct Hx as [Hx _]; lia).
  exists x, (test_pos A cp (bp cp f) x), (test_neg A cp (bp cp f) x), (fun _ => param (bp 64%Z f)).
  split; [exact Hx|]. split; [exact Hd|]. split; [exact Lx|].
  unfold b_periods_d2, periods_d2, homology. rewrite AJ. cbn [bind]. rewrite L2, Lx, T. change (Z.to_nat 1) with 1%nat. rewrite Et. cbn [bind]. fold ip. fold cp.
  assert (He : forall e', In e' [e] -> (ea e' < length x)%nat /\ (eb e' < length x)%nat /\ ea e' <> eb e').
  { rewrite Lx. exact (growing_edges [e] 2 Hgr Hto). }
  assert (He' : edges_of x [e]).
  { intros e' Hin. destruct (He e' Hin) as (Ha & Hb & Hne). split; [exact Ha|]. split; [exact Hb|].
    intro E. apply Hne. unfold distinct in Hd. rewrite NoDup_nth in Hd. apply (Hd _ _ Ha Hb). exact E. }
  assert (SY := tree_ydata_sim A mem S cp (bp cp f) x HX M [e] ltac:(unfold M; lia) Hd He').
  destruct (tree_ydata_done (test_pos A cp (bp cp f) x) (test_neg A cp (bp cp f) x) x m [e] Hd ltac:(lia) He) as (ys & Ey & Hly & Hny).
  fold M in Ey. rewrite Ey in *. cbn [bind].
  destruct (b_tree_ydata A cp (bp cp f) M [e]) as [Ys| | |]; cbn [simu] in SY; cbn [bind]; try contradiction.
  2:{ apply sim_ab. exact SY. }
  assert (SI := b_intersection_sim A mem S 64 (test_pos A cp (bp cp f) x) (test_neg A cp (bp cp f) x) x m [e] Ys ys Hd ltac:(lia) He Ey SY).
  specialize (SI ltac:(intros k l Hkl; cbn in Hkl; lia)). fold M in SI.
  destruct (b_intersection A 64 Ys [e] M) as [I| | |]; destruct (intersection_of_data ys [e] M) as [i| | |]; cbn [simu] in SI; cbn [bind]; try contradiction; try exact SI; try exact Logic.I.
  - subst i. fold g. destruct (symplectic_basis xgcd (to_rows I) g M) as [loops| | |]; cbn [bind simu]; try exact Logic.I; try reflexivity.
    assert (HY : ydata_mem A mem (nth 0 Ys (b_no_ydata A)) (nth 0 ys no_ydata)) by (apply Forall2_nth; [exact SY|apply (no_ydata_mem A mem S)]).
    destruct HY as (_ & _ & Y1 & Y2 & Y3 & _).
    eapply sim_bind.
    { unfold b_integral_d2, integral_d2. apply (edge_factors_sim A mem S); [apply raw_mem|exact Y1|exact Y2|exact Y3]. }
    intros V v HV. cbn [map]. assert (HI : mm [V] [v]) by (constructor; [exact HV|constructor]).
    eapply sim_bind; [apply (period_matrix_sim A mem S); exact HI|]. intros OA oA HA.
    eapply sim_bind; [apply (period_matrix_sim A mem S); exact HI|]. intros OB oB HB. cbn [simu fst snd]. auto.
  - apply sim_ab. exact SI.
Qed.

(** the balls contain the exact matrices, their quotient is a Riemann matrix *)
Hypotheses (Hgam : is_gamma gamma) (Hgcd : xgcd_ok xgcd).
Variable s : C.
Hypothesis Hs : cpow s m = ZC (leading f).
Lemma swap_roots a b : roots_of f [a; b] -> roots_of f [b; a].
Proof. intros [H1 H2]. split; [exact H1|]. intro t. rewrite H2. unfold poly_at. cbn. ring. Qed.

Lemma two_balls :
  (b_periods_d2 A G bp squarefree sort param xgcd extra M f prec = Abort /\ undecided A mem) \/
  exists a b ya yb w P N OA OB tau,
    a <> b /\ roots_of f [a; b] /\ curve_integrals m c f a b ya yb w /\
    (exists inter, neighbours (m - 1) inter /\ SpecSymp.square (m - 1) P /\ unimodular (m - 1) P /\ congruent (m - 1) P inter N /\ canonical (m - 1) g N) /\
    b_periods_d2 A G bp squarefree sort param xgcd extra M f prec = Done (OA, OB) /\ length OA = g /\ length OB = g /\
    (forall k q, (k < g)%nat -> (q < g)%nat -> let j := (sec_j1 c + Z.of_nat q)%Z in
      mem (nth k (nth q OA []) (b_zero A)) (cpow s (Z.to_nat j) * row_period c [w] (nth (2 * k) P []) j q)%C /\
      mem (nth k (nth q OB []) (b_zero A)) (cpow s (Z.to_nat j) * row_period c [w] (nth (2 * k + 1) P []) j q)%C) /\
    riemann_matrix g tau /\
    let per i q k := row_period c [w] (nth (2 * k + i) P []) (sec_j1 c + Z.of_nat q)%Z q in
    solves g (per 0%nat) tau (per 1%nat) /\
    forall t', solves g (fun q k => cpow s (Z.to_nat (sec_j1 c + Z.of_nat q)) * per 0%nat q k)%C t' (fun q k => cpow s (Z.to_nat (sec_j1 c + Z.of_nat q)) * per 1%nat q k)%C ->
      forall i k, (i < g)%nat -> (k < g)%nat -> t' i k = tau i k.
Proof using All.
  destruct two_sim as (x & nonpos & neg & pr & Hx & Hd & Lx & SS).
  destruct (two_exact (fun _ => x) squarefree sort pr nonpos neg xgcd gamma m f c s Hx Hd Lx Hsq Hm Hc Hs Hsort Hgcd Hgam)
    as (a & b & ya & yb & w & P & N & omA & omB & Ha & Hb & Hne & HI & HP & Er & LA & LB & HE).
  destruct (riemann_two (fun _ => x) squarefree sort pr nonpos neg xgcd gamma m f c Hd Lx Hdeg Hsq Hm Hc Hsort Hgcd Hpos)
    as (omA' & omB' & Er' & _ & _ & tau & HT & HR & HU).
  rewrite Er in Er'. injection Er' as <- <-. fold M in Er. rewrite Er in SS. fold g in LA, LB, HE, HT, HR, HU.
  destruct (b_periods_d2 A G bp squarefree sort param xgcd extra M f prec) as [[OA OB]| | |]; cbn [simu] in SS; try contradiction; [right|left; auto].
  destruct SS as [SA SB]. cbn [fst snd] in SA, SB.
  assert (Hs0 : s <> RtoC 0) by (apply (lead_nonzero f m); [lia|lia|exact Hs]).
  exists (vget x a), (vget x b), ya, yb, w, P, N, OA, OB, tau.
  assert (Hab : vget x a <> vget x b).
  { intro E. apply Hne. unfold distinct in Hd. rewrite NoDup_nth in Hd. apply (Hd a b); [lia|lia|exact E]. }
  split; [exact Hab|]. split.
  { destruct x as [|x0 [|x1 [|]]]; try discriminate Lx. destruct a as [|[|]], b as [|[|]]; try lia; [exact Hx|now apply swap_roots]. }
  split; [exact HI|]. split; [exact HP|]. split; [reflexivity|].
  split; [rewrite (Forall2_len _ _ _ SA); exact LA|]. split; [rewrite (Forall2_len _ _ _ SB); exact LB|]. split.
  { intros k q Hk Hq j. destruct (HE k q Hk Hq) as [EA EB]. fold j in EA, EB. rewrite <- EA, <- EB. unfold entry, vget.
    split; apply Forall2_nth; try apply (s_zero A mem S); apply Forall2_nth; assumption || constructor. }
  split; [exact HR|]. cbv zeta. split.
  { intros q k Hq Hk. specialize (HT q k Hq Hk). destruct (HE k q Hk Hq) as [_ EB]. rewrite EB in HT.
    rewrite (csum_ext g _ (fun l => cpow s (Z.to_nat (sec_j1 c + Z.of_nat q)) * (row_period c [w] (nth (2 * l) P []) (sec_j1 c + Z.of_nat q) q * tau l k))%C) in HT.
    2:{ intros l Hl. destruct (HE l q Hl Hq) as [EA _]. rewrite EA. ring. }
    rewrite csum_scal in HT. assert (Np : cpow s (Z.to_nat (sec_j1 c + Z.of_nat q)) <> RtoC 0) by now apply cpow_neq_0.
    assert (HT2 := f_equal (fun z => / cpow s (Z.to_nat (sec_j1 c + Z.of_nat q)) * z)%C HT). cbv beta in HT2. rewrite !Cmult_assoc, !Cinv_l, !Cmult_1_l in HT2 by exact Np. rewrite <- HT2. apply csum_ext. intros l Hl. rewrite Nat.add_0_r. reflexivity. }
  intros t' Ht'. apply HU. intros q k Hq Hk. specialize (Ht' q k Hq Hk). destruct (HE k q Hk Hq) as [_ EB]. rewrite EB, <- Ht'.
  apply csum_ext. intros l Hl. destruct (HE l q Hl Hq) as [EA _]. rewrite EA, Nat.add_0_r. reflexivity.
Qed.
End Two.

Lemma root_exists m z : (1 <= m)%nat -> exists s, cpow s m = z.
Proof. intro Hm. exists (croot (Z.of_nat m) z). apply croot_pow; lia. Qed.
Lemma sums_agree n h : SpecBallTau.sumC n h = csum n h.
Proof. induction n as [|n IH]; cbn; [reflexivity|]. rewrite IH. ring. Qed.
