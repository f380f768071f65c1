(** C82 and C80 on balls: curves with two branch points, from the coefficients of the polynomial to the
    period matrices.  Statements only.  [A], [G], [M] are the functions of Arb, with the contracts
    [sound], [gsound] and [msound]; [mem X x] says that the ball X contains x; [bp p f] are the balls found
    for the roots of f at precision p, [extra] the bits added to the precision asked for. *)
From Coq Require Import Reals Lra Lia Permutation.
From Coquelicot Require Import Coquelicot.
From Verif Require Import Base CArg ModelTree SpecTree ProofTreeEx ModelInter ModelCurve ModelSymp SpecSymp ProofSympEx ModelBasis
  ModelPeriod SpecPeriod ModelVec ModelQuad ModelEdge SpecEdge ProofEdge SpecDeq ModelRun SpecLead ModelTwo SpecRiem SpecTwo SpecGamma ProofGamma PropRiem
  ModelBall SpecBall ModelBallTau SpecBallTau ProofBallTau ProofMid ProofMid4 PropBallTau ModelBallTwo SpecBallTwo ProofBallTwo.
Local Open Scope R_scope.

(** C82: whatever f of degree 2, m >= 3, s with s^m the leading coefficient of f, precision and size of
    the balls found for the roots: the program aborts, because a ball is too large, or both matrices are
    computed, and the entry for dx / y^j and for cycle k of a symplectic basis is a ball that contains
    s^j times the period of y^m = f(x). *)
Theorem C82_balls :
  forall (A : arith) (G : gammas A) mem gamma bp squarefree sort param xgcd extra m f c prec s,
  let g := Z.to_nat (sec_g c) in let run := b_periods_d2 A G bp squarefree sort param xgcd extra (Z.of_nat m) f prec in
  sound A mem -> gsound A G mem gamma -> is_gamma gamma -> finds_roots mem bp f -> degree f = 2%Z -> squarefree f = true ->
  (3 <= m)%nat -> sec_init (Z.of_nat m) 2 = Done c -> cpow s m = ZC (leading f) -> (forall l, Permutation l (sort l)) -> xgcd_ok xgcd ->
  (run = Abort /\ undecided A mem) \/
  exists a b ya yb w P N OA OB,
    a <> b /\ roots_of f [a; b] /\ curve_integrals m c f a b ya yb w /\
    (exists inter, neighbours (m - 1) inter /\ SpecSymp.square (m - 1) P /\ unimodular (m - 1) P /\ congruent (m - 1) P inter N /\ canonical (m - 1) g N) /\
    run = Done (OA, OB) /\ length OA = g /\ length OB = g /\
    forall k q, (k < g)%nat -> (q < g)%nat -> let j := (sec_j1 c + Z.of_nat q)%Z in
      mem (nth k (nth q OA []) (b_zero A)) (cpow s (Z.to_nat j) * row_period c [w] (nth (2 * k) P []) j q)%C /\
      mem (nth k (nth q OB []) (b_zero A)) (cpow s (Z.to_nat j) * row_period c [w] (nth (2 * k + 1) P []) j q)%C.
Proof.
  intros A G mem gamma bp squarefree sort param xgcd extra m f c prec s g run S HG Hgam Hf Hdeg Hsq Hm Hc Hs Hsort Hgcd.
  destruct (two_balls A G mem gamma bp squarefree sort param xgcd extra m f c prec S HG (proj1 Hgam) Hf Hdeg Hsq Hm Hc Hsort Hgam Hgcd s Hs)
    as [H|(a & b & ya & yb & w & P & N & OA & OB & tau & H1 & H2 & H3 & H4 & H5 & H6 & H7 & H8 & _)]; [left; exact H|right].
  exists a, b, ya, yb, w, P, N, OA, OB. repeat (split; [assumption|]). exact H8.
Qed.
Print Assumptions C82_balls.

(** C80 on balls: if the linear system is solved by one of the first three methods (see C73), the balls of
    the small period matrix contain a Riemann matrix, the quotient of the periods of the curve; a common
    factor s^j in a row does not change it, so f need not be monic. *)
Theorem C80_balls_partial :
  forall (A : arith) (G : gammas A) (M : mats A) mem gamma bp squarefree sort param xgcd extra m f c prec OA OB q rf X tau,
  let g := Z.to_nat (sec_g c) in
  sound A mem -> gsound A G mem gamma -> msound A M mem -> is_gamma gamma -> finds_roots mem bp f -> degree f = 2%Z -> squarefree f = true ->
  (3 <= m)%nat -> sec_init (Z.of_nat m) 2 = Done c -> (forall l, Permutation l (sort l)) -> xgcd_ok xgcd ->
  b_periods_d2 A G bp squarefree sort param xgcd extra (Z.of_nat m) f prec = Done (OA, OB) ->
  b_tau_matrix A M q rf g X OA OB = Done tau -> inverted A M q g X OA OB ->
  exists a b ya yb w P N t,
    a <> b /\ roots_of f [a; b] /\ curve_integrals m c f a b ya yb w /\
    (exists inter, neighbours (m - 1) inter /\ SpecSymp.square (m - 1) P /\ unimodular (m - 1) P /\ congruent (m - 1) P inter N /\ canonical (m - 1) g N) /\
    enc mem g g tau t /\ riemann_matrix g t /\
    let per i r k := row_period c [w] (nth (2 * k + i) P []) (sec_j1 c + Z.of_nat r)%Z r in
    SpecRiem.solves g (per 0%nat) t (per 1%nat).
Proof.
  intros A G M mem gamma bp squarefree sort param xgcd extra m f c prec OA OB q rf X tau g S HG HM Hgam Hf Hdeg Hsq Hm Hc Hsort Hgcd Er Et HI.
  destruct (root_exists m (ZC (leading f)) ltac:(lia)) as [s Hs].
  destruct (two_balls A G mem gamma bp squarefree sort param xgcd extra m f c prec S HG (proj1 Hgam) Hf Hdeg Hsq Hm Hc Hsort Hgam Hgcd s Hs)
    as [[H _]|(a & b & ya & yb & w & P & N & OA' & OB' & t & H1 & H2 & H3 & H4 & H5 & H6 & H7 & H8 & H9 & H10 & H11)]; [rewrite Er in H; discriminate|].
  rewrite Er in H5. injection H5 as <- <-. cbv zeta in H8, H10, H11. fold g in H8, H9, H10, H11.
  set (per := fun i r k => row_period c [w] (nth (2 * k + i) P []) (sec_j1 c + Z.of_nat r)%Z r).
  destruct (C73_tau_partial A M mem q rf g X OA OB tau
    (fun r k => cpow s (Z.to_nat (sec_j1 c + Z.of_nat r)) * per 0%nat r k)%C (fun r k => cpow s (Z.to_nat (sec_j1 c + Z.of_nat r)) * per 1%nat r k)%C S HM Et HI)
    as (_ & t' & T1 & T2 & _).
  - intros i k Hi Hk. unfold per. rewrite Nat.add_0_r. exact (proj1 (H8 k i Hk Hi)).
  - intros i k Hi Hk. exact (proj2 (H8 k i Hk Hi)).
  - exists a, b, ya, yb, w, P, N, t. split; [exact H1|]. split; [exact H2|]. split; [exact H3|]. split; [exact H4|]. split; [|split; [exact H9|exact H10]].
    intros i k Hi Hk. rewrite <- (H11 t'); [apply T1; assumption| |exact Hi|exact Hk].
    intros r l Hr Hl. specialize (T2 r l Hr Hl). rewrite sums_agree in T2. exact T2.
Qed.
Print Assumptions C80_balls_partial.

(** y^7 = 3x^2 - 3 and discs of radius 1/4 for its roots; with points instead of discs the program ends *)
Definition d_gammas : gammas discs := Build_gammas discs (fun _ => point (RtoC (sqrt PI))) (fun _ a b => point (RtoC (gam (IZR a / IZR b)))).
Definition wide (p : Z) (f : list Z) : list (ball discs) := [Some (RtoC (-1), / 4); Some (RtoC 1, / 4)].
Definition narrow (p : Z) (f : list Z) : list (ball discs) := [point (RtoC (-1)); point (RtoC 1)].
Example C82_nonvacuous :
  sound discs disc_mem /\ gsound discs d_gammas disc_mem gam /\ msound discs d_mats disc_mem /\ is_gamma gam /\ finds_roots (A := discs) disc_mem wide f80 /\
  degree f80 = 2%Z /\ (exists c, sec_init (Z.of_nat 7) 2 = Done c /\ sec_g c = 3%Z) /\ cpow (RtoC (rroot 7 3)) 7 = ZC (leading f80) /\
  (forall l, Permutation l (isort l)) /\ xgcd_ok egcd /\
  exists OA OB, b_periods_d2 discs d_gammas narrow (fun _ => true) isort (fun _ _ _ _ => Some 0%Z) egcd (fun _ _ _ => 0%Z) 7 f80 64 = Done (OA, OB) /\ length OA = 3%nat.
Proof.
  destruct C80_nonvacuous as (X1 & X2 & X3 & X4 & X5 & X6 & X7 & _).
  assert (Hs : cpow (RtoC (rroot 7 3)) 7 = ZC (leading f80)).
  { rewrite cpow_RtoC. change 7%Z with (Z.of_nat 7). rewrite CArg.rroot_pow by (lia || lra). reflexivity. }
  split; [exact discs_sound|]. split; [constructor; intros; apply point_mem|]. split; [exact d_mats_sound|]. split; [exact gam_is_gamma|]. split.
  { intro p. exists x80. split; [exact X1|]. split; [exact X2|]. unfold wide, x80.
    assert (HD : forall z : C, Cmod (z - z)%C <= / 4) by (intro z; replace (z - z)%C with (RtoC 0) by ring; rewrite Cmod_0; lra).
    apply Forall2_cons; [exact (HD _)|apply Forall2_cons; [exact (HD _)|apply Forall2_nil]]. }
  split; [exact X4|]. split; [exact X5|]. split; [exact Hs|]. split; [exact X6|]. split; [exact X7|].
  destruct X5 as (c & Hc & Hg).
  assert (HF : finds_roots (A := discs) is_point narrow f80).
  { intro p. exists x80. split; [exact X1|]. split; [exact X2|]. apply Forall2_cons; [reflexivity|apply Forall2_cons; [reflexivity|apply Forall2_nil]]. }
  assert (HGs : gsound discs d_gammas is_point gam) by (constructor; intros; reflexivity).
  destruct (C82_balls discs d_gammas is_point gam narrow (fun _ => true) isort (fun _ _ _ _ => Some 0%Z) egcd (fun _ _ _ => 0%Z) 7 f80 c 64 _
    discs_point_sound HGs gam_is_gamma HF X4 eq_refl ltac:(lia) Hc Hs X6 X7) as [[_ H]|H].
  - exfalso. exact (discs_decided H).
  - destruct H as (a & b & ya & yb & w & P & N & OA & OB & _ & _ & _ & _ & Er & LA & _). exists OA, OB. split; [exact Er|]. rewrite LA, Hg. reflexivity.
Qed.
