(** C54, C81: curves with two branch points, with the Gamma function.  Statements only. *)
From Coq Require Import Reals Lra Lia Permutation.
From Coquelicot Require Import Coquelicot.
From Verif Require Import Base CArg ModelTree SpecTree ProofTreeEx ModelInter ModelCurve ModelSymp SpecSymp ProofSympEx ModelBasis
  ModelPeriod SpecPeriod ModelVec ModelQuad ModelEdge SpecEdge SpecDeq ModelRun SpecLead ModelTwo SpecRiem SpecTwo SpecGamma ProofGamma ProofTwo PropRiem.
Local Open Scope R_scope.

(** C54: the closed form written for dx / y^j is the integral of (1 - t^2)^(-j/m) over ]-1, 1[. *)
Theorem C54_integral :
  forall (gamma : R -> R) m c, is_gamma gamma -> sec_init m 2 = Done c -> forall q, (q < length (sec_ni c))%nat ->
  exists v, vget (integral_d2_raw gamma c) q = RtoC v /\
    is_RInt_gen (fun t => Rpower (1 - t * t) (- (IZR (sec_j1 c + Z.of_nat q) / IZR m))) (at_right (-1)) (at_left 1) v.
Proof. exact d2_integral. Qed.
Print Assumptions C54_integral.

(** the Gamma function exists *)
Example C54_integral_nonvacuous : is_gamma gam /\ exists c, sec_init 7 2 = Done c /\ length (sec_ni c) = 3%nat.
Proof. split; [exact gam_is_gamma|]. eexists. split; vm_compute; reflexivity. Qed.

(** C81: whatever f of degree 2 and m >= 3, and s with s^m the leading coefficient of f: the entry for
    dx / y^j and for cycle k of a symplectic basis is exactly s^j times the period of y^m = f(x). *)
Theorem C81_periods :
  forall branch_points squarefree sort (param : list C -> nat -> nat -> nat -> dbl) nonpos neg xgcd gamma m f c s,
  let x : list C := branch_points f in let g := Z.to_nat (sec_g c) in
  roots_of f x -> distinct x -> length x = 2%nat -> squarefree f = true -> (3 <= m)%nat -> sec_init (Z.of_nat m) 2 = Done c ->
  cpow s m = ZC (leading f) -> (forall l, Permutation l (sort l)) -> xgcd_ok xgcd -> is_gamma gamma ->
  exists a b ya yb w P N omA omB,
    (a < 2)%nat /\ (b < 2)%nat /\ a <> b /\
    curve_integrals m c f (vget x a) (vget x b) ya yb w /\
    (exists inter, neighbours (m - 1) inter /\ SpecSymp.square (m - 1) P /\ unimodular (m - 1) P /\ congruent (m - 1) P inter N /\ canonical (m - 1) g N) /\
    periods_d2 branch_points squarefree sort param nonpos neg xgcd gamma (Z.of_nat m) f = Done (omA, omB) /\ length omA = g /\ length omB = g /\
    forall k q, (k < g)%nat -> (q < g)%nat -> let j := (sec_j1 c + Z.of_nat q)%Z in
      entry omA q k = (cpow s (Z.to_nat j) * row_period c [w] (nth (2 * k) P []) j q)%C /\
      entry omB q k = (cpow s (Z.to_nat j) * row_period c [w] (nth (2 * k + 1) P []) j q)%C.
Proof. exact two_exact. Qed.
Print Assumptions C81_periods.

(** for monic f they are the periods themselves *)
Theorem C81_monic :
  forall branch_points squarefree sort (param : list C -> nat -> nat -> nat -> dbl) nonpos neg xgcd gamma m f c,
  let x : list C := branch_points f in let g := Z.to_nat (sec_g c) in
  roots_of f x -> distinct x -> length x = 2%nat -> squarefree f = true -> (3 <= m)%nat -> sec_init (Z.of_nat m) 2 = Done c ->
  leading f = 1%Z -> (forall l, Permutation l (sort l)) -> xgcd_ok xgcd -> is_gamma gamma ->
  exists a b ya yb w P N omA omB,
    (a < 2)%nat /\ (b < 2)%nat /\ a <> b /\
    curve_integrals m c f (vget x a) (vget x b) ya yb w /\
    (exists inter, neighbours (m - 1) inter /\ SpecSymp.square (m - 1) P /\ unimodular (m - 1) P /\ congruent (m - 1) P inter N /\ canonical (m - 1) g N) /\
    periods_d2 branch_points squarefree sort param nonpos neg xgcd gamma (Z.of_nat m) f = Done (omA, omB) /\ length omA = g /\ length omB = g /\
    forall k q, (k < g)%nat -> (q < g)%nat -> let j := (sec_j1 c + Z.of_nat q)%Z in
      entry omA q k = row_period c [w] (nth (2 * k) P []) j q /\ entry omB q k = row_period c [w] (nth (2 * k + 1) P []) j q.
Proof.
  intros branch_points squarefree sort param nonpos neg xgcd gamma m f c x g H1 H2 H3 H4 H5 H6 H7 H8 H9 H10.
  destruct (C81_periods branch_points squarefree sort param nonpos neg xgcd gamma m f c (RtoC 1) H1 H2 H3 H4 H5 H6 ltac:(rewrite H7; apply cpow_one) H8 H9 H10)
    as (a & b & ya & yb & w & P & N & omA & omB & Ha & Hb & Hne & HI & HS & E & LA & LB & H).
  exists a, b, ya, yb, w, P, N, omA, omB. repeat (split; [assumption|]).
  intros k q Hk Hq j. destruct (H k q Hk Hq) as [EA EB]. cbv zeta in EA, EB. rewrite EA, EB, cpow_one, !Cmult_1_l. split; reflexivity.
Qed.
Print Assumptions C81_monic.

(** y^7 = 3 x^2 - 3, see C80_nonvacuous, and s the seventh root of 3; y^7 = x^2 - 1 for the second theorem *)
Example C81_nonvacuous : roots_of f80 x80 /\ distinct x80 /\ cpow (RtoC (rroot 7 3)) 7 = ZC (leading f80) /\ is_gamma gam /\
  roots_of [-1; 0; 1]%Z x80 /\ leading [-1; 0; 1]%Z = 1%Z.
Proof.
  destruct C80_nonvacuous as (H1 & H2 & _). split; [exact H1|]. split; [exact H2|]. split.
  - rewrite cpow_RtoC. change 7%Z with (Z.of_nat 7). rewrite CArg.rroot_pow by (lia || lra). reflexivity.
  - split; [exact gam_is_gamma|]. split; [|reflexivity]. split; [reflexivity|]. intros t. destruct t as [p q]. change (leading [-1; 0; 1]%Z) with 1%Z.
    unfold poly_value, poly_at, x80, ZC. cbn [fold_right SpecEdge.cprod]. apply injective_projections; cbn; ring.
Qed.
