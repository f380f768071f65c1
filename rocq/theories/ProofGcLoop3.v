(** Integer polynomials for which the search for the parameters stops the program. *)
From Coq Require Import Reals Lra Lia List ZArith Permutation.
From Coquelicot Require Import Coquelicot.
From Verif Require Import CArg ModelTree ModelCurve ModelPeriod ModelEdge ModelCache ModelExtra ModelGc ModelErr SpecTree SpecInter SpecEdge SpecExtra SpecVec SpecGc SpecFree
  ProofTreeEx ProofAngle ProofExtra ProofGc ProofFree2 ProofErr6 ProofCross5 ProofGcLoop ProofGcLoop2.
Import ListNotations.
Local Open Scope R_scope.

(** ** a far point makes the logarithm of a negative number *)
Theorem params_abort prec V u fuel : (8 <= prec)%Z -> Rpower 2 (IZR prec) * 128 <= V - 2 -> Permutation (map half_sum u) [2; 1 + V / 2; V] ->
  gc_params (S fuel) u 2 prec = Abort.
Proof.
  intros Hp HV P. assert (Hp' : 8 <= IZR prec) by (apply IZR_le; exact Hp).
  assert (HP2 : 1 < Rpower 2 (IZR prec)).
  { rewrite <- (Rpower_O 2) by lra. apply Rpower_lt; lra. }
  assert (HV3 : 3 < V) by lra.
  assert (F : Forall (fun z => 1 < half_sum z) u).
  { apply Forall_forall. intros z Hz. assert (I : In (half_sum z) [2; 1 + V / 2; V]) by (apply (Permutation_in _ P), in_map, Hz). cbn [In] in I. lra. }
  unfold gc_params. rewrite (vec_r_done _ F). cbn [bind]. destruct (map half_sum u) as [|r1 vr'] eqn:Em.
  { apply Permutation_nil_cons in P. contradiction. }
  rewrite (min_perm _ _ _ _ P). assert (E2 : min_r [1 + V / 2; V] 2 = 2).
  { cbn [min_r]. destruct (Rlt_dec (1 + V / 2) 2); [lra|]. destruct (Rlt_dec V 2); [lra|]. reflexivity. }
  rewrite E2. destruct (Z.eqb_spec prec 0); [lia|]. set (m0 := 2 * ln (sqrt (2 * PI)) + INR 2 * ln 2 + IZR prec * ln 2). set (rad := Rabs (2 / IZR prec)).
  assert (Hr : 0 <= rad <= 1 / 4).
  { unfold rad. assert (I : 0 < / IZR prec <= / 8) by (split; [apply Rinv_0_lt_compat|apply Rinv_le_contravar]; lra). unfold Rdiv. rewrite Rabs_pos_eq; lra. }
  cbn [gc_loop]. rewrite (maj_yr_perm _ _ _ _ _ P). unfold maj_yr. cbn [maj_prod].
  assert (HP : 0 < (V - 2) * ((V - 2) / 2)) by (apply Rmult_lt_0_compat; lra).
  destruct (Rle_dec (Rabs (2 - 2)) rad) as [_|X]; [|exfalso; apply X; unfold Rminus; rewrite Rplus_opp_r, Rabs_R0; lra].
  destruct (Rle_dec (Rabs (1 + V / 2 - 2)) rad) as [X|_]; [exfalso; rewrite Rabs_pos_eq in X; lra|].
  destruct (Rle_dec (Rabs (V - 2)) rad) as [X|_]; [exfalso; rewrite Rabs_pos_eq in X; lra|].
  replace (1 * (1 + V / 2 - 2) * (V - 2)) with ((V - 2) * ((V - 2) / 2)) by field.
  destruct (Rlt_dec 0 ((V - 2) * ((V - 2) / 2))); [|contradiction]. unfold choose_r.
  destruct (Rlt_dec _ 0) as [_|X]; [reflexivity|]. exfalso. apply X.
  assert (L2 := ln_lt_2).
  assert (EL : ln ((V - 2) * ((V - 2) / 2)) = 2 * ln (V - 2) - ln 2).
  { unfold Rdiv. rewrite !ln_mult, ln_Rinv by (try apply Rmult_lt_0_compat; lra). ring. }
  assert (Lb : ln (Rpower 2 (IZR prec) * 128) <= ln (V - 2)) by (apply ln_le'; [lra|exact HV]).
  assert (E7 : ln 128 = 7 * ln 2).
  { replace 128 with (2 ^ 7) by ring. rewrite ln_pow' by lra. cbn [INR]. ring. }
  rewrite ln_mult, E7 in Lb by lra. unfold Rpower in Lb. rewrite ln_exp in Lb.
  assert (Lpi : ln (2 * PI) <= 3 * ln 2).
  { replace (3 * ln 2) with (ln (2 * 4)).
    - assert (Q := PI_RGT_0). assert (Q4 := PI_4). apply ln_le'; lra.
    - replace (2 * 4) with (2 ^ 3) by ring. rewrite ln_pow' by lra. cbn [INR]. ring. }
  rewrite EL. unfold m0. rewrite ln_2pi. cbn [INR]. lra.
Qed.

(** ** the working precision *)
Definition c25 : sec := {| sec_m := 2; sec_n := 5; sec_delta := 1; sec_g := 2; sec_j1 := 1; sec_nj := 1; sec_ni := [2%Z] |}.
Lemma c25_init : sec_init 2 5 = Done c25.
Proof. reflexivity. Qed.
Lemma x77_dist V a b : 4 <= V -> (a < 5)%nat -> (b < 5)%nat -> a <> b ->
  1 <= Cmod (vget (x77 V) b - vget (x77 V) a)%C /\ Cmod (vget (x77 V) b + vget (x77 V) a)%C <= 5 * Cmod (vget (x77 V) b - vget (x77 V) a)%C.
Proof.
  intros HV Ha Hb Hab. rewrite !x77_get, <- RtoC_minus, <- RtoC_plus, !Cmod_R.
  destruct a as [|[|[|[|[|a]]]]]; try lia; destruct b as [|[|[|[|[|b]]]]]; try lia; cbn [nth r77]; unfold Rabs; destruct (Rcase_abs _), (Rcase_abs _); lra.
Qed.
Lemma x77_edge V e : 4 <= V -> (ea e < 5)%nat -> (eb e < 5)%nat -> ea e <> eb e -> mag_constants_edge (fun r => r) (x77 V) e c25 <= 16.
Proof.
  intros HV Ha Hb Hab. destruct (x77_dist V _ _ HV Ha Hb Hab) as [H1 H5]. unfold mag_constants_edge. cbv zeta.
  set (D := Cmod (vget (x77 V) (eb e) - vget (x77 V) (ea e))%C) in *. set (S0 := Cmod (vget (x77 V) (eb e) + vget (x77 V) (ea e))%C) in *.
  assert (S1 : 0 <= S0 / D <= 5).
  { split; [apply Rmult_le_pos; [apply Cmod_ge_0|left; apply Rinv_0_lt_compat; lra]|apply Rle_div_l; lra]. }
  set (q := S0 / D) in *. set (h := D / 2). assert (Hh : 1 / 2 <= h) by (unfold h; lra).
  cbn [sec_ni c25 sec_j1 sec_m sec_n constants_j]. change (Z.to_nat 1) with 1%nat. change (Z.to_nat 2) with 2%nat. change (Z.to_nat 5) with 5%nat.
  cbn [constants_i constants_l Nat.sub binom INR]. set (r := rroot 2 (h ^ 5)).
  assert (Hr : 0 < r) by (apply rroot_pos, pow_lt; lra).
  assert (Hr2 : r ^ 2 = h ^ 5) by (apply (rroot_pow 2); [lia|left; apply pow_lt; lra]).
  assert (I2 : / h <= 2). { replace 2 with (/ (1 / 2)) by field. apply Rinv_le_contravar; lra. }
  assert (I0 : 0 < / h) by (apply Rinv_0_lt_compat; lra).
  assert (B1 : 0 < h / r <= 4).
  { split; [apply Rdiv_lt_0_compat; lra|]. apply (pow_le_inv 2); [lia|left; apply Rdiv_lt_0_compat; lra|lra|].
    replace ((h / r) ^ 2) with (h ^ 2 / r ^ 2) by (field; lra). rewrite Hr2. replace (h ^ 2 / h ^ 5) with (/ h * (/ h * / h)) by (field; lra).
    assert (/ h * / h <= 2 * 2) by (apply Rmult_le_compat; lra). assert (/ h * (/ h * / h) <= 2 * 4) by (apply Rmult_le_compat; try lra; apply Rmult_le_pos; lra). lra. }
  assert (B2 : 0 < h * h / r <= 2).
  { assert (0 < h * h) by (apply Rmult_lt_0_compat; lra). split; [apply Rdiv_lt_0_compat; lra|]. apply (pow_le_inv 2); [lia|left; apply Rdiv_lt_0_compat; lra|lra|].
    replace ((h * h / r) ^ 2) with (h ^ 4 / r ^ 2) by (field; lra). rewrite Hr2. replace (h ^ 4 / h ^ 5) with (/ h) by (field; lra). lra. }
  cbn [pow]. replace (1 * 1 * (/ r * 1 * h)) with (h / r) by (field; lra).
  replace (1 * (q * 1) * (/ r * 1 * h * h)) with (q * (h * h / r)) by (field; lra).
  change (INR (1 + 0)) with 1. replace (1 * 1 * (/ r * 1 * h * h)) with (h * h / r) by (field; lra).
  assert (q * (h * h / r) <= 5 * 2) by (apply Rmult_le_compat; lra).
  repeat apply Rmax_lub; lra.
Qed.
Lemma x77_precision V es prec : 4 <= V -> edges_of (x77 V) es -> (intprec (fun r => r) log2 prec (x77 V) es c25 <= prec + 5)%Z.
Proof.
  intros HV Hes. unfold intprec, extraprec_tree. set (M := mag_constants_tree _ _ _ _).
  assert (HM : M <= 16).
  { apply tree_le; [lra|]. intros e He. destruct (Hes e He) as (A1 & A2 & A3). apply x77_edge; [exact HV|exact A1|exact A2|]. intro E. apply A3. now rewrite E. }
  assert (L2 := ln_lt_2). assert (HL : log2 M <= 4).
  { unfold log2. apply Rle_div_l; [lra|]. destruct (Rle_dec M 0) as [L|L].
    - assert (ln M = 0) by (unfold ln; destruct (Rlt_dec 0 M); [exfalso; lra|reflexivity]). lra.
    - replace (4 * ln 2) with (ln 16); [apply ln_le'; lra|]. replace 16 with (2 ^ 4) by ring. rewrite ln_pow' by lra. cbn [INR]. ring. }
  assert (HT : IZR (trunc (log2 M)) <= 4).
  { unfold trunc. destruct (Rle_dec 0 (log2 M)).
    - assert (B := base_Int_part (log2 M)). lra.
    - rewrite opp_IZR. assert (B := base_Int_part (- log2 M)). assert (0 < - log2 M) by lra. assert (-1 < IZR (Int_part (- log2 M))) by lra.
      assert (H9 : IZR (-1) < IZR (Int_part (- log2 M))) by (simpl; lra). apply lt_IZR in H9. assert (0 <= IZR (Int_part (- log2 M))) by (apply IZR_le; lia). lra. }
  apply le_IZR in HT. lia.
Qed.

(** y^2 = (x^2 - 1) (x - 2) (x - 2 - 2N) (x + 2 + N) *)
Definition p77 (N : Z) : list Z :=
  let q := ((2 + 2 * N) * (2 + N))%Z in [- (2 * q); q - 2 * N; 2 * q + N + 2; - q + 2 * N - 1; - N - 2; 1]%Z.
Theorem curve_abort prec : (8 <= prec)%Z -> exists p x c t, aj_init 2 p true = Done (c, t) /\ distinct x /\ length x = 5%nat /\ (forall z, poly_at x z = poly_value p z) /\
  forall nonpos neg sort param r mn, qsort_ok sort -> ordered_within (/ 2) half_sum x param ->
  exists es r' mn' ys, spanning_tree sort param 5 (Z.to_nat t) r mn = Done (es, r', mn') /\ tree_ydata nonpos neg x 2 es = Done ys /\
    let w := intprec (fun r => r) log2 prec x es c in (prec < w <= prec + 5)%Z /\
    exists k, (k < length es)%nat /\ (forall z, In z (y_u (nth k ys no_ydata)) -> 1 < half_sum z) /\
    (forall fuel, gc_params (S fuel) (y_u (nth k ys no_ydata)) (Z.to_nat (sec_g c)) w = Abort) /\
    forall (Key : Type) (qsort : list (Key * nat) -> list (Key * nat)) rdef rturn fuel keys rows res, (forall l, Permutation (qsort l) l) -> length keys = length es ->
      tree_moments_gc qsort rdef rturn fuel c ys w keys rows <> Done res.
Proof.
  intro Hp. set (n := Z.to_nat (prec + 12)). set (N := (2 ^ Z.of_nat n)%Z). set (V := 2 + 2 * IZR N).
  assert (HN : IZR N = Rpower 2 (IZR prec + 12)).
  { unfold N. rewrite <- pow_IZR. rewrite <- Rpower_pow by lra. f_equal. rewrite INR_IZR_INZ. unfold n. rewrite Z2Nat.id by lia. rewrite plus_IZR. reflexivity. }
  assert (Hp' : 8 <= IZR prec) by (apply IZR_le; exact Hp).
  assert (HN1 : 1 <= IZR N). { rewrite HN, <- (Rpower_O 2) by lra. apply Rle_Rpower; lra. }
  assert (HV : 4 <= V) by (unfold V; lra). assert (HV3 : 3 < V) by lra.
  assert (EW : 1 + V / 2 = IZR (2 + N)) by (unfold V; rewrite plus_IZR; field). assert (EV : V = IZR (2 + 2 * N)) by (unfold V; rewrite plus_IZR, mult_IZR; reflexivity).
  exists (p77 N), (x77 V), c25, 4%Z. split; [reflexivity|]. split; [now apply x77_distinct|]. split; [reflexivity|]. split.
  { intros z. unfold poly_at, x77, p77. cbn [cprod poly_value fold_right]. rewrite EW, EV. unfold ZC.
    repeat (rewrite minus_IZR || rewrite plus_IZR || rewrite opp_IZR || rewrite mult_IZR). set (y := IZR N). apply injective_projections; cbn; ring. }
  intros nonpos neg sort param r mn Hs Ho. change (Z.to_nat 4) with 4%nat.
  destruct (tree_final sort param 5 4 r mn (fun l => proj1 (Hs l)) ltac:(lia)) as (es & r' & mn' & Et & Hlen & Hgr & _ & _ & Hto & _).
  destruct (always_computed_final nonpos neg (x77 V) 2 sort param 4 r mn es r' mn' (x77_distinct V HV3) ltac:(lia) (fun l => proj1 (Hs l)) ltac:(cbn; lia) Et) as (ys & c & Ey & _).
  change (Z.of_nat 2) with 2%Z in Ey.
  exists es, r', mn', ys. split; [exact Et|]. split; [exact Ey|].
  assert (Hes : edges_of (x77 V) es).
  { intros e He. assert (E1 : (ea e < 5)%nat) by (apply Hto; exists e; auto). assert (E2 : (eb e < 5)%nat) by (apply Hto; exists e; auto).
    assert (E3 : ea e <> eb e) by (apply in_split in He; destruct He as (l1 & l2 & E); apply (Hgr l1 e l2 E)).
    split; [exact E1|]. split; [exact E2|]. intro E. destruct (x77_dist V _ _ HV E1 E2 E3) as [D _]. rewrite E in D.
    replace (vget (x77 V) (eb e) - vget (x77 V) (eb e))%C with (RtoC 0) in D by ring. rewrite Cmod_0 in D. lra. }
  destruct (tree77 V HV3 sort param r mn es r' mn' Hs Ho Et) as (e & He & Je). cbv zeta. set (w := intprec _ _ _ _ _ _).
  assert (Hw : (prec < w <= prec + 5)%Z).
  { split; [|now apply x77_precision]. apply (short_edge_final (fun r => r) log2 prec 2 5 c25 (x77 V) es e); try assumption; try reflexivity; try lia.
    - intros y _. lra.
    - intros y _. lra.
    - cbn. lia.
    - rewrite !x77_get, <- RtoC_minus, Cmod_R. destruct Je as [[-> ->]|[-> ->]]; cbn [nth r77]; unfold Rabs; destruct (Rcase_abs _); lra. }
  split; [exact Hw|].
  apply (In_nth es _ no_edge) in He. destruct He as (k & Hk & Ek). exists k.
  assert (Yk := tree_ydata_nth nonpos neg (x77 V) 2 es ys k Ey Hk). rewrite Ek in Yk.
  destruct (points77 V HV3 _ _ _ _ _ Je Yk) as [L3 P].
  assert (HA : forall fuel, gc_params (S fuel) (y_u (nth k ys no_ydata)) 2 w = Abort).
  { intro fuel. apply (params_abort w V); [lia| |exact P]. unfold V. rewrite HN. replace (2 + 2 * Rpower 2 (IZR prec + 12) - 2) with (2 * Rpower 2 (IZR prec + 12)) by ring.
    assert (G : Rpower 2 (IZR w) <= Rpower 2 (IZR prec + 5)) by (apply Rle_Rpower; [lra|]; rewrite <- plus_IZR; apply IZR_le; lia).
    replace (IZR prec + 12) with (IZR prec + 5 + INR 7) by (cbn [INR]; ring). rewrite Rpower_plus, Rpower_pow by lra. cbn [pow].
    assert (0 < Rpower 2 (IZR prec + 5)) by (apply exp_pos). lra. }
  split; [exact Hk|]. split.
  { intros z Hz. assert (I : In (half_sum z) [2; 1 + V / 2; V]) by (apply (Permutation_in _ P), in_map, Hz). cbn [In] in I. lra. }
  split; [exact HA|]. intros Key qsort rdef rturn fuel keys rows res Hq Hkeys H.
  unfold tree_moments_gc, integrals_tree in H. apply loop_done with (k := k) in H.
  - destruct H as (s & y & H). unfold edge_moments_gc in H. cbn [sec_n sec_g c25] in H. change (Z.to_nat (5 - 2)) with 3%nat in H. change (Z.to_nat 2) with 2%nat in H.
    rewrite firstn_all2 in H by lia. destruct fuel as [|fuel].
    + unfold gc_params in H. destruct (vec_r (y_u (nth k ys no_ydata))) as [[|r1 vr]| | |]; try discriminate. cbn [bind gc_loop] in H. destruct (w =? 0)%Z; discriminate.
    + rewrite HA in H. discriminate.
  - apply (Permutation_in k (Permutation_map snd (Permutation_sym (Hq _)))). rewrite map_snd_combine by (now rewrite seq_length). apply in_seq. lia.
Qed.
