(** Points at infinity in the Magma package when m divides n. *)
From Coquelicot Require Import Coquelicot.
From Verif Require Import CArg ModelTree ModelVec ModelPeriod ModelTurn ModelMaInter ModelMaPoint ModelMaDivisor ModelMaInfty ModelMaGood SpecMaDivisor SpecMaInfty SpecMaGood ProofMaAjm ProofMaFactor2 ProofMaPeriod5 ProofMaPoint ProofMaDivisor ProofMaInfty ProofMaInfty2 ProofMaInfty3 SpecEdge.
Local Open Scope nat_scope.

Lemma neg_off_spec v : (Rabs (neg_off v) <= / 2)%R /\ integer (neg_off v + v).
Proof.
  destruct (round_off_spec v) as [A _]. unfold neg_off. split.
  - replace (IZR (round_near v) - v)%R with (- round_off v)%R by (unfold round_off; ring). rewrite Rabs_Ropp. exact A.
  - exists (round_near v). ring.
Qed.
Lemma turn_one m a b N jp : 0 < m -> (a + b * Z.of_nat N = 1)%Z -> zeta_pow m m a b N jp = root (Z.of_nat m) (- jp).
Proof.
  intros Hm H. unfold zeta_pow. rewrite root_mod by lia. rewrite H. replace (-2 * Z.of_nat m * 1 * jp)%Z with (-2 * jp * Z.of_nat m)%Z by ring. rewrite Z.div_mul by lia.
  unfold root. f_equal. rewrite !mult_IZR, opp_IZR. field. apply not_0_IZR. lia.
Qed.
Lemma turned_is integ m a b N jpows k X Y i j : 0 < m -> (a + b * Z.of_nat N = 1)%Z ->
  turned integ m m a b N jpows k X Y i j = (root (Z.of_nat m) (- Z.of_nat k * nth j jpows 0%Z) * integ X Y i j)%C.
Proof. intros Hm H. unfold turned. rewrite turn_one, root_pow by assumption. f_equal. f_equal. ring. Qed.
Lemma root_full m z : 0 < m -> root (Z.of_nat m) (- Z.of_nat m * z) = root (Z.of_nat m) (- Z.of_nat 0 * z).
Proof.
  intros Hm. rewrite <- (root_mod _ (- Z.of_nat m * z)) by lia. replace (- Z.of_nat m * z)%Z with ((- z) * Z.of_nat m)%Z by ring. rewrite Z.mod_mul by lia. f_equal.
Qed.
Lemma real_kept inf c d : forall s rat real edges rat' real' edges', (forall q, In q s -> exists X Y, fst q = PFin X Y) ->
  sort_points inf c d s rat real edges = Done (rat', real', edges') -> real' = real.
Proof.
  induction s as [|[p v] s IH]; intros rat real edges rat' real' edges' Hf E; cbn [sort_points] in E; [injection E as _ <- _; reflexivity|].
  destruct (Hf (p, v) (or_introl eq_refl)) as (X & Y & Ep). cbn [fst] in Ep. subst p.
  destruct (distance X (sc_pts c)) as [di| | |]; cbn [bind] in E; try discriminate. destruct (tget (aj_ram d) (snd di)) as [r| | |]; cbn [bind] in E; try discriminate.
  eapply IH; [|exact E]. intros q Hq. apply Hf. right. exact Hq.
Qed.

Section Value.
Context (integ : C -> C -> nat -> nat -> C) (c : se_curve) (d : aj_data) (a b : Z) (jpows : list Z) (N : nat) (phi : point -> R) (p0 : C) (i : nat).
Let m := sc_m c.
Let x := sc_pts c.
Hypothesis m0 : 0 < m.
Hypothesis Hfull : complete c d.
Hypothesis Hdelta : sc_delta c = Z.of_nat m.
Hypothesis Hn : length x = N * m.
Hypothesis Hbz : (a + b * Z.of_nat N = 1)%Z.
Hypothesis Hid : forall j k, j < sc_g c -> k < sc_g c -> aj_dcm d j k = RtoC (if j =? k then 1 else 0)%R.

Lemma csum_pick g j (v : nat -> C) : j < g -> csum g (fun k => RtoC (if j =? k then 1 else 0)%R * v k)%C = v j.
Proof.
  intros Hj. induction g as [|g IH]; [lia|]. cbn [csum]. destruct (Nat.eq_dec j g) as [->|Ne].
  - rewrite Nat.eqb_refl. rewrite (CBase.csum_ext g _ (fun _ => RtoC 0)).
    + assert (Z0 : forall n, csum n (fun _ => RtoC 0) = RtoC 0) by (induction n as [|n IHn]; [reflexivity|cbn [csum]; rewrite IHn; ring]). rewrite Z0. ring.
    + intros k Hk. replace (g =? k) with false by (symmetry; apply Nat.eqb_neq; lia). ring.
  - rewrite IH by lia. replace (j =? g) with false by (symmetry; apply Nat.eqb_neq; exact Ne). ring.
Qed.
Lemma csum_ext_lt g (u v : nat -> C) : (forall k, k < g -> u k = v k) -> csum g u = csum g v.
Proof. intros H. induction g as [|g IH]; [reflexivity|]. cbn [csum]. rewrite IH, (H g) by (intros; try apply H; lia). reflexivity. Qed.
Lemma reduction_coords v : integer (lattice_reduction (sc_g c) d v i - coords (sc_g c) d v i).
Proof using All.
  unfold lattice_reduction, coords. match goal with |- integer (round_off ?A - ?B) => replace B with A; [apply int_round|] end.
  apply rsum_to_ext. intros k Hk. f_equal. destruct (k <? sc_g c) eqn:E.
  - apply Nat.ltb_lt in E. rewrite (csum_ext_lt _ _ (fun l => RtoC (if k =? l then 1 else 0)%R * v l)%C), csum_pick by (intros; try rewrite Hid; try reflexivity; assumption). reflexivity.
  - apply Nat.ltb_ge in E. rewrite (csum_ext_lt _ _ (fun l => RtoC (if k - sc_g c =? l then 1 else 0)%R * v l)%C), csum_pick by (intros; try rewrite Hid; try reflexivity; lia). reflexivity.
Qed.

Lemma val_sheet k zs : integrals_right integ c d jpows k i phi zs ->
  integer (extend (val (turned integ m m a b N jpows k) (fun _ _ => 0%R) c d i) (map (fun z => (PFin (fst z) (snd z), 1%Z)) zs) - extend phi (map (fun z => (sheet m k z, 1%Z)) zs)).
Proof using All.
  intros H. induction zs as [|z zs IH]; cbn [map extend]; [exists 0%Z; ring|].
  assert (H1 : integrals_right integ c d jpows k i phi zs) by (intros z' j p r Hz; apply (H z' j p r); right; exact Hz).
  specialize (IH H1). destruct Hfull as (Hne & Hl). destruct (distance_spec (fst z) _ Hne) as (j & p & Ed & Hj & Hmin).
  destruct (nth_error (aj_ram d) j) as [r|] eqn:Er. 2: { apply nth_error_None in Er. pose proof (proj1 (nth_error_Some (sc_pts c) j) ltac:(congruence)). lia. }
  pose proof (H z j p r (or_introl eq_refl) Hj Hmin Er) as I. fold m in I.
  match goal with |- integer (1 * ?A + ?B - (1 * ?D + ?E)) => replace (1 * A + B - (1 * D + E))%R with ((B - E) - (D - A))%R by ring end.
  apply int_sub; [exact IH|]. unfold val. rewrite Ed, Er. destruct (Rlt_dec (sc_error c) (Cmod (fst z - p)%C)); [|exact I].
  erewrite coords_ext; [exact I|]. intros l. apply turned_is; assumption.
Qed.

Hypothesis Hp0 : In p0 x.
Hypothesis Hphi0 : integer (phi (PFin p0 (RtoC 0))).
Hypothesis Hkc : kills_coordinates m x m 1 N phi.
Hypothesis Hram : forall j p r, nth_error x j = Some p -> nth_error (aj_ram d) j = Some r -> integer (r i - phi (PFin p (RtoC 0))).

Lemma rational_right rat : good_rational c d 1 N = Done rat -> (0 < sc_error c)%R ->
  integer (rat i - (if in_dec Ceq_dec (RtoC 0) x then - IZR (Z.of_nat N * Z.of_nat m - 1) * phi (PFin (RtoC 0) (RtoC 0)) else 0)).
Proof using All.
  unfold good_rational. fold x. intros E He. destruct (in_dec Ceq_dec (RtoC 0) x) as [I0|_]; [|injection E as <-; exists 0%Z; ring].
  destruct Hfull as (Hne & Hl). destruct (distance_spec (RtoC 0) _ Hne) as (j & p & Ed & Hj & Hmin). fold x in Ed, Hj, Hmin. rewrite Ed in E. cbn [bind fst snd] in E.
  assert (p = RtoC 0). { specialize (Hmin _ I0). replace (Cmod (RtoC 0 - RtoC 0)%C) with 0%R in Hmin by (rewrite <- Cmod_0; f_equal; ring).
    assert (Z0 : Cmod (RtoC 0 - p)%C = 0%R) by (apply Rle_antisym; [exact Hmin|apply Cmod_ge_0]). apply Cmod_eq_0 in Z0. transitivity (RtoC 0 - (RtoC 0 - p))%C; [ring|rewrite Z0; ring]. } subst p.
  destruct (Rlt_dec _ _); [|discriminate]. unfold tget in E. destruct (nth_error (aj_ram d) j) as [r0|] eqn:Er; cbn [bind] in E; [|discriminate]. injection E as <-. fold m.
  specialize (Hram j _ r0 Hj Er). change (Z.of_nat 1) with 1%Z. rewrite <- opp_IZR. rewrite <- Rmult_minus_distr_l. apply int_mul. exact Hram.
Qed.

Lemma good_value roots l y0 : (0 < sc_error c)%R -> good_values roots integ c d a b jpows = Done (Some l) ->
  let zs := map (good_affine m (sc_lc c) 1 N) (filter nonzero (roots (good_poly x 1))) in
  (forall k, 1 <= k <= m -> kills_circle m x N k y0 zs phi /\ integrals_right integ c d jpows k i phi zs) ->
  length l = m /\ forall k, 1 <= k <= m -> exists v, nth_error l (k - 1) = Some v /\ (Rabs (v i) <= / 2)%R /\ integer (v i - phi (PInf (Z.of_nat k))).
Proof using All.
  intros He E zs Hk. unfold good_values in E. cbv zeta in E. fold m x in E. rewrite Hdelta, Nat2Z.id in E. rewrite Nat.div_same in E by lia. rewrite Hn, Nat.div_mul in E by lia.
  destruct (Ceq_dec _ _); [discriminate|]. destruct (good_rational c d 1 N) as [rat0| | |] eqn:Er; cbn [bind] in E; try discriminate.
  assert (Emap : map (fun t => (PFin (fst (good_affine m (sc_lc c) 1 N t)) (snd (good_affine m (sc_lc c) 1 N t)), 1%Z)) (filter nonzero (roots (good_poly x 1))) = map (fun z => (PFin (fst z) (snd z), 1%Z)) zs) by (unfold zs; rewrite map_map; reflexivity).
  rewrite Emap in E. set (pts := map (fun z => (PFin (fst z) (snd z), 1%Z)) zs) in *.
  assert (Hfin : forall q, In q pts -> exists X Y, fst q = PFin X Y) by (intros q Hq; apply in_map_iff in Hq; destruct Hq as (z & <- & _); do 2 eexists; reflexivity).
  assert (Hnoinf : forall k v, In (PInf k, v) pts -> (1 <= k <= sc_delta c)%Z) by (intros k v Hq; destruct (Hfin _ Hq) as (X & Y & F); discriminate F).
  destruct (sort_points (fun _ _ => 0%R) c d pts rat0 (fun _ => 0%R) []) as [[[rat real] edges]| | |] eqn:Es; cbn [bind] in E; try discriminate.
  pose proof (real_kept _ _ _ _ _ _ _ _ _ _ Hfin Es) as ->.
  assert (El : l = map (fun k i0 => neg_off (rat i0 + lattice_reduction (sc_g c) d (edge_integrals (turned integ m m a b N jpows k) edges) i0)%R) (seq 1 (m - 1) ++ [0])).
  { destruct edges; [discriminate|]. injection E as <-. reflexivity. } clear E.
  split; [rewrite El, map_length, app_length, seq_length; cbn [length]; lia|].
  assert (Any : forall k k', 1 <= k <= m -> (k' = k \/ (k = m /\ k' = 0)) -> integer (neg_off (rat i + lattice_reduction (sc_g c) d (edge_integrals (turned integ m m a b N jpows k') edges) i)%R - phi (PInf (Z.of_nat k)))).
  { intros k k' Hk1 Hk'. destruct (Hk k Hk1) as [(KZ & KC) IR].
    pose proof (val_sheet k zs IR) as I1. set (tk := turned integ m m a b N jpows k) in *. fold pts in I1.
    destruct (sort_ok tk (fun _ _ => 0%R) c d Hfull pts rat0 (fun _ => 0%R) [] Hnoinf) as (rat2 & real2 & edges2 & Es2 & Hs). rewrite Es in Es2. injection Es2 as <- <- <-. specialize (Hs i). cbv beta in Hs.
    assert (Z0 : coords (sc_g c) d (edge_integrals tk []) i = 0%R) by apply coords_0. rewrite Z0 in Hs.
    assert (Et : coords (sc_g c) d (edge_integrals (turned integ m m a b N jpows k') edges) i = coords (sc_g c) d (edge_integrals tk edges) i).
    { destruct Hk' as [->|[Ek ->]]; [reflexivity|]. apply coords_ext. intros l0. unfold edge_integrals. clear Es Hs El. generalize (RtoC 0) as s. induction edges as [|[[[X Y] ix] v] edges IHe]; intros s; cbn [fold_left]; [reflexivity|].
      rewrite IHe. replace (turned integ m m a b N jpows 0 X Y ix l0) with (tk X Y ix l0); [reflexivity|]. unfold tk. rewrite !turned_is by assumption. rewrite Ek, root_full by exact m0. reflexivity. }
    pose proof (reduction_coords (edge_integrals (turned integ m m a b N jpows k') edges)) as I2. rewrite Et in I2. set (L := lattice_reduction _ _ _ _) in *. set (U := coords _ _ _ _) in *.
    destruct (neg_off_spec (rat i + L)) as [_ I3]. set (V := neg_off (rat i + L)) in *. set (E := extend (val tk _ c d i) pts) in *.
    pose proof (rational_right rat0 Er He) as I4.
    pose proof (torsion x m m 1 N phi p0 Hp0 Hphi0 Hkc) as T. change (IZR (Z.of_nat 1)) with 1%R in T.
    unfold circle_divisor in KC. rewrite !extend_app in KC. cbn [extend] in KC. set (F := extend phi (map (fun z => (sheet m k z, 1%Z)) zs)) in *. set (A := phi (PInf (Z.of_nat k))) in *.
    destruct (in_dec Ceq_dec (RtoC 0) x) as [I0|I0].
    - cbn [extend] in KC. rewrite opp_IZR in KC. set (Pz := phi (PFin (RtoC 0) (RtoC 0))) in *. set (w := IZR (Z.of_nat N * Z.of_nat m - 1)) in *.
      match type of KC with integer ?h => set (H5 := h) in * end.
      replace (V - A)%R with ((V + (rat i + L)) - (L - U) - (rat0 i - - w * Pz) - (E - F) - H5)%R.
      + apply int_sub; [|exact KC]. apply int_sub; [|exact I1]. apply int_sub; [|exact I4]. apply int_sub; assumption.
      + unfold H5. match goal with |- ?l = ?r => transitivity (r + (rat i + 0 + U - (rat0 i + 0 + 0 + E)))%R; [ring|rewrite Hs; ring] end.
    - specialize (KZ I0). rewrite extend_app in KZ.
      assert (EO : extend phi (over_zero m y0 (- Z.of_nat N)) = (- IZR (Z.of_nat N) * extend phi (over_zero m y0 1))%R) by (rewrite <- opp_IZR; unfold over_zero; apply (extend_map phi (fun l0 => PFin (RtoC 0) (root (Z.of_nat m) (Z.of_nat l0) * y0)%C))).
      assert (EI : extend phi (at_infinity m (-1)) = (IZR (-1) * extend phi (at_infinity m 1))%R) by (unfold at_infinity; apply (extend_map phi (fun k0 => PInf (Z.of_nat k0)))).
      rewrite EO in KC. rewrite EI in KZ. set (O := extend phi (over_zero m y0 1)) in *. set (S := extend phi (at_infinity m 1)) in *. set (w := IZR (Z.of_nat N)) in *.
      match type of KC with integer ?h => set (H5 := h) in * end. match type of KZ with integer ?h => set (H6 := h) in * end.
      replace (V - A)%R with ((V + (rat i + L)) - (L - U) - (rat0 i - 0) - (E - F) - H5 - w * H6 - w * (1 * S))%R.
      + apply int_sub; [|apply int_mul; exact T]. apply int_sub; [|apply int_mul; exact KZ]. apply int_sub; [|exact KC]. apply int_sub; [|exact I1]. apply int_sub; [|exact I4]. apply int_sub; assumption.
      + unfold H5, H6. match goal with |- ?l = ?r => transitivity (r + (rat i + 0 + U - (rat0 i + 0 + 0 + E)))%R; [ring|rewrite Hs; ring] end. }
  intros k Hk1. rewrite El, nth_error_map. destruct (Nat.eq_dec k m) as [Ek|Nk].
  - rewrite nth_error_app2 by (rewrite seq_length; lia). rewrite seq_length. replace (k - 1 - (m - 1)) with 0 by lia. cbn [nth_error option_map]. eexists. split; [reflexivity|]. cbv beta. split; [apply neg_off_spec|apply Any; [exact Hk1|right; split; [exact Ek|reflexivity]]].
  - rewrite nth_error_app1 by (rewrite seq_length; lia). rewrite (nth_error_nth' _ 0) by (rewrite seq_length; lia). rewrite seq_nth by lia. replace (1 + (k - 1)) with k by lia. cbn [option_map]. eexists. split; [reflexivity|]. cbv beta. split; [apply neg_off_spec|apply Any; [exact Hk1|left; reflexivity]].
Qed.
End Value.

(** ** the points *)
Lemma good_affine_is m lc N t : t <> RtoC 0 -> good_affine m lc 1 N t = ((/ t)%C, (cpow (/ t) N * cexp (RtoC (1 / INR m) * clog lc))%C).
Proof.
  intros Ht. unfold good_affine. cbv zeta.
  assert (Inv : forall z, cexp (- z)%C = (/ cexp z)%C). { intros z. pose proof (cexp_inv z) as X. pose proof (cexp_neq z) as Z0. transitivity (cexp (- z) * cexp z * / cexp z)%C; [field; exact Z0|rewrite X; ring]. }
  assert (Et : forall K, cexp (- RtoC (INR K) * clog t)%C = cpow (/ t)%C K).
  { intros K. rewrite cpow_inv_mul by exact Ht. replace (- RtoC (INR K) * clog t)%C with (- (RtoC (INR K) * clog t))%C by ring. rewrite Inv, <- cexp_cpow, cexp_clog_id by exact Ht. reflexivity. }
  rewrite !Et. f_equal. cbn [cpow]. ring.
Qed.
Lemma good_points_ok x m lc N : 0 < m -> length x = N * m -> lc <> RtoC 0 ->
  exists w, cpow w m = lc /\ w <> RtoC 0 /\
  (forall t, t <> RtoC 0 -> good_poly x 1 t = RtoC 0 ->
     let p := good_affine m lc 1 N t in on_curve m lc x (fst p) (snd p) /\ fst p = (/ t)%C /\ fun_r 1 N w (fst p) (snd p) = RtoC 1) /\
  (forall X Y, on_curve m lc x X Y -> X <> RtoC 0 -> fun_r 1 N w X Y = RtoC 1 -> good_poly x 1 (/ X)%C = RtoC 0 /\ good_affine m lc 1 N (/ X)%C = (X, Y)).
Proof.
  intros m0 Hn Hlc. set (w := cexp (RtoC (1 / INR m) * clog lc)%C).
  assert (Hw : cpow w m = lc).
  { unfold w. rewrite cexp_cpow, Cmult_assoc, <- RtoC_mult. replace (INR m * (1 / INR m))%R with 1%R by (field; apply not_0_INR; lia). rewrite Cmult_1_l. apply cexp_clog_id. exact Hlc. }
  assert (Hw0 : w <> RtoC 0) by apply cexp_neq.
  assert (Pol : forall t, t <> RtoC 0 -> poly_at x (/ t)%C = ((good_poly x 1 t + RtoC 1) * cpow (/ t) (N * m))%C).
  { intros t Ht. unfold poly_at. rewrite cprod_scaled by exact Ht. rewrite Hn, cpow_inv_mul by exact Ht. unfold good_poly, Cdiv. f_equal.
    transitivity (cprod (fun p => RtoC 1 - p * cpow t 1)%C x); [|ring]. clear. induction x as [|p x IH]; cbn [cprod]; [reflexivity|]. rewrite IH. cbn [cpow]. f_equal. ring. }
  exists w. split; [exact Hw|]. split; [exact Hw0|]. split.
  - intros t Ht Hg. cbv zeta. rewrite good_affine_is by exact Ht. cbn [fst snd]. fold w. pose proof (inv_neq t Ht) as Ht'. split; [|split; [reflexivity|]].
    + unfold on_curve. rewrite Pol, Hg, cpow_mul, Hw, cpow_cpow by exact Ht. ring.
    + unfold fun_r. cbn [cpow]. assert (Q0 : cpow (/ t)%C N <> RtoC 0) by (apply cpow_neq_0; exact Ht'). set (q := cpow (/ t)%C N) in *. field. repeat split; assumption.
  - intros X Y Hc HX Hr. pose proof (inv_neq X HX) as HX'. assert (EX : (/ / X)%C = X) by (field; repeat split; first [exact HX|exact one_nz|exact HX']).
    assert (EY : Y = (cpow X N * w)%C).
    { unfold fun_r in Hr. cbn [cpow] in Hr. transitivity (RtoC 1 * (Y / w) / cpow X N * (cpow X N * w))%C; [|rewrite Hr; ring]. assert (Q0 : cpow X N <> RtoC 0) by (apply cpow_neq_0; exact HX). set (q := cpow X N) in *. field. repeat split; assumption. }
    split.
    + unfold on_curve in Hc. pose proof (Pol (/ X)%C HX') as P. rewrite EX in P. rewrite EY, cpow_mul, Hw, cpow_cpow, P in Hc.
      assert (Z0 : cpow X (N * m) <> RtoC 0) by (apply cpow_neq_0; exact HX). set (q := cpow X (N * m)) in *. set (u := good_poly x 1 (/ X)%C) in *.
      transitivity (lc * ((u + RtoC 1) * q) / (lc * q) - RtoC 1)%C; [field; repeat split; assumption|]. rewrite <- Hc. field. repeat split; first [assumption|exact one_nz].
    + rewrite good_affine_is by exact HX'. rewrite EX, EY. reflexivity.
Qed.

(** ** y^2 = w^2 x (x+2) (x-3) (x-4), w positive *)
Definition quad : list C := map RtoC [0; -2; 3; 4]%R.
Definition quad_curve (w : R) : se_curve := {| sc_m := 2; sc_delta := 2; sc_g := 1; sc_f := []; sc_lc := RtoC (w * w); sc_pts := quad; sc_prec := 1 |}.
Definition quad_data (w : R) : aj_data :=
  {| aj_ram := repeat (fun _ => 0%R) 4; aj_red := fun i j => if i =? j then 1%R else 0%R;
     aj_dcm := fun i j => if i =? j then cexp (RtoC (IZR 1) * (- RtoC (1 / INR 2) * clog (RtoC (w * w))))%C else RtoC 0 |}.
Definition quad_roots : (C -> C) -> list C := fun _ => map RtoC [0; / 2; - (5 / 12)]%R.
Definition quad_integ (X Y : C) (i j : nat) : C := if Rlt_dec 0 (fst Y) then RtoC (/ 3) else RtoC (- / 3).
Definition quad_phi (w : R) (i : nat) (p : point) : R :=
  if i =? 0 then match p with
    | PInf k => if (k =? 2)%Z then (- (2 / (3 * w)))%R else (2 / (3 * w))%R
    | PFin X Y => if Ceq_dec Y (RtoC 0) then 0%R else if Rlt_dec 0 (fst Y) then (/ (3 * w))%R else (- / (3 * w))%R
  end else 0%R.
Lemma quad_poly t : good_poly quad 1 (RtoC t) = RtoC (24 * t * (t - / 2) * (t + 5 / 12)).
Proof. unfold good_poly, quad. cbn [map cprod cpow]. rewrite <- !RtoC_mult, <- !RtoC_minus, <- !RtoC_mult, <- RtoC_minus. f_equal. field. Qed.
Lemma quad_polyC t : good_poly quad 1 t = (RtoC 24 * t * (t - RtoC (/ 2)) * (t + RtoC (5 / 12)))%C.
Proof.
  unfold good_poly, quad. cbn [map cprod cpow]. destruct t as [u v]. unfold RtoC, Cmult, Cminus, Cplus, Copp. cbn [fst snd]. apply injective_projections; cbn [fst snd]; field.
Qed.
Lemma quad_roots_ok t : In t (quad_roots (good_poly quad 1)) <-> good_poly quad 1 t = RtoC 0.
Proof.
  rewrite quad_polyC. unfold quad_roots. cbn [map In]. split.
  - intros [<-|[<-|[<-|[]]]]; [ring|ring|]. rewrite RtoC_opp. ring.
  - intros H. destruct (Ceq_dec t (RtoC 0)) as [E|E1]; [left; auto|]. destruct (Ceq_dec t (RtoC (/ 2))) as [E|E2]; [right; left; auto|]. destruct (Ceq_dec t (RtoC (- (5 / 12)))) as [E|E3]; [right; right; left; auto|].
    exfalso. revert H. apply Cmult_neq_0; [apply Cmult_neq_0; [apply Cmult_neq_0; [apply RtoC_ne; lra|exact E1]|]|].
    + intros H. apply E2. transitivity (t - RtoC (/ 2) + RtoC (/ 2))%C; [ring|rewrite H; ring].
    + intros H. apply E3. transitivity (t + RtoC (5 / 12) - RtoC (5 / 12))%C; [ring|rewrite H, RtoC_opp; ring].
Qed.
Lemma clog_pos r : (0 < r)%R -> clog (RtoC r) = RtoC (ln r).
Proof.
  intros H. unfold clog. replace (carg (RtoC r)) with 0%R; [|symmetry; apply (carg_unique _ r); [exact H|pose proof PI_RGT_0; lra|]].
  - rewrite Cmod_R, Rabs_pos_eq by lra. reflexivity.
  - unfold cis. rewrite cos_0, sin_0. unfold RtoC, Cmult. cbn [fst snd]. f_equal; ring.
Qed.
Section Quad.
Context (w : R).
Hypothesis w0 : (0 < w)%R.
Lemma ww : (0 < w * w)%R.
Proof using w0. apply Rmult_lt_0_compat; exact w0. Qed.
Lemma quad_w : cexp (RtoC (1 / INR 2) * clog (RtoC (w * w)))%C = RtoC w.
Proof using w0.
  rewrite clog_pos by apply ww. rewrite <- RtoC_mult, cexp_real. f_equal. rewrite ln_mult by exact w0. replace (1 / INR 2 * (ln w + ln w))%R with (ln w) by (simpl; field). apply exp_ln. exact w0.
Qed.
Lemma quad_dcm : cexp (RtoC (IZR 1) * (- RtoC (1 / INR 2) * clog (RtoC (w * w))))%C = RtoC (/ w).
Proof using w0.
  rewrite clog_pos by apply ww. rewrite <- RtoC_opp, <- !RtoC_mult, cexp_real. f_equal. rewrite ln_mult by exact w0. replace (1 * (- (1 / INR 2) * (ln w + ln w)))%R with (- ln w)%R by (simpl; field). rewrite exp_Ropp, exp_ln by exact w0. reflexivity.
Qed.
Definition quad_points : list (C * C) := [(RtoC 2, RtoC (4 * w)); (RtoC (- (12 / 5)), RtoC (144 / 25 * w))].
Lemma quad_zs : map (good_affine 2 (RtoC (w * w)) 1 2) (filter nonzero (quad_roots (good_poly quad 1))) = quad_points.
Proof using w0.
  unfold quad_roots. change (map RtoC [0; / 2; - (5 / 12)]%R) with (RtoC 0 :: map RtoC [/ 2; - (5 / 12)]%R). rewrite filter_cons0. cbn [map filter].
  assert (N1 : RtoC (/ 2) <> RtoC 0) by (apply RtoC_ne; lra). assert (N2 : RtoC (- (5 / 12)) <> RtoC 0) by (apply RtoC_ne; lra).
  unfold nonzero. destruct (Ceq_dec (RtoC (/ 2)) (RtoC 0)) as [X|_]; [contradiction|]. destruct (Ceq_dec (RtoC (- (5 / 12))) (RtoC 0)) as [X|_]; [contradiction|]. cbn [map].
  rewrite !good_affine_is, quad_w by assumption. cbn [cpow]. rewrite <- !RtoC_inv by lra. rewrite <- !RtoC_mult. apply (f_equal2 cons); [apply (f_equal2 pair); apply (f_equal RtoC); field|]. apply (f_equal2 cons); [apply (f_equal2 pair); apply (f_equal RtoC); field|reflexivity].
Qed.

Lemma quad_far z p : In z quad_points -> In p quad -> (2 / 5 <= Cmod (fst z - p)%C)%R.
Proof.
  intros [<-|[<-|[]]] [<-|[<-|[<-|[<-|[]]]]]; cbn [fst]; rewrite <- RtoC_minus, Cmod_R; unfold Rabs; destruct (Rcase_abs _); lra.
Qed.
Lemma quad_error : sc_error (quad_curve w) = (/ 100)%R.
Proof. unfold sc_error, quad_curve. cbn [sc_prec Nat.add]. f_equal. simpl. ring. Qed.
Lemma quad_complete : complete (quad_curve w) (quad_data w).
Proof. split; [discriminate|reflexivity]. Qed.
Lemma quad_ram j p r : nth_error quad j = Some p -> nth_error (aj_ram (quad_data w)) j = Some r -> r = fun _ => 0%R.
Proof. intros _. cbn [quad_data aj_ram repeat]. destruct j as [|[|[|[|[|j]]]]]; cbn [nth_error]; intros E; try discriminate E; injection E as <-; reflexivity. Qed.
Lemma root21 : root (Z.of_nat 2) (Z.of_nat 1) = RtoC (-1).
Proof. unfold root. replace (2 * PI * IZR (Z.of_nat 1) / IZR (Z.of_nat 2))%R with PI by (simpl; field). unfold cis. rewrite cos_PI, sin_PI. reflexivity. Qed.
Lemma root2m1 : root (Z.of_nat 2) (- Z.of_nat 1 * 1) = RtoC (-1).
Proof. rewrite <- (root_mod (Z.of_nat 2) (- Z.of_nat 1 * 1)) by lia. change ((- Z.of_nat 1 * 1) mod Z.of_nat 2)%Z with (Z.of_nat 1). apply root21. Qed.
Lemma root2m2 : root (Z.of_nat 2) (- Z.of_nat 2 * 1) = RtoC 1.
Proof. rewrite <- (root_mod (Z.of_nat 2) (- Z.of_nat 2 * 1)) by lia. change ((- Z.of_nat 2 * 1) mod Z.of_nat 2)%Z with 0%Z. apply root_0. Qed.
Lemma quad_coords r : coords 1 (quad_data w) (fun _ => RtoC r) 0 = (r / w)%R.
Proof using w0. unfold coords, quad_data. cbn [rsum_to Nat.mul Nat.add aj_red aj_dcm Nat.eqb Nat.ltb Nat.leb Nat.sub csum]. rewrite quad_dcm, <- RtoC_mult, <- RtoC_plus. cbn [fst RtoC]. field. lra. Qed.
Lemma quad_reduction r : lattice_reduction 1 (quad_data w) (fun _ => RtoC r) 0 = round_off r.
Proof. unfold lattice_reduction, quad_data. cbn [rsum_to Nat.mul Nat.add aj_red aj_dcm Nat.eqb Nat.ltb Nat.leb Nat.sub csum fst RtoC]. f_equal. ring. Qed.
Lemma quad_coords_ext g d v u i : g = 1 -> v 0 = u 0 -> coords g d v i = coords g d u i.
Proof. intros -> H. unfold coords. cbn [rsum_to Nat.mul Nat.add Nat.ltb Nat.leb Nat.sub csum]. rewrite H. reflexivity. Qed.
Lemma quad_phi_pos r X : (0 < r)%R -> quad_phi w 0 (PFin X (RtoC r)) = (/ (3 * w))%R.
Proof. intros H. unfold quad_phi. cbn [Nat.eqb]. destruct (Ceq_dec (RtoC r) (RtoC 0)) as [E|_]; [exfalso; injection E; lra|]. cbn [fst RtoC]. destruct (Rlt_dec 0 r); [reflexivity|contradiction]. Qed.
Lemma quad_phi_neg r X : (r < 0)%R -> quad_phi w 0 (PFin X (RtoC r)) = (- / (3 * w))%R.
Proof. intros H. unfold quad_phi. cbn [Nat.eqb]. destruct (Ceq_dec (RtoC r) (RtoC 0)) as [E|_]; [exfalso; injection E; lra|]. cbn [fst RtoC]. destruct (Rlt_dec 0 r); [lra|reflexivity]. Qed.
Lemma quad_phi_ram X : quad_phi w 0 (PFin X (RtoC 0)) = 0%R.
Proof. unfold quad_phi. cbn [Nat.eqb]. destruct (Ceq_dec (RtoC 0) (RtoC 0)) as [_|X0]; [reflexivity|congruence]. Qed.
Lemma quad_sheet k z : 1 <= k <= 2 -> In z quad_points -> quad_phi w 0 (sheet 2 k z) = (if k =? 1 then - / (3 * w) else / (3 * w))%R /\ quad_integ (fst z) (snd z) 0 0 = RtoC (/ 3) /\ (forall j l, quad_integ (fst z) (snd z) j l = RtoC (/ 3)).
Proof.
  intros Hk Hz. assert (Hy : exists r, snd z = RtoC r /\ (0 < r)%R). { destruct Hz as [<-|[<-|[]]]; cbn [snd]; eexists; split; try reflexivity; lra. }
  destruct Hy as (r & Ey & Hr). split; [|assert (G : forall j l, quad_integ (fst z) (snd z) j l = RtoC (/ 3)) by (intros j l; unfold quad_integ; rewrite Ey; cbn [fst RtoC]; destruct (Rlt_dec 0 r); [reflexivity|contradiction]); split; [apply G|exact G]].
  unfold sheet. rewrite Ey. assert (Hk' : k = 1 \/ k = 2) by lia. destruct Hk' as [-> | ->]; [rewrite root21|rewrite root22]; rewrite <- RtoC_mult; cbn [Nat.eqb]; [apply quad_phi_neg|apply quad_phi_pos]; lra.
Qed.
Lemma quad_integrals k : 1 <= k <= 2 -> integrals_right quad_integ (quad_curve w) (quad_data w) [1%Z] k 0 (quad_phi w 0) quad_points.
Proof.
  intros Hk z j p r Hz Hj _ Hr. rewrite (quad_ram j p r Hj Hr). cbn [sc_m sc_pts sc_g quad_curve] in *. destruct (quad_sheet k z Hk Hz) as (E1 & _ & E2). rewrite E1, quad_error.
  destruct (Rlt_dec (/ 100) (Cmod (fst z - p)%C)) as [_|X]; [|exfalso; apply X; pose proof (quad_far z p Hz (nth_error_In _ _ Hj)); lra].
  rewrite (quad_coords_ext 1 (quad_data w) _ (fun _ => RtoC ((if k =? 1 then -1 else 1) * / 3)%R) 0 eq_refl), quad_coords.
  - exists 0%Z. destruct (k =? 1); field; lra.
  - cbn [nth]. rewrite E2, RtoC_mult. f_equal. assert (Hk' : k = 1 \/ k = 2) by lia. destruct Hk' as [-> | ->]; cbn [Nat.eqb]; [apply root2m1|apply root2m2].
Qed.
Lemma quad_in0 : In (RtoC 0) quad. Proof. left. reflexivity. Qed.
Lemma quad_kills k : 1 <= k <= 2 -> kills_circle 2 quad 2 k (RtoC 1) quad_points (quad_phi w 0).
Proof.
  intros Hk. split; [intros X; destruct (X quad_in0)|]. unfold circle_divisor. destruct (in_dec Ceq_dec (RtoC 0) quad) as [_|X]; [|destruct (X quad_in0)]. rewrite !extend_app. cbn [map quad_points extend].
  rewrite (proj1 (quad_sheet k _ Hk (or_introl eq_refl))), (proj1 (quad_sheet k _ Hk (or_intror (or_introl eq_refl)))), quad_phi_ram.
  exists 0%Z. assert (Hk' : k = 1 \/ k = 2) by lia. destruct Hk' as [-> | ->]; cbn; field; lra.
Qed.
Lemma quad_coordinates : kills_coordinates 2 quad 2 1 2 (quad_phi w 0).
Proof.
  assert (I : forall v, extend (quad_phi w 0) (at_infinity 2 v) = 0%R) by (intros v; unfold at_infinity, quad_phi; cbn; field; lra). split.
  - intros p _. cbn [extend]. rewrite I, quad_phi_ram. exists 0%Z. ring.
  - rewrite extend_app, I. unfold ramified, quad. cbn [map extend]. rewrite !quad_phi_ram. exists 0%Z. ring.
Qed.
Lemma quad_near X : exists j p, distance X quad = Done (Cmod (X - p)%C, j) /\ In p quad /\ tget (aj_ram (quad_data w)) j = Done (fun _ => 0%R).
Proof.
  destruct (distance_spec X quad ltac:(discriminate)) as (j & p & E & Hj & _). exists j, p. split; [exact E|]. split; [exact (nth_error_In _ _ Hj)|].
  unfold tget, quad_data. cbn [aj_ram repeat]. unfold quad in Hj. cbn [map] in Hj. destruct j as [|[|[|[|j]]]]; try reflexivity. cbn [nth_error] in Hj. destruct j; discriminate Hj.
Qed.
Lemma quad_red k s ix iy : root (Z.of_nat 2) (- Z.of_nat k * 1) = RtoC s ->
  lattice_reduction 1 (quad_data w) (edge_integrals (turned quad_integ 2 2 1 0 2 [1%Z] k) [(RtoC 2, RtoC (4 * w), ix, 1%Z); (RtoC (- (12 / 5)), RtoC (144 / 25 * w), iy, 1%Z)]) 0 = round_off (s * (2 / 3)).
Proof.
  intros H. assert (T : forall z ix, In z quad_points -> turned quad_integ 2 2 1 0 2 [1%Z] k (fst z) (snd z) ix 0 = RtoC (s * / 3)).
  { intros z j Hz. rewrite turned_is by lia. cbn [nth]. rewrite H. destruct (quad_sheet 1 z ltac:(lia) Hz) as (_ & _ & E). rewrite E, RtoC_mult. reflexivity. }
  pose proof (T (RtoC 2, RtoC (4 * w)) ix (or_introl eq_refl)) as T1. pose proof (T (RtoC (- (12 / 5)), RtoC (144 / 25 * w)) iy (or_intror (or_introl eq_refl))) as T2. cbn [fst snd] in T1, T2.
  unfold lattice_reduction, quad_data. cbn [rsum_to Nat.mul Nat.add aj_red Nat.eqb Nat.ltb Nat.leb Nat.sub]. unfold edge_integrals. cbn [fold_left]. rewrite T1, T2. rewrite <- !RtoC_mult, <- !RtoC_plus. cbn [fst snd RtoC]. f_equal. field.
Qed.
Lemma quad_red1 ix iy : lattice_reduction 1 (quad_data w) (edge_integrals (turned quad_integ 2 2 1 0 2 [1%Z] 1) [(RtoC 2, RtoC (4 * w), ix, 1%Z); (RtoC (- (12 / 5)), RtoC (144 / 25 * w), iy, 1%Z)]) 0 = round_off (-1 * (2 / 3)).
Proof. apply quad_red. apply root2m1. Qed.
Lemma quad_red0 ix iy : lattice_reduction 1 (quad_data w) (edge_integrals (turned quad_integ 2 2 1 0 2 [1%Z] 0) [(RtoC 2, RtoC (4 * w), ix, 1%Z); (RtoC (- (12 / 5)), RtoC (144 / 25 * w), iy, 1%Z)]) 0 = round_off (1 * (2 / 3)).
Proof. apply quad_red. apply root_0. Qed.
Lemma quad_run : exists l, good_values quad_roots quad_integ (quad_curve w) (quad_data w) 1 0 [1%Z] = Done (Some l) /\
  exists v1 v2, l = [v1; v2] /\ integer (v1 0 - 2 / 3) /\ integer (v2 0 + 2 / 3).
Proof using w0.
  unfold good_values. cbv zeta. cbn [sc_pts sc_m sc_delta sc_g sc_lc quad_curve]. change (Z.to_nat 2) with 2. change (length quad / 2) with 2. change (2 / 2) with 1.
  destruct (Ceq_dec _ (RtoC 0)) as [X|_].
  { exfalso. unfold quad in X. cbn [map fold_right] in X. rewrite <- !RtoC_plus in X. injection X. lra. }
  rewrite <- (map_map (good_affine 2 (RtoC (w * w)) 1 2) (fun p => (PFin (fst p) (snd p), 1%Z))), quad_zs. unfold quad_points.
  unfold good_rational. cbn [sc_pts sc_m quad_curve]. destruct (in_dec Ceq_dec (RtoC 0) quad) as [_|X]; [|destruct (X quad_in0)].
  destruct (distance_spec (RtoC 0) quad ltac:(discriminate)) as (j0 & p0 & E0 & Hj0 & Hm0). specialize (Hm0 _ quad_in0). replace (Cmod (RtoC 0 - RtoC 0)%C) with 0%R in Hm0 by (rewrite <- Cmod_0; f_equal; ring).
  destruct (quad_near (RtoC 0)) as (j0' & p0' & E0' & _ & T0). rewrite E0 in E0'. injection E0' as _ <-. rewrite E0. cbn [bind fst snd]. rewrite quad_error. destruct (Rlt_dec _ _) as [_|X]; [|exfalso; apply X; lra]. rewrite T0. cbn [bind].
  destruct (quad_near (RtoC 2)) as (j1 & p1 & E1 & Hp1 & T1). destruct (quad_near (RtoC (- (12 / 5)))) as (j2 & p2 & E2 & Hp2 & T2).
  cbn [map fst snd sort_points sc_pts quad_curve]. rewrite E1. cbn [bind fst snd]. rewrite T1. cbn [bind]. rewrite E2. cbn [bind fst snd]. rewrite T2. cbn [bind]. rewrite quad_error.
  pose proof (quad_far (RtoC 2, RtoC (4 * w)) p1 (or_introl eq_refl) Hp1) as F1. pose proof (quad_far (RtoC (- (12 / 5)), RtoC (144 / 25 * w)) p2 (or_intror (or_introl eq_refl)) Hp2) as F2. cbn [fst] in F1, F2.
  destruct (Rlt_dec (/ 100) (Cmod (RtoC 2 - p1)%C)) as [_|X]; [|exfalso; apply X; lra]. destruct (Rlt_dec (/ 100) (Cmod (RtoC (- (12 / 5)) - p2)%C)) as [_|X]; [|exfalso; apply X; lra]. cbn [app].
  eexists. split; [reflexivity|]. cbn [Nat.sub seq app map]. do 2 eexists. split; [reflexivity|]. cbv beta. rewrite quad_red1, quad_red0. split.
  - match goal with |- integer (neg_off ?A - _) => destruct (neg_off_spec A) as [_ I1]; set (V := neg_off A) in * end. pose proof (int_round (-1 * (2 / 3))) as I2. set (L := round_off (-1 * (2 / 3))) in *.
    destruct (int_sub _ _ I1 I2) as (z & Hz). exists z. rewrite <- Hz. field.
  - match goal with |- integer (neg_off ?A + _) => destruct (neg_off_spec A) as [_ I1]; set (V := neg_off A) in * end. pose proof (int_round (1 * (2 / 3))) as I2. set (L := round_off (1 * (2 / 3))) in *.
    destruct (int_sub _ _ I1 I2) as (z & Hz). exists z. rewrite <- Hz. field.
Qed.
End Quad.
Lemma quad_wrong : exists l, good_values quad_roots quad_integ (quad_curve 2) (quad_data 2) 1 0 [1%Z] = Done (Some l) /\
  forall k, 1 <= k <= 2 -> exists v, nth_error l (k - 1) = Some v /\ ~ integer (v 0 - quad_phi 2 0 (PInf (Z.of_nat k))).
Proof.
  destruct (quad_run 2 ltac:(lra)) as (l & E & v1 & v2 & -> & I1 & I2). exists [v1; v2]. split; [exact E|]. intros k Hk. assert (Hk' : k = 1 \/ k = 2) by lia.
  destruct Hk' as [-> | ->]; cbn [Nat.sub nth_error]; (eexists; split; [reflexivity|]); intros I3.
  - destruct (int_sub _ _ I3 I1) as (z & Hz). apply (not_int_frac 1 3 z); [lia|intros (q & Hq); lia|]. rewrite <- Hz. unfold quad_phi. cbn. field.
  - destruct (int_sub _ _ I2 I3) as (z & Hz). apply (not_int_frac 1 3 z); [lia|intros (q & Hq); lia|]. rewrite <- Hz. unfold quad_phi. cbn. field.
Qed.
Lemma quad_identity j k : j < 1 -> k < 1 -> aj_dcm (quad_data 1) j k = RtoC (if j =? k then 1 else 0)%R.
Proof. intros Hj Hk. assert (j = 0) by lia. assert (k = 0) by lia. subst. unfold quad_data. cbn [aj_dcm Nat.eqb]. rewrite quad_dcm by lra. f_equal. field. Qed.

Lemma sc_error_pos c : (0 < sc_error c)%R.
Proof. unfold sc_error. apply Rinv_0_lt_compat, pow_lt. lra. Qed.
Lemma good_values_right : forall integ c d a b jpows N phi p0 i roots l y0,
  let m := sc_m c in let x := sc_pts c in
  let zs := map (good_affine m (sc_lc c) 1 N) (filter nonzero (roots (good_poly x 1))) in
  0 < m -> complete c d -> sc_delta c = Z.of_nat m -> length x = N * m -> (a + b * Z.of_nat N = 1)%Z ->
  (forall j k, j < sc_g c -> k < sc_g c -> aj_dcm d j k = RtoC (if j =? k then 1 else 0)%R) ->
  In p0 x -> integer (phi (PFin p0 (RtoC 0))) -> kills_coordinates m x m 1 N phi ->
  (forall j p r, nth_error x j = Some p -> nth_error (aj_ram d) j = Some r -> integer (r i - phi (PFin p (RtoC 0)))) ->
  (forall k, 1 <= k <= m -> kills_circle m x N k y0 zs phi /\ integrals_right integ c d jpows k i phi zs) ->
  good_values roots integ c d a b jpows = Done (Some l) ->
  length l = m /\ forall k, 1 <= k <= m -> exists v, nth_error l (k - 1) = Some v /\ (Rabs (v i) <= / 2)%R /\ integer (v i - phi (PInf (Z.of_nat k))).
Proof.
  intros integ c d a b jpows N phi p0 i roots l y0 m x zs H1 H2 H3 H4 H5 H6 H7 H8 H9 H10 H11 H12.
  exact (good_value integ c d a b jpows N phi p0 i H1 H2 H3 H4 H5 H6 H7 H8 H9 H10 roots l y0 (sc_error_pos c) H12 H11).
Qed.
Lemma quad_nodup : NoDup (quad_roots (good_poly quad 1)).
Proof.
  unfold quad_roots. cbn [map]. repeat constructor; cbn [In]; intros X; repeat match goal with H : _ \/ _ |- _ => destruct H as [H|H] end; try contradiction; injection X; lra.
Qed.
Lemma quad_all w : (0 < w)%R -> let c := quad_curve w in let d := quad_data w in let m := sc_m c in let x := sc_pts c in let phi := quad_phi w 0 in
  let zs := map (good_affine m (sc_lc c) 1 2) (filter nonzero (quad_roots (good_poly x 1))) in
  In (RtoC 0) x /\ integer (phi (PFin (RtoC 0) (RtoC 0))) /\ kills_coordinates m x m 1 2 phi /\
  (forall j p r, nth_error x j = Some p -> nth_error (aj_ram d) j = Some r -> integer (r 0 - phi (PFin p (RtoC 0)))) /\
  (forall k, 1 <= k <= m -> kills_circle m x 2 k (RtoC 1) zs phi /\ integrals_right quad_integ c d [1%Z] k 0 phi zs).
Proof.
  intros Hw. cbv zeta. cbn [sc_m sc_pts sc_lc quad_curve]. rewrite (quad_zs w Hw). split; [apply quad_in0|]. split; [rewrite quad_phi_ram; exists 0%Z; reflexivity|]. split; [apply quad_coordinates; exact Hw|]. split.
  - intros j p r Hj Hr. rewrite (quad_ram w j p r Hj Hr), quad_phi_ram. exists 0%Z. ring.
  - intros k Hk. split; [apply quad_kills; assumption|apply quad_integrals; assumption].
Qed.
Lemma good_refuted : exists integ c d a b jpows N phi p0 roots y0,
  let m := sc_m c in let x := sc_pts c in
  let zs := map (good_affine m (sc_lc c) 1 N) (filter nonzero (roots (good_poly x 1))) in
  0 < m /\ complete c d /\ sc_delta c = Z.of_nat m /\ length x = N * m /\ (a + b * Z.of_nat N = 1)%Z /\
  (forall j k, aj_dcm d j k = if j =? k then cexp (RtoC (IZR 1) * (- RtoC (1 / INR m) * clog (sc_lc c)))%C else RtoC 0) /\
  In p0 x /\ integer (phi (PFin p0 (RtoC 0))) /\ kills_coordinates m x m 1 N phi /\
  (forall j p r, nth_error x j = Some p -> nth_error (aj_ram d) j = Some r -> integer (r 0 - phi (PFin p (RtoC 0)))) /\
  (forall t, In t (roots (good_poly x 1)) <-> good_poly x 1 t = RtoC 0) /\ NoDup (roots (good_poly x 1)) /\
  (forall k, 1 <= k <= m -> kills_circle m x N k y0 zs phi /\ integrals_right integ c d jpows k 0 phi zs) /\
  exists l, good_values roots integ c d a b jpows = Done (Some l) /\
    forall k, 1 <= k <= m -> exists v, nth_error l (k - 1) = Some v /\ ~ integer (v 0 - phi (PInf (Z.of_nat k))).
Proof.
  exists quad_integ, (quad_curve 2), (quad_data 2), 1%Z, 0%Z, [1%Z], 2, (quad_phi 2 0), (RtoC 0), quad_roots, (RtoC 1). cbv zeta.
  destruct (quad_all 2 ltac:(lra)) as (A & B & D & E & F). split; [cbn; lia|]. split; [apply quad_complete|]. split; [reflexivity|]. split; [reflexivity|]. split; [reflexivity|]. split; [reflexivity|].
  split; [exact A|]. split; [exact B|]. split; [exact D|]. split; [exact E|]. split; [exact quad_roots_ok|]. split; [exact quad_nodup|]. split; [exact F|]. exact quad_wrong.
Qed.
Lemma good_example : exists integ c d a b jpows N phi p0 roots y0 l,
  let m := sc_m c in let x := sc_pts c in
  let zs := map (good_affine m (sc_lc c) 1 N) (filter nonzero (roots (good_poly x 1))) in
  0 < m /\ complete c d /\ sc_delta c = Z.of_nat m /\ length x = N * m /\ (a + b * Z.of_nat N = 1)%Z /\
  (forall j k, j < sc_g c -> k < sc_g c -> aj_dcm d j k = RtoC (if j =? k then 1 else 0)%R) /\
  In p0 x /\ integer (phi (PFin p0 (RtoC 0))) /\ kills_coordinates m x m 1 N phi /\
  (forall j p r, nth_error x j = Some p -> nth_error (aj_ram d) j = Some r -> integer (r 0 - phi (PFin p (RtoC 0)))) /\
  (forall k, 1 <= k <= m -> kills_circle m x N k y0 zs phi /\ integrals_right integ c d jpows k 0 phi zs) /\
  good_values roots integ c d a b jpows = Done (Some l) /\ ~ integer (phi (PInf 1)).
Proof.
  destruct (quad_run 1 ltac:(lra)) as (l & El & _).
  exists quad_integ, (quad_curve 1), (quad_data 1), 1%Z, 0%Z, [1%Z], 2, (quad_phi 1 0), (RtoC 0), quad_roots, (RtoC 1), l. cbv zeta.
  destruct (quad_all 1 ltac:(lra)) as (A & B & D & E & F). split; [cbn; lia|]. split; [apply quad_complete|]. split; [reflexivity|]. split; [reflexivity|]. split; [reflexivity|]. split; [exact quad_identity|].
  split; [exact A|]. split; [exact B|]. split; [exact D|]. split; [exact E|]. split; [exact F|]. split; [exact El|].
  intros (z & Hz). apply (not_int_frac 2 3 z); [lia|intros (q & Hq); lia|]. rewrite <- Hz. unfold quad_phi. cbn. field.
Qed.
