(** Ramification points in the Magma package: the values at infinity, and a curve for which the calculation ends. *)
From Coquelicot Require Import Coquelicot.
From Verif Require Import CArg ModelTree ModelVec ModelPeriod ModelTurn ModelSymp SpecSymp SpecInter ModelMaRoot ModelMaDiff ModelMaFactor ModelMaSum ModelMaTree ModelMaInter ModelMaSymp ModelMaAjm ModelMaPath ModelMaDivisor ModelMaPeriod ModelMaRam SpecVec SpecPeriod SpecCurve SpecTree SpecTurn SpecMaRoot SpecMaFactor SpecQuad SpecMaSum SpecMaTree SpecDeq SpecCross SpecMaInter SpecMaSymp SpecMaPeriod SpecMaPath SpecMaRam ProofEdge ProofVec ProofTree ProofPeriod ProofSympRank ProofRiem4 ProofMaTree4 ProofMaTree5 ProofMaDiff ProofMaFactor2 ProofMaAjm ProofMaAjm3 ProofMaPeriod ProofMaPeriod2 ProofMaPeriod3 ProofMaPeriod4 ProofMaPeriod5 ProofMaPeriod6 ProofMaRam ProofMaRam2 SpecEdge.
From Coq Require Import ClassicalEpsilon.
From Verif Require ProofMaPath.
Local Open Scope nat_scope.

(** ** infinity *)
Lemma sum_integer m (ram : list (nat -> R)) k : (forall v, In v ram -> exists z : Z, (INR m * v k)%R = IZR z) ->
  exists z : Z, (INR m * fold_right Rplus 0%R (map (fun v => v k) ram))%R = IZR z.
Proof.
  induction ram as [|v ram IH]; intros H; cbn [map fold_right]; [exists 0%Z; ring|].
  destruct (H v (or_introl eq_refl)) as (z & Hz). destruct IH as (z' & Hz'); [intros v' Hv'; apply H; right; exact Hv'|]. exists (z + z')%Z. rewrite plus_IZR, <- Hz, <- Hz'. ring.
Qed.
Lemma infinity_relations m (a b : Z) ram k : (a * Z.of_nat m + b * Z.of_nat (length ram) = 1)%Z -> (forall v, In v ram -> exists z : Z, (INR m * v k)%R = IZR z) ->
  (exists z : Z, (INR m * sum_of_infty b ram k)%R = IZR z) /\
  (exists z : Z, (INR (length ram) * sum_of_infty b ram k - fold_right Rplus 0 (map (fun v => v k) ram))%R = IZR z) /\
  forall v, (exists z : Z, (INR m * v)%R = IZR z) -> (exists z : Z, (INR (length ram) * v - fold_right Rplus 0 (map (fun v => v k) ram))%R = IZR z) ->
    exists z : Z, (v - sum_of_infty b ram k)%R = IZR z.
Proof.
  intros Hab Hv. destruct (sum_integer m ram k Hv) as (z & Hz). unfold sum_of_infty, round_off. set (S := fold_right Rplus 0%R (map (fun v => v k) ram)) in *.
  set (r := round_near (IZR b * S)). assert (Hr : (IZR a * INR m + IZR b * INR (length ram) = 1)%R) by (rewrite !INR_IZR_INZ, <- !mult_IZR, <- plus_IZR, Hab; reflexivity).
  split; [|split].
  - exists (b * z - Z.of_nat m * r)%Z. rewrite minus_IZR, !mult_IZR, <- INR_IZR_INZ, <- Hz. ring.
  - exists (- a * z - Z.of_nat (length ram) * r)%Z. rewrite minus_IZR, !mult_IZR, opp_IZR, <- INR_IZR_INZ, <- Hz. transitivity ((IZR b * INR (length ram) - 1) * S - INR (length ram) * IZR r)%R; [ring|].
    replace (IZR b * INR (length ram) - 1)%R with (- IZR a * INR m)%R by lra. ring.
  - intros v (z1 & H1) (z2 & H2). exists (a * z1 + b * z2 + r)%Z. rewrite !plus_IZR, !mult_IZR, <- H1, <- H2. transitivity (v * (IZR a * INR m + IZR b * INR (length ram)) - IZR b * S + IZR r)%R; [rewrite Hr; ring|ring].
Qed.

(** ** three points *)
Lemma square_pos (z : C) r : (0 < r)%R -> (z * z)%C = RtoC r -> snd z = 0%R /\ fst z <> 0%R.
Proof.
  intros Hr H. destruct z as [u v]. injection H as H1 H2. cbn [fst snd]. assert (P : (u * v = 0)%R) by lra. apply Rmult_integral in P. destruct P as [->| ->]; [exfalso; pose proof (Rle_0_sqr v) as S; unfold Rsqr in S; lra|].
  split; [reflexivity|]. intros ->. lra.
Qed.
Lemma square_neg (z : C) r : (r < 0)%R -> (z * z)%C = RtoC r -> fst z = 0%R /\ snd z <> 0%R.
Proof.
  intros Hr H. destruct z as [u v]. injection H as H1 H2. cbn [fst snd]. assert (P : (u * v = 0)%R) by lra. apply Rmult_integral in P. destruct P as [->| ->]; [|exfalso; pose proof (Rle_0_sqr u) as S; unfold Rsqr in S; lra].
  split; [reflexivity|]. intros ->. lra.
Qed.
Lemma two_by_two a : (rget a 0 0 * rget a 1 1 - rget a 0 1 * rget a 1 0 <> 0)%R -> exists b, rinverse_of 2 a b.
Proof.
  set (D := (rget a 0 0 * rget a 1 1 - rget a 0 1 * rget a 1 0)%R). intros HD.
  exists [[rget a 1 1 / D; - rget a 0 1 / D]; [- rget a 1 0 / D; rget a 0 0 / D]]%R.
  intros i j Hi Hj. destruct i as [|[|i]]; [| |lia]; (destruct j as [|[|j]]; [| |lia]); cbn [rsum Nat.eqb]; unfold rget at 2 4 6 8; cbn [nth]; unfold rget at 1 2 3 4; split;
    repeat match goal with |- context [nth ?j (nth ?i a []) 0%R] => change (nth j (nth i a []) 0%R) with (rget a i j) end; unfold rget in *; cbn [nth]; unfold D in *; field; exact HD.
Qed.

Lemma x98_edge (Y : R -> C) (w : C) a b ya yb : a < 3 -> b < 3 -> a <> b -> (w * w)%C = RtoC 4 -> branch_over 2 x98 (vget x98 a) (vget x98 b) ya yb Y ->
  (forall u, (-1 < u < 1)%R -> Y u <> RtoC 0) ->
  let I := over_loop 2 1 0 (scheme_rule 2 (GjScheme [] 1) 0 1 (form_on_edge x98 a b (fun t => w * Y t)%C 1 0)) in
  ((a = 0 /\ b = 1 \/ a = 1 /\ b = 0) /\ snd I = 0%R /\ fst I <> 0%R) \/ ((a = 1 /\ b = 2 \/ a = 2 /\ b = 1) /\ fst I = 0%R /\ snd I <> 0%R).
Proof.
  intros Ha Hb Nab Hw (Zf & _ & _ & _ & HY) HN I.
  assert (W0 : w <> RtoC 0). { intros ->. apply (f_equal fst) in Hw. cbn in Hw. lra. }
  pose proof (HN 0%R ltac:(lra)) as N0. destruct (HY 0%R ltac:(lra)) as [_ H0]. cbn [cpow] in H0.
  assert (HI : I = (RtoC PI * (vget x98 b - vget x98 a) / (w * Y 0%R))%C).
  { unfold I, over_loop. rewrite root_two. cbn [scheme_rule Nat.eqb]. unfold gc_rule. cbn [csum].
    assert (E0 : gc_node 1 0 = 0%R). { unfold gc_node. cbn [Nat.mul Nat.add INR]. replace (1 * PI / (2 * 1))%R with (PI / 2)%R by field. apply cos_PI2. }
    rewrite E0. unfold form_on_edge. cbn [cpow]. replace (1 - 0 * 0)%R with 1%R by ring. rewrite sqrt_1. replace (PI / INR 1)%R with PI by (cbn [INR]; field).
    assert (T0 : RtoC 2 <> RtoC 0) by (intros X; apply RtoC_inj in X; lra). field. repeat split; try assumption; exact one_nz. }
  set (P := poly_at x98 (edge_point (vget x98 a) (vget x98 b) (RtoC 0))) in *.
  assert (HP : (Y 0%R * Y 0%R)%C = P) by (rewrite <- H0; ring).
  assert (P0 : P <> RtoC 0) by (rewrite <- HP; apply Cmult_neq_0; exact N0).
  assert (HII : (I * I)%C = (RtoC (PI * PI) * ((vget x98 b - vget x98 a) * (vget x98 b - vget x98 a)) / (RtoC 4 * P))%C).
  { rewrite HI, <- HP, <- Hw, RtoC_mult. field. split; assumption. }
  pose proof PI_RGT_0 as PP. assert (PP2 : (0 < PI * PI)%R) by (apply Rmult_lt_0_compat; exact PP).
  assert (BAD : forall u, (-1 < u < 1)%R -> poly_at x98 (edge_point (vget x98 a) (vget x98 b) (RtoC u)) = RtoC 0 -> False).
  { intros u Hu X. destruct (HY u ltac:(lra)) as [_ Hc]. rewrite X in Hc. cbn [cpow] in Hc. apply (Cmult_neq_0 (Y u) (Y u) (HN u Hu) (HN u Hu)). rewrite <- Hc. ring. }
  assert (EP : forall (s t : R), vget x98 a = RtoC s -> vget x98 b = RtoC t -> forall u, poly_at x98 (edge_point (vget x98 a) (vget x98 b) (RtoC u)) = RtoC (let z := ((t - s) / 2 * u + (s + t) / 2)%R in z * (z - 1) * (z - 3))).
  { intros s t -> -> u. unfold poly_at, x98, edge_point. cbn [cprod fold_right map]. cbv zeta. apply injective_projections; cbn; field. }
  assert (SQ : forall (s t : R), vget x98 a = RtoC s -> vget x98 b = RtoC t -> (I * I)%C = RtoC (PI * PI * ((t - s) * (t - s)) / (4 * (let z := ((s + t) / 2)%R in z * (z - 1) * (z - 3))))).
  { intros s t Es Et. rewrite HII. assert (EPr : P = RtoC (let z := ((s + t) / 2)%R in z * (z - 1) * (z - 3))) by (unfold P; rewrite (EP s t Es Et); f_equal; cbv zeta; field).
    rewrite EPr in *. rewrite Es, Et. cbv zeta in *. set (p := ((s + t) / 2 * ((s + t) / 2 - 1) * ((s + t) / 2 - 3))%R) in *. rewrite <- RtoC_minus, <- !RtoC_mult, <- RtoC_div; [reflexivity|]. intros X. apply P0. f_equal. lra. }
  cbv zeta in *.
  destruct a as [|[|[|a]]]; [| | |lia]; (destruct b as [|[|[|b]]]; [| | |lia]); try (exfalso; apply Nab; reflexivity).
  - left. split; [left; split; reflexivity|]. eapply square_pos; [|exact (SQ 0%R 1%R eq_refl eq_refl)]. lra.
  - exfalso. apply (BAD (- / 3)%R); [lra|]. rewrite (EP 0%R 3%R eq_refl eq_refl). f_equal. field.
  - left. split; [right; split; reflexivity|]. eapply square_pos; [|exact (SQ 1%R 0%R eq_refl eq_refl)]. lra.
  - right. split; [left; split; reflexivity|]. eapply square_neg; [|exact (SQ 1%R 3%R eq_refl eq_refl)]. lra.
  - exfalso. apply (BAD (/ 3)%R); [lra|]. rewrite (EP 3%R 0%R eq_refl eq_refl). f_equal. field.
  - right. split; [right; split; reflexivity|]. eapply square_neg; [|exact (SQ 3%R 1%R eq_refl eq_refl)]. lra.
Qed.

Lemma ram_ends rank inv rinv best base : rank_ok rank -> inv_ok inv -> rinv_ok rinv -> base < 3 ->
  exists r tm ram, se_ramification rank inv rinv best rsort one_node OOpt x98 x98 2 (RtoC 4) false 0 base = Done (r, tm, ram) /\ length (p_big r) = 1 /\ exists rd, reduction_matrix rinv true 1 (p_big r) = Done (Some rd).
Proof.
  intros Hrk Hinv Hrinv Hbase. assert (L4 : RtoC 4 <> RtoC 0) by (intros E; apply RtoC_inj in E; lra).
  assert (Hs : forall d t, ma_differentials (Z.of_nat 2) (Z.of_nat (length x98)) = Done d -> spanning_tree_ma rsort (chosen_type 2 OOpt) x98 = Done t ->
     schemes_fit 2 d (length x98 - 1) (one_node t) (fun _ => GjScheme [] 1)) by (intros d t _ _; apply one_node_fit).
  destruct (hyper_periods rank inv rinv rsort one_node OOpt x98 x98 (RtoC 4) _ Hrk Hinv Hrinv rsort_ok x98_distinct (same_sides_refl _) (le_n 3) L4 Hs) as (_ & _ & _ & _ & _ & _ & _ & _ & _ & _ & _ & _ & _ & _ & _ & _ & _ & _ & _ & _ & (r & Er) & _).
  destruct (curve_run rsort one_node OOpt x98 x98 2 _ rsort_ok x98_distinct (same_sides_refl _) (le_n 3) (le_n 2) Hs) as (t & ty' & d & ds & T & b & ya & yb & Y & B0 & E & Edd & Ed & ET & Sq & HS & HDS & HLM & Eb & Sb & Ub & G2 & LP & HY & HE & Hlcs).
  destruct (Hlcs (RtoC 4) L4) as (elem & big & Hrun & (Lbig & _) & Hper & _ & _). clear Hlcs HDS HLM.
  change (Z.of_nat 2) with 2%Z in Edd. change (length x98) with 3 in *.
  destruct diff23 as (d' & Ed' & D1 & D2 & D3). rewrite Edd in Ed'. injection Ed' as <-. rewrite D3 in *. change (Z.to_nat 1) with 1 in *.
  assert (RK : negb (rank T =? 2 * 1) = false). { pose proof (Hrun rank inv rinv false false 0%R) as X. rewrite Er in X. destruct (negb (rank T =? 2 * 1)); [discriminate|reflexivity]. }
  set (I := fun k => over_loop 2 1 0 (scheme_rule 2 (GjScheme [] 1) 0 1 (form_on_edge x98 (ea (nth k (plains (s_edges t)) no_edge)) (eb (nth k (plains (s_edges t)) no_edge)) (fun t => wroot 2 (RtoC 4) * Y k t)%C 1 0))).
  assert (HI : forall col, col < 2 -> mget big 0 col = csum 2 (fun k => ZC (get b col k) * I k)%C).
  { intros col Hc. unfold periods_over in Hper. rewrite D1, D2 in Hper. pose proof (Hper 0 0 col ltac:(cbn; lia) ltac:(cbn; lia) Hc) as X. cbv zeta in X. rewrite LP in X. change (offset [1%Z] 0 + 0) with 0 in X. rewrite X.
    apply csum_ext. intros k Hk. change (2 - 1) with 1. cbn [csum]. rewrite Nat.mul_1_r, Nat.add_0_r. change (Z.to_nat (1 + Z.of_nat 0)) with 1. fold (I k). ring. }
  destruct (ma_spanning rsort (chosen_type 2 OOpt) x98 rsort_ok ltac:(cbn; lia)) as (t3 & ty3 & E3 & _ & _ & _ & _ & Ht). rewrite E in E3. injection E3 as <- <-. change (length x98) with 3 in Ht.
  assert (Hw : (wroot 2 (RtoC 4) * wroot 2 (RtoC 4))%C = RtoC 4).
  { transitivity (cpow (wroot 2 (RtoC 4)) 2); [cbn [cpow]; ring|]. apply wroot_pow; [lia|exact L4]. }
  assert (Hk : forall k, k < 2 -> let a := ea (nth k (plains (s_edges t)) no_edge) in let b' := eb (nth k (plains (s_edges t)) no_edge) in
     ((a = 0 /\ b' = 1 \/ a = 1 /\ b' = 0) /\ snd (I k) = 0%R /\ fst (I k) <> 0%R) \/ ((a = 1 /\ b' = 2 \/ a = 2 /\ b' = 1) /\ fst (I k) = 0%R /\ snd (I k) <> 0%R)).
  { intros k Hk a b'. assert (Hin : In (nth k (plains (s_edges t)) no_edge) (plains (s_edges t))) by (apply nth_In; rewrite LP; lia).
    apply (x98_edge (Y k) (wroot 2 (RtoC 4)) a b' (ya k) (yb k)).
    - apply Ht. eexists. split; [exact Hin|left; reflexivity].
    - apply Ht. eexists. split; [exact Hin|right; reflexivity].
    - intros X. apply (HE k Hk). fold a b'. rewrite X. reflexivity.
    - exact Hw.
    - apply HS. rewrite LP. lia.
    - intros u Hu. apply HY; [exact Hk|exact Hu]. }
  assert (LE : exists e0 e1, plains (s_edges t) = [e0; e1]).
  { change (3 - 1) with 2 in LP. destruct (plains (s_edges t)) as [|e0 [|e1 [|]]]; try (cbn in LP; lia). exists e0, e1. reflexivity. }
  destruct LE as (e0 & e1 & LE).
  assert (DI : (fst (I 0%nat) * snd (I 1%nat) - fst (I 1%nat) * snd (I 0%nat) <> 0)%R).
  { pose proof (Hk 0 ltac:(lia)) as K0. pose proof (Hk 1 ltac:(lia)) as K1. cbv zeta in K0, K1. rewrite LE in K0, K1, Ht. cbn [nth] in K0, K1.
    destruct (proj2 (Ht 0) ltac:(lia)) as (x0 & X0 & Y0). destruct (proj2 (Ht 2) ltac:(lia)) as (x2 & X2 & Y2). cbn [In] in X0, X2.
    destruct K0 as [(A0 & Z0 & N0)|(A0 & Z0 & N0)]; destruct K1 as [(A1 & Z1 & N1)|(A1 & Z1 & N1)].
    - exfalso. destruct X2 as [<-|[<-|[]]]; lia.
    - rewrite Z0, Z1. rewrite Rmult_0_l, Rminus_0_r. apply Rmult_integral_contrapositive_currified; assumption.
    - rewrite Z0, Z1. rewrite Rmult_0_l. unfold Rminus. rewrite Rplus_0_l. apply Ropp_neq_0_compat, Rmult_integral_contrapositive_currified; assumption.
    - exfalso. destruct X0 as [<-|[<-|[]]]; lia. }
  assert (Db : (IZR (get b 0%nat 0%nat) * IZR (get b 1%nat 1%nat) - IZR (get b 0%nat 1%nat) * IZR (get b 1%nat 0%nat) <> 0)%R).
  { rewrite <- !mult_IZR, <- minus_IZR. intros X. apply eq_IZR in X. destruct Ub as (q & _ & Hq). change ((3 - 1) * (2 - 1)) with 2 in Hq.
    destruct (Hq 0 0 ltac:(lia) ltac:(lia)) as [_ Q00]. destruct (Hq 0 1 ltac:(lia) ltac:(lia)) as [_ Q01]. destruct (Hq 1 0 ltac:(lia) ltac:(lia)) as [_ Q10]. destruct (Hq 1 1 ltac:(lia) ltac:(lia)) as [_ Q11].
    cbn [zsum] in Q00, Q01, Q10, Q11. change (delta 0 0) with 1%Z in Q00. change (delta 0 1) with 0%Z in Q01. change (delta 1 0) with 0%Z in Q10. change (delta 1 1) with 1%Z in Q11.
    assert (F : (((0 + get q 0%nat 0%nat * get b 0%nat 0%nat + get q 0%nat 1%nat * get b 1%nat 0%nat) * (0 + get q 1%nat 0%nat * get b 0%nat 1%nat + get q 1%nat 1%nat * get b 1%nat 1%nat) - (0 + get q 0%nat 0%nat * get b 0%nat 1%nat + get q 0%nat 1%nat * get b 1%nat 1%nat) * (0 + get q 1%nat 0%nat * get b 0%nat 0%nat + get q 1%nat 1%nat * get b 1%nat 0%nat) =
      (get q 0%nat 0%nat * get q 1%nat 1%nat - get q 0%nat 1%nat * get q 1%nat 0%nat) * (get b 0%nat 0%nat * get b 1%nat 1%nat - get b 0%nat 1%nat * get b 1%nat 0%nat)))%Z) by ring.
    rewrite Q00, Q01, Q10, Q11, X in F. lia. }
  assert (INV : exists rd, rinv 2 (embed 1 big) = Some rd).
  { pose proof (Hrinv 2 (embed 1 big)) as X. destruct (rinv 2 (embed 1 big)) as [rd|]; [exists rd; reflexivity|]. exfalso.
    destruct (two_by_two (embed 1 big)) as (b' & Hb'); [|exact (X b' Hb')].
    change (rget (embed 1 big) 0 0) with (fst (mget big 0 0)). change (rget (embed 1 big) 0 1) with (fst (mget big 0 1)). change (rget (embed 1 big) 1 0) with (snd (mget big 0 0)). change (rget (embed 1 big) 1 1) with (snd (mget big 0 1)).
    rewrite (HI 0), (HI 1) by lia. cbn [csum]. unfold ZC. destruct (I 0) as [u0 v0]. destruct (I 1) as [u1 v1]. cbn [fst snd Cplus Cmult RtoC] in *.
    intros Z0. apply (Rmult_integral_contrapositive_currified _ _ Db DI). rewrite <- Z0. ring. }
  destruct INV as (rd & INV).
  destruct (ProofMaPath.matrix_paths rsort (chosen_type 2 OOpt) x98 base rsort_ok) as (t2 & ty2 & tm2 & E2 & ET2 & _); [cbn; lia|exact Hbase|]. rewrite E in E2. injection E2 as <- <-.
  eexists _, _, _. unfold se_ramification. rewrite (Hrun rank inv rinv false true 0%R), RK. unfold reduction_matrix. change (2 * 1) with 2. rewrite INV. cbn [bind small_matrix]. rewrite E. cbn [bind fst]. rewrite ET2. cbn [bind p_red].
  split; [reflexivity|]. split; [exact Lbig|]. exists rd. unfold reduction_matrix. cbn [p_big]. change (2 * 1) with 2. rewrite INV. reflexivity.
Qed.

(** ** nearest fractions exist *)
Lemma best_exists : exists best, best_ok best.
Proof.
  assert (A : forall m v, 1 <= m -> exists y, exists (a : Z) (b : nat), 1 <= b <= m /\ y = (IZR a / INR b)%R /\ forall (a' : Z) (b' : nat), 1 <= b' <= m -> (Rabs (v - y) <= Rabs (v - IZR a' / INR b'))%R).
  { intros m v. induction m as [|m IH]; [lia|]. intros _.
    assert (One : exists a : Z, forall a' : Z, (Rabs (v - IZR a / INR (S m)) <= Rabs (v - IZR a' / INR (S m)))%R).
    { assert (P : (0 < INR (S m))%R) by (apply lt_0_INR; lia). exists (round_near (v * INR (S m))). intros a'.
      assert (D : forall a : Z, Rabs (v - IZR a / INR (S m)) = (Rabs (v * INR (S m) - IZR a) / INR (S m))%R).
      { intros a. rewrite <- (Rabs_pos_eq (INR (S m))) at 3 by lra. rewrite <- Rabs_div by lra. f_equal. field. lra. }
      rewrite !D. apply Rmult_le_compat_r; [left; apply Rinv_0_lt_compat; exact P|]. unfold round_near. set (u := (v * INR (S m))%R).
      destruct (base_Int_part (u + / 2)) as [B1 B2]. set (k := Int_part (u + / 2)) in *.
      destruct (Z.eq_dec a' k) as [->|N]; [lra|]. assert (Rabs (u - IZR k) <= / 2)%R by (apply Rabs_le; lra).
      assert (/ 2 <= Rabs (u - IZR a'))%R; [|lra]. destruct (Z_lt_ge_dec a' k) as [L|L].
      - assert (IZR a' <= IZR k - 1)%R by (rewrite <- minus_IZR; apply IZR_le; lia). rewrite Rabs_pos_eq; lra.
      - assert (IZR k + 1 <= IZR a')%R by (rewrite <- plus_IZR; apply IZR_le; lia). rewrite Rabs_minus_sym, Rabs_pos_eq; lra. }
    destruct One as (a1 & H1). destruct m as [|m].
    - exists (IZR a1 / INR 1)%R, a1, 1. split; [lia|]. split; [reflexivity|]. intros a' b' Hb'. replace b' with 1 by lia. apply H1.
    - destruct (IH ltac:(lia)) as (y & a & b & Hb & Hy & Hmin). destruct (Rle_lt_dec (Rabs (v - y)) (Rabs (v - IZR a1 / INR (S (S m))))) as [L|L].
      + exists y, a, b. split; [lia|]. split; [exact Hy|]. intros a' b' Hb'. destruct (Nat.eq_dec b' (S (S m))) as [->|N]; [eapply Rle_trans; [exact L|apply H1]|apply Hmin; lia].
      + exists (IZR a1 / INR (S (S m)))%R, a1, (S (S m)). split; [lia|]. split; [reflexivity|]. intros a' b' Hb'. destruct (Nat.eq_dec b' (S (S m))) as [->|N]; [apply H1|]. eapply Rle_trans; [left; exact L|apply Hmin; lia]. }
  assert (A' : forall m v, exists y, 1 <= m -> exists (a : Z) (b : nat), 1 <= b <= m /\ y = (IZR a / INR b)%R /\ forall (a' : Z) (b' : nat), 1 <= b' <= m -> (Rabs (v - y) <= Rabs (v - IZR a' / INR b'))%R).
  { intros m v. destruct (le_lt_dec 1 m) as [L|L]; [|exists 0%R; lia]. destruct (A m v L) as (y & Hy). exists y. intros _. exact Hy. }
  exists (fun m v => proj1_sig (constructive_indefinite_description _ (A' m v))). intros m v Hm. destruct (constructive_indefinite_description _ (A' m v)) as [y Hy]. exact (Hy Hm).
Qed.
