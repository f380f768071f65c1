(** Points at infinity in the Magma package: which values are right, and the order of the calls. *)
From Coquelicot Require Import Coquelicot.
From Verif Require Import CArg ModelTree ModelVec ModelPeriod ModelTurn ModelMaInter ModelMaDivisor ModelMaRam ModelMaInfty SpecMaDivisor SpecMaInfty ProofMaAjm ProofMaPeriod5 ProofMaInfty ProofMaInfty2 SpecEdge.
Local Open Scope nat_scope.

Lemma bezout_div m n delta M N a b : m = M * delta -> n = N * delta -> 0 < delta -> (a * Z.of_nat m + b * Z.of_nat n = Z.of_nat delta)%Z -> (a * Z.of_nat M + b * Z.of_nat N = 1)%Z.
Proof.
  intros -> -> Hd H. rewrite !Nat2Z.inj_mul in H. apply (Z.mul_reg_r _ _ (Z.of_nat delta)); [lia|]. rewrite Z.mul_1_l, Z.mul_add_distr_r. rewrite <- H at 3. ring.
Qed.

(** what the first call for the point k does *)
Lemma first_call roots aj x m lc delta M N a0 b0 good sum k l l' : m = M * delta -> length x = N * delta -> 2 <= delta -> 2 <= M -> 0 < N ->
  (a0 * Z.of_nat m + b0 * Z.of_nat (length x) = Z.of_nat delta)%Z -> 1 <= k <= delta -> length l = delta ->
  nth (k - 1) l None = None -> all_defined (others k l) = false ->
  infty_point roots aj x m lc delta a0 b0 good sum k l = Done l' ->
  exists a b v, make_negative (Z.to_nat a0 + 2) (Z.of_nat m) (Z.of_nat (length x)) a0 b0 = Done (a, b) /\ (a < 0 < b)%Z /\ (a * Z.of_nat M + b * Z.of_nat N = 1)%Z /\
    infty_bad roots aj x m lc delta M N a b sum k = Done v /\ l' = upd l (k - 1) (Some v).
Proof.
  intros Hm Hn Hd HM HN Hbz Hk Hl Hnone Hall Ev. unfold infty_point in Ev.
  destruct (infty_loop (Z.of_nat m) (Z.of_nat (length x)) a0 b0 (Z.of_nat delta) ltac:(nia) ltac:(nia) ltac:(lia) Hbz) as (a & b & E & Hab & Hb1). exists a, b.
  replace ((1 <=? k) && (k <=? delta)) with true in Ev by (symmetry; apply andb_true_intro; split; apply Nat.leb_le; lia). cbn [negb] in Ev. rewrite Hnone in Ev.
  replace (delta =? 1) with false in Ev by (symmetry; apply Nat.eqb_neq; lia). rewrite Hall, E in Ev. cbn [bind fst snd] in Ev. rewrite Hb1, Z.eqb_refl in Ev. cbn [negb] in Ev.
  replace (m / delta) with M in Ev by (rewrite Hm, Nat.div_mul by lia; reflexivity). replace (length x / delta) with N in Ev by (rewrite Hn, Nat.div_mul by lia; reflexivity).
  replace (M =? 1) with false in Ev by (symmetry; apply Nat.eqb_neq; lia).
  destruct (infty_bad roots aj x m lc delta M N a b sum k) as [v| | |] eqn:Eb; cbn [bind] in Ev; try discriminate. injection Ev as <-.
  exists v. split; [exact E|]. split; [exact Hab|]. split; [exact (bezout_div m (length x) delta M N a b Hm Hn ltac:(lia) Hb1)|]. split; reflexivity.
Qed.

Lemma offset_iff S A v b : integer (v - (A - (1 + IZR b) * S)) -> (integer (v - A) <-> integer (IZR (1 + b) * S)).
Proof.
  intros H. rewrite plus_IZR. split; intros G.
  - replace ((1 + IZR b) * S)%R with (v - (A - (1 + IZR b) * S) - (v - A))%R by ring. apply int_sub; assumption.
  - replace (v - A)%R with (v - (A - (1 + IZR b) * S) - (1 + IZR b) * S)%R by ring. apply int_sub; assumption.
Qed.

Lemma infty_value roots aj x m lc delta M N a0 b0 good sum k l l' phi p0 y0 i : m = M * delta -> length x = N * delta -> 2 <= delta -> 2 <= M -> 0 < N -> NoDup x ->
  (a0 * Z.of_nat m + b0 * Z.of_nat (length x) = Z.of_nat delta)%Z -> 1 <= k <= delta -> length l = delta -> nth (k - 1) l None = None -> all_defined (others k l) = false ->
  In p0 x -> integer (phi (PFin p0 (RtoC 0))) -> kills_coordinates m x delta M N phi ->
  (forall D, integer (aj D i - extend phi D)) -> integer (sum i - extend phi (at_infinity delta 1)) ->
  infty_point roots aj x m lc delta a0 b0 good sum k l = Done l' ->
  exists a b v, make_negative (Z.to_nat a0 + 2) (Z.of_nat m) (Z.of_nat (length x)) a0 b0 = Done (a, b) /\ l' = upd l (k - 1) (Some v) /\
    let r := root (Z.of_nat delta) (Z.of_nat k) in let ts := roots (infty_poly x delta M (Z.to_nat b) r) in
    (length ts = (M + Z.to_nat b) * length (remove Ceq_dec (RtoC 0) x) ->
     kills_line m x delta M N (Z.to_nat b) k y0 (map (infty_affine m lc M N a b r) (filter nonzero ts)) phi ->
     integer (v i - (phi (PInf (Z.of_nat k)) - (1 + IZR b) * extend phi (at_infinity delta 1))) /\
     (integer (v i - phi (PInf (Z.of_nat k))) <-> integer (IZR (1 + b) * extend phi (at_infinity delta 1))) /\
     ((Z.of_nat M | 1 + Z.of_nat N)%Z -> integer (v i - phi (PInf (Z.of_nat k))))).
Proof.
  intros Hm Hn Hd HM HN Hx Hbz Hk Hl Hnone Hall Hp0 Hphi Hkc Haj Hsum Ev.
  destruct (first_call roots aj x m lc delta M N a0 b0 good sum k l l' Hm Hn Hd HM HN Hbz Hk Hl Hnone Hall Ev) as (a & b & v & E & Hab & Hb1 & Eb & El). exists a, b, v. split; [exact E|]. split; [exact El|].
  intros r ts Lts HL. pose proof (bad_value x m delta M N a b phi p0 Hm Hn Hb1 Hp0 Hphi Hkc roots aj lc sum k y0 i v Hx ltac:(lia) ltac:(lia) Lts HL Haj Hsum Eb) as V.
  split; [exact V|]. pose proof (offset_iff _ _ _ _ V) as I. split; [exact I|]. intros (q & Hq). apply I.
  pose proof (torsion x m delta M N phi p0 Hp0 Hphi Hkc) as T.
  assert (Db : exists z, (1 + b = z * Z.of_nat M)%Z). { exists (a + b * q)%Z. rewrite Z.mul_add_distr_r, <- Z.mul_assoc, <- Hq. lia. }
  destruct Db as (z & ->). rewrite mult_IZR, Rmult_assoc. apply int_mul. exact T.
Qed.

(** two points: the second call *)
Lemma second_call roots aj x m lc a0 b0 good sum k l v : 1 <= k <= 2 -> nth (k - 1) l None = None -> length l = 2 -> others k l = [Some v] ->
  infty_point roots aj x m lc 2 a0 b0 good sum k l = Done (upd l (k - 1) (Some (fun i => round_off (sum i - (v i + 0))%R))).
Proof.
  intros Hk Hnone Hl Ho. unfold infty_point. replace ((1 <=? k) && (k <=? 2)) with true by (symmetry; apply andb_true_intro; split; apply Nat.leb_le; lia). cbn [negb]. rewrite Hnone. cbn [Nat.eqb]. rewrite Ho. reflexivity.
Qed.
Lemma two_orders roots aj x m lc M N a0 b0 good sum phi p0 y0 i l12 l21 : m = M * 2 -> length x = N * 2 -> 2 <= M -> 0 < N -> NoDup x ->
  (a0 * Z.of_nat m + b0 * Z.of_nat (length x) = 2)%Z ->
  In p0 x -> integer (phi (PFin p0 (RtoC 0))) -> kills_coordinates m x 2 M N phi ->
  (forall D, integer (aj D i - extend phi D)) -> integer (sum i - extend phi (at_infinity 2 1)) ->
  (forall a b k, make_negative (Z.to_nat a0 + 2) (Z.of_nat m) (Z.of_nat (length x)) a0 b0 = Done (a, b) -> 1 <= k <= 2 ->
    let r := root (Z.of_nat 2) (Z.of_nat k) in let ts := roots (infty_poly x 2 M (Z.to_nat b) r) in
    length ts = (M + Z.to_nat b) * length (remove Ceq_dec (RtoC 0) x) /\ kills_line m x 2 M N (Z.to_nat b) k y0 (map (infty_affine m lc M N a b r) (filter nonzero ts)) phi) ->
  twice roots aj x m lc a0 b0 good sum 1 2 = Done l12 -> twice roots aj x m lc a0 b0 good sum 2 1 = Done l21 ->
  exists a b v1 v2 w1 w2, make_negative (Z.to_nat a0 + 2) (Z.of_nat m) (Z.of_nat (length x)) a0 b0 = Done (a, b) /\
    l12 = [Some v1; Some v2] /\ l21 = [Some w1; Some w2] /\ integer (v1 i - w1 i + IZR (2 * (1 + b)) * extend phi (at_infinity 2 1)).
Proof.
  intros Hm Hn HM HN Hx Hbz Hp0 Hphi Hkc Haj Hsum Hr E12 E21. unfold twice in E12, E21.
  destruct (infty_point roots aj x m lc 2 a0 b0 good sum 1 [None; None]) as [l1| | |] eqn:E1; cbn [bind] in E12; try discriminate.
  destruct (infty_point roots aj x m lc 2 a0 b0 good sum 2 [None; None]) as [l2| | |] eqn:E2; cbn [bind] in E21; try discriminate.
  destruct (infty_value roots aj x m lc 2 M N a0 b0 good sum 1 [None; None] l1 phi p0 y0 i Hm Hn (le_n 2) HM HN Hx Hbz ltac:(lia) eq_refl eq_refl eq_refl Hp0 Hphi Hkc Haj Hsum E1) as (a & b & v & Eab & El1 & V1).
  destruct (infty_value roots aj x m lc 2 M N a0 b0 good sum 2 [None; None] l2 phi p0 y0 i Hm Hn (le_n 2) HM HN Hx Hbz ltac:(lia) eq_refl eq_refl eq_refl Hp0 Hphi Hkc Haj Hsum E2) as (a2 & b2 & v' & Eab2 & El2 & V2).
  rewrite Eab in Eab2. injection Eab2 as <- <-. cbv zeta in V1, V2.
  destruct (Hr a b 1 Eab ltac:(lia)) as [L1 K1]. destruct (Hr a b 2 Eab ltac:(lia)) as [L2 K2]. destruct (V1 L1 K1) as (W1 & _). destruct (V2 L2 K2) as (W2 & _). clear V1 V2.
  subst l1 l2. cbn [upd Nat.sub firstn skipn app] in E12, E21.
  rewrite (second_call roots aj x m lc a0 b0 good sum 2 [Some v; None] v ltac:(lia) eq_refl eq_refl eq_refl) in E12. rewrite (second_call roots aj x m lc a0 b0 good sum 1 [None; Some v'] v' ltac:(lia) eq_refl eq_refl eq_refl) in E21.
  injection E12 as <-. injection E21 as <-. exists a, b. do 4 eexists. split; [exact Eab|]. split; [reflexivity|]. split; [reflexivity|].
  set (S := extend phi (at_infinity 2 1)) in *. assert (ES : S = (phi (PInf 1) + phi (PInf 2))%R) by (unfold S; cbn; ring).
  pose proof (int_round (sum i - (v' i + 0))) as I3. set (w := round_off (sum i - (v' i + 0))) in *. change (Z.of_nat 1) with 1%Z in W1. change (Z.of_nat 2) with 2%Z in W2.
  replace (v i - w + IZR (2 * (1 + b)) * S)%R with ((v i - (phi (PInf 1) - (1 + IZR b) * S)) + (v' i - (phi (PInf 2) - (1 + IZR b) * S)) - (w - (sum i - (v' i + 0))) - (sum i - S))%R.
  - apply int_sub; [|exact Hsum]. apply int_sub; [|exact I3]. apply int_add; assumption.
  - rewrite mult_IZR, plus_IZR. match goal with |- ?L = ?R => transitivity (R + (S - (phi (PInf 1) + phi (PInf 2))))%R; [ring|rewrite <- ES; ring] end.
Qed.

(** ** y^6 = (x-1)...(x-8) *)
Definition eight : list C := map (fun k => RtoC (INR k)) (seq 1 8).
Definition phi3 (p : point) : R :=
  match p with
  | PInf _ => (2 / 3)%R
  | PFin X Y => if Ceq_dec Y (RtoC 0) then (if Ceq_dec X (RtoC 8) then (1 / 3)%R else 0%R) else (- (1 / 3))%R
  end.
Lemma root_nz m k : root m k <> RtoC 0.
Proof. intros E. apply one_nz. transitivity (root m (k + - k)); [rewrite Z.add_opp_diag_r, root_0; reflexivity|]. rewrite root_add, E. ring. Qed.
Lemma RtoC_ne a b : a <> b -> RtoC a <> RtoC b.
Proof. intros H E. apply H. injection E. auto. Qed.
Lemma phi3_ram k : In k (seq 1 7) -> phi3 (PFin (RtoC (INR k)) (RtoC 0)) = 0%R.
Proof.
  intros Hk. apply in_seq in Hk. unfold phi3. destruct (Ceq_dec (RtoC 0) (RtoC 0)) as [_|X]; [|congruence].
  destruct (Ceq_dec (RtoC (INR k)) (RtoC 8)) as [X|_]; [|reflexivity]. exfalso. injection X as X. replace 8%R with (INR 8) in X by (simpl; ring). apply INR_eq in X. lia.
Qed.
Lemma phi3_ram8 : phi3 (PFin (RtoC (INR 8)) (RtoC 0)) = (1 / 3)%R.
Proof.
  unfold phi3. destruct (Ceq_dec (RtoC 0) (RtoC 0)) as [_|X]; [|congruence]. destruct (Ceq_dec (RtoC (INR 8)) (RtoC 8)) as [_|X]; [reflexivity|].
  exfalso. apply X. f_equal. simpl. ring.
Qed.
Lemma eight_nodup : NoDup eight.
Proof. apply FinFun.Injective_map_NoDup; [|apply seq_NoDup]. intros a b E. injection E as E. apply INR_eq. exact E. Qed.
Lemma eight_no0 : ~ In (RtoC 0) eight.
Proof.
  intros H. apply in_map_iff in H. destruct H as (k & E & Hk). apply in_seq in Hk. injection E as E. change 0%R with (INR 0) in E. apply INR_eq in E. lia.
Qed.
Lemma eight_app : eight = map (fun k => RtoC (INR k)) (seq 1 7) ++ [RtoC (INR 8)].
Proof. reflexivity. Qed.
Lemma extend_const phi c l : (forall q, In q l -> phi (fst q) = c /\ snd q = 1%Z) -> extend phi l = (INR (length l) * c)%R.
Proof.
  induction l as [|[p v] l IH]; intros H; cbn [extend length]; [cbn; ring|]. destruct (H (p, v) (or_introl eq_refl)) as [E1 E2]. cbn [fst snd] in E1, E2.
  rewrite E1, E2, IH, S_INR by (intros q Hq; apply H; right; exact Hq). ring.
Qed.
Lemma phi3_rams : extend phi3 (ramified eight 1) = (1 / 3)%R.
Proof.
  rewrite eight_app. unfold ramified. rewrite map_app, extend_app. cbn [map extend]. rewrite phi3_ram8, (extend_const phi3 0).
  - ring.
  - intros q Hq. apply in_map_iff in Hq. destruct Hq as (p & <- & Hp). apply in_map_iff in Hp. destruct Hp as (k & <- & Hk). split; [apply phi3_ram; exact Hk|reflexivity].
Qed.
Lemma phi3_S : extend phi3 (at_infinity 2 1) = (4 / 3)%R.
Proof. cbn. field. Qed.
Lemma phi3_coord : kills_coordinates 6 eight 2 3 4 phi3.
Proof.
  split.
  - intros p Hp. cbn [extend]. rewrite inf_scale, phi3_S. rewrite eight_app in Hp. apply in_app_iff in Hp. destruct Hp as [Hp|[<-|[]]].
    + apply in_map_iff in Hp. destruct Hp as (k & <- & Hk). rewrite phi3_ram by exact Hk. exists (-4)%Z. change (Z.of_nat 3) with 3%Z. cbn [Z.opp]. field.
    + rewrite phi3_ram8. exists (-2)%Z. change (Z.of_nat 6) with 6%Z. change (Z.of_nat 3) with 3%Z. cbn [Z.opp]. field.
  - rewrite extend_app, inf_scale, phi3_S, phi3_rams. exists (-5)%Z. change (Z.of_nat 4) with 4%Z. cbn [Z.opp]. field.
Qed.
Lemma phi3_off X Y : Y <> RtoC 0 -> phi3 (PFin X Y) = (- (1 / 3))%R.
Proof. intros H. unfold phi3. destruct (Ceq_dec Y (RtoC 0)) as [E|_]; [contradiction|reflexivity]. Qed.
Lemma affine_y_neq m lc M N a b r t : snd (infty_affine m lc M N a b r t) <> RtoC 0.
Proof. unfold infty_affine. cbn [snd]. apply Cmult_neq_0; apply cexp_neq. Qed.
Lemma phi3_over : extend phi3 (over_zero 6 (RtoC 1) 1) = (-2)%R.
Proof.
  rewrite (extend_const phi3 (- (1 / 3))).
  - unfold over_zero. rewrite map_length, seq_length. simpl. field.
  - intros q Hq. unfold over_zero in Hq. apply in_map_iff in Hq. destruct Hq as (l & <- & _). split; [|reflexivity]. cbn [fst]. apply phi3_off. rewrite Cmult_1_r. apply root_nz.
Qed.
Lemma phi3_line lc a b r k ts : length (filter nonzero ts) = 31 -> kills_line 6 eight 2 3 4 1 k (RtoC 1) (map (infty_affine 6 lc 3 4 a b r) (filter nonzero ts)) phi3.
Proof.
  intros L. split.
  - intros _. rewrite extend_app, inf_scale, phi3_S, phi3_over. exists (-6)%Z. change (Z.of_nat 3) with 3%Z. cbn [Z.opp]. field.
  - unfold line_divisor. destruct (in_dec Ceq_dec (RtoC 0) eight) as [X|_]; [destruct (eight_no0 X)|]. rewrite !extend_app, ram_scale, phi3_rams.
    assert (EO : extend phi3 (over_zero 6 (RtoC 1) (- Z.of_nat 4)) = (IZR (- Z.of_nat 4) * extend phi3 (over_zero 6 (RtoC 1) 1))%R) by (unfold over_zero; apply (extend_map phi3 (fun l => PFin (RtoC 0) (root (Z.of_nat 6) (Z.of_nat l) * RtoC 1)%C))).
    rewrite EO, phi3_over. rewrite (extend_const phi3 (- (1 / 3))).
    + rewrite !map_length, L. cbn [extend]. unfold phi3. exists (-2)%Z. change (Z.of_nat 4) with 4%Z. change (Z.of_nat 1) with 1%Z. cbn [Z.opp]. replace (INR 31) with 31%R by (rewrite INR_IZR_INZ; reflexivity). field.
    + intros q Hq. apply in_map_iff in Hq. destruct Hq as (z & <- & Hz). apply in_map_iff in Hz. destruct Hz as (t & <- & _). split; [|reflexivity]. cbn [fst]. apply phi3_off. apply affine_y_neq.
Qed.

Lemma not_int_frac (k d z : Z) : (0 < d)%Z -> ~ (d | k)%Z -> (IZR k / IZR d)%R <> IZR z.
Proof.
  intros Hd Nd E. apply Nd. exists z. apply eq_IZR. rewrite mult_IZR, <- E. field. apply not_0_IZR. lia.
Qed.
Definition reads (roots : (C -> C) -> list C) : Prop := forall k, 1 <= k <= 2 ->
  length (roots (infty_poly eight 2 3 1 (root 2 (Z.of_nat k)))) = 32 /\ length (filter nonzero (roots (infty_poly eight 2 3 1 (root 2 (Z.of_nat k))))) = 31.
Lemma eight_bad roots aj sum k : reads roots -> 1 <= k <= 2 -> exists v, infty_bad roots aj eight 6 (RtoC 1) 2 3 4 (-1) 1 sum k = Done v.
Proof.
  intros Hr Hk. destruct (Hr k Hk) as [L1 L2]. unfold infty_bad. change (Z.to_nat 1) with 1. change (Z.of_nat 2) with 2%Z. rewrite L1. change (length eight) with 8. cbn [Nat.eqb Nat.mul Nat.add orb negb]. rewrite L2. rewrite map_length, L2. eexists. reflexivity.
Qed.
Lemma eight_first roots aj sum good k : reads roots -> 1 <= k <= 2 -> exists v, infty_point roots aj eight 6 (RtoC 1) 2 (-1) 1 good sum k [None; None] = Done (upd [None; None] (k - 1) (Some v)).
Proof.
  intros Hr Hk. destruct (eight_bad roots aj sum k Hr Hk) as (v & E). exists v. unfold infty_point. change (length eight / 2) with 4. change (6 / 2) with 3. change (3 =? 1) with false. cbv iota.
  assert (Hk' : k = 1 \/ k = 2) by lia. destruct Hk' as [-> | ->]; cbn [Nat.leb andb negb Nat.sub nth Nat.eqb others firstn skipn app all_defined forallb]; (replace (make_negative _ _ _ _ _) with (Done ((-1)%Z, 1%Z)) by reflexivity); cbn [bind fst snd]; change (length eight) with 8; (replace (negb _) with false by reflexivity); rewrite E; reflexivity.
Qed.

Lemma eight_orders roots aj sum good i : reads roots -> (forall D, integer (aj D i - extend phi3 D)) -> integer (sum i - extend phi3 (at_infinity 2 1)) ->
  exists v1 v2 w1 w2, twice roots aj eight 6 (RtoC 1) (-1) 1 good sum 1 2 = Done [Some v1; Some v2] /\ twice roots aj eight 6 (RtoC 1) (-1) 1 good sum 2 1 = Done [Some w1; Some w2] /\
    ~ integer (v1 i - phi3 (PInf 1)) /\ ~ integer (w2 i - phi3 (PInf 2)) /\ ~ integer (v1 i - w1 i).
Proof.
  intros Hr Haj Hsum.
  assert (Hsup : forall a b k, make_negative (Z.to_nat (-1) + 2) (Z.of_nat 6) (Z.of_nat (length eight)) (-1) 1 = Done (a, b) -> 1 <= k <= 2 ->
    let r := root (Z.of_nat 2) (Z.of_nat k) in let ts := roots (infty_poly eight 2 3 (Z.to_nat b) r) in
    length ts = (3 + Z.to_nat b) * length (remove Ceq_dec (RtoC 0) eight) /\ kills_line 6 eight 2 3 4 (Z.to_nat b) k (RtoC 1) (map (infty_affine 6 (RtoC 1) 3 4 a b r) (filter nonzero ts)) phi3).
  { intros a b k E Hk. cbn in E. injection E as <- <-. change (Z.to_nat 1) with 1. destruct (Hr k Hk) as [L1 L2]. cbv zeta. split.
    - change (Z.of_nat 2) with 2%Z. rewrite L1, notin_remove by exact eight_no0. reflexivity.
    - apply phi3_line. exact L2. }
  destruct (eight_first roots aj sum good 1 Hr ltac:(lia)) as (v & E1). destruct (eight_first roots aj sum good 2 Hr ltac:(lia)) as (w & E2).
  assert (P0 : In (RtoC (INR 1)) eight) by (left; reflexivity). assert (I0 : integer (phi3 (PFin (RtoC (INR 1)) (RtoC 0)))) by (rewrite phi3_ram; [exists 0%Z; reflexivity|left; reflexivity]).
  assert (Val : forall k l', 1 <= k <= 2 -> infty_point roots aj eight 6 (RtoC 1) 2 (-1) 1 good sum k [None; None] = Done l' ->
    exists u, l' = upd [None; None] (k - 1) (Some u) /\ ~ integer (u i - phi3 (PInf (Z.of_nat k)))).
  { intros k l' Hk E. destruct (infty_value roots aj eight 6 (RtoC 1) 2 3 4 (-1) 1 good sum k [None; None] l' phi3 (RtoC (INR 1)) (RtoC 1) i eq_refl eq_refl (le_n 2) ltac:(lia) ltac:(lia) eight_nodup eq_refl Hk eq_refl
      ltac:(destruct k as [|[|[|k]]]; [lia|reflexivity|reflexivity|lia]) ltac:(destruct k as [|[|[|k]]]; [lia|reflexivity|reflexivity|lia]) P0 I0 phi3_coord Haj Hsum E) as (a & b & u & Eab & El & V).
    exists u. split; [exact El|]. destruct (Hsup a b k Eab Hk) as [L K]. destruct (V L K) as (_ & Iff & _). intros Bad. apply Iff in Bad. cbn in Eab. injection Eab as <- <-. rewrite phi3_S in Bad.
    destruct Bad as (z & Bad). apply (not_int_frac 8 3 z); [lia|intros (q & Hq); lia|]. rewrite <- Bad. change (1 + 1)%Z with 2%Z. field. }
  destruct (Val 1 _ ltac:(lia) E1) as (v' & Ev & Nv). destruct (Val 2 _ ltac:(lia) E2) as (w' & Ew & Nw). cbn [upd Nat.sub firstn skipn app] in Ev, Ew. injection Ev as <-. injection Ew as <-.
  assert (T1 : exists v2, twice roots aj eight 6 (RtoC 1) (-1) 1 good sum 1 2 = Done [Some v; Some v2]).
  { unfold twice. rewrite E1. cbn [bind upd Nat.sub firstn skipn app]. rewrite (second_call roots aj eight 6 (RtoC 1) (-1) 1 good sum 2 [Some v; None] v ltac:(lia) eq_refl eq_refl eq_refl). eexists. reflexivity. }
  assert (T2 : exists w1, twice roots aj eight 6 (RtoC 1) (-1) 1 good sum 2 1 = Done [Some w1; Some w]).
  { unfold twice. rewrite E2. cbn [bind upd Nat.sub firstn skipn app]. rewrite (second_call roots aj eight 6 (RtoC 1) (-1) 1 good sum 1 [None; Some w] w ltac:(lia) eq_refl eq_refl eq_refl). eexists. reflexivity. }
  destruct T1 as (v2 & T1). destruct T2 as (w1 & T2). exists v, v2, w1, w. split; [exact T1|]. split; [exact T2|]. split; [exact Nv|]. split; [exact Nw|].
  destruct (two_orders roots aj eight 6 (RtoC 1) 3 4 (-1) 1 good sum phi3 (RtoC (INR 1)) (RtoC 1) i _ _ eq_refl eq_refl ltac:(lia) ltac:(lia) eight_nodup eq_refl P0 I0 phi3_coord Haj Hsum Hsup T1 T2)
    as (a & b & u1 & u2 & u3 & u4 & Eab & Q1 & Q2 & I). injection Q1 as <- _. injection Q2 as <- _. cbn in Eab. injection Eab as <- <-. rewrite phi3_S in I.
  intros Bad. pose proof (int_sub _ _ I Bad) as (z & Z1). apply (not_int_frac 16 3 z); [lia|intros (q & Hq); lia|]. rewrite <- Z1. change (2 * (1 + 1))%Z with 4%Z. field.
Qed.

(** ** a root of the polynomial for y^4 = (x+1/2) (x-1/4) (x-5/2) (x-1) (x+1) (x-1/3) *)
Definition six : list C := map RtoC [-1 / 2; 1 / 4; 5 / 2; 1; -1; 1 / 3]%R.
Lemma root22 : root (Z.of_nat 2) (Z.of_nat 2) = RtoC 1.
Proof. change (root 2 2 = RtoC 1). rewrite <- (root_mod 2 2) by lia. change (2 mod 2)%Z with 0%Z. apply root_0. Qed.
Lemma six_root : infty_poly six 2 2 1 (root (Z.of_nat 2) (Z.of_nat 2)) (RtoC 1) = RtoC 0.
Proof.
  rewrite root22. unfold infty_poly, six. cbn [map cprod fold_right cpow]. rewrite <- !RtoC_plus, <- !RtoC_mult, <- !RtoC_minus, <- !RtoC_mult, <- !RtoC_minus. f_equal. field.
Qed.
Lemma eight_case : exists x m M N a0 b0 phi p0, m = M * 2 /\ length x = N * 2 /\ NoDup x /\
  (a0 * Z.of_nat m + b0 * Z.of_nat (length x) = 2)%Z /\ In p0 x /\ integer (phi (PFin p0 (RtoC 0))) /\ kills_coordinates m x 2 M N phi /\
  (forall k a b r ts, length (filter nonzero ts) = 31 -> kills_line m x 2 M N 1 k (RtoC 1) (map (infty_affine m (RtoC 1) M N a b r) (filter nonzero ts)) phi) /\
  forall roots aj sum good i,
    (forall k, 1 <= k <= 2 -> length (roots (infty_poly x 2 M 1 (root 2 (Z.of_nat k)))) = 32 /\ length (filter nonzero (roots (infty_poly x 2 M 1 (root 2 (Z.of_nat k))))) = 31) ->
    (forall D, integer (aj D i - extend phi D)) -> integer (sum i - extend phi (at_infinity 2 1)) ->
    exists v1 v2 w1 w2, twice roots aj x m (RtoC 1) a0 b0 good sum 1 2 = Done [Some v1; Some v2] /\ twice roots aj x m (RtoC 1) a0 b0 good sum 2 1 = Done [Some w1; Some w2] /\
      ~ integer (v1 i - phi (PInf 1)) /\ ~ integer (w2 i - phi (PInf 2)) /\ ~ integer (v1 i - w1 i).
Proof.
  exists eight, 6, 3, 4, (-1)%Z, 1%Z, phi3, (RtoC (INR 1)). split; [reflexivity|]. split; [reflexivity|]. split; [exact eight_nodup|]. split; [reflexivity|]. split; [left; reflexivity|].
  split; [rewrite phi3_ram; [exists 0%Z; reflexivity|left; reflexivity]|]. split; [exact phi3_coord|]. split; [intros k a b r ts; apply phi3_line|].
  exact (fun roots aj sum good i => eight_orders roots aj sum good i).
Qed.
Lemma filter_cons0 l : filter nonzero (RtoC 0 :: l) = filter nonzero l.
Proof. cbn [filter]. unfold nonzero at 1. destruct (Ceq_dec (RtoC 0) (RtoC 0)) as [_|X]; [reflexivity|congruence]. Qed.
Lemma filter_ones n : filter nonzero (repeat (RtoC 1) n) = repeat (RtoC 1) n.
Proof. induction n as [|n IH]; [reflexivity|]. cbn [repeat filter]. rewrite IH. unfold nonzero. destruct (Ceq_dec (RtoC 1) (RtoC 0)) as [X|_]; [destruct (one_nz X)|reflexivity]. Qed.
Lemma eight_runs : exists roots aj sum l, infty_point roots aj eight 6 (RtoC 1) 2 (-1) 1 None sum 1 [None; None] = Done l /\
    (forall D, integer (aj D 0 - extend phi3 D)) /\ integer (sum 0 - extend phi3 (at_infinity 2 1)).
Proof.
  set (roots := fun _ : C -> C => RtoC 0 :: repeat (RtoC 1) 31).
  destruct (eight_first roots (fun D _ => extend phi3 D) (fun _ => extend phi3 (at_infinity 2 1)) None 1) as (v & E); [|lia|].
  - intros k _. split; [reflexivity|]. change (length (filter nonzero (RtoC 0 :: repeat (RtoC 1) 31)) = 31). rewrite filter_cons0, filter_ones. apply repeat_length.
  - do 4 eexists. split; [exact E|]. split; [intros D|]; exists 0%Z; cbv beta; match goal with |- (?u - ?u = _)%R => change (u - u = 0)%R end; ring.
Qed.
