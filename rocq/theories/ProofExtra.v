From Verif Require Import CArg ModelTree ModelCurve SpecCurve ProofCurve ModelPeriod SpecPeriod ProofPeriod ProofPeriodMain ModelVec SpecVec ProofVec
  ModelEdge SpecEdge ProofEdge ProofAngle ModelExtra SpecExtra.
Local Open Scope R_scope.

(** ** the constants collected *)
Section Collect.
Context (up : R -> R) (mab mba mc : R).
Let coef (j : Z) (i l : nat) : R := INR (binom (i - 1) l) * mab ^ (i - 1 - l) * (mc ^ Z.to_nat j * mba ^ i).

Lemma constants_l_acc i mi cnt : forall l acc, acc <= constants_l up cnt l i mab mi acc.
Proof.
  induction cnt as [|cnt IH]; intros l acc; cbn [constants_l]; [lra|].
  eapply Rle_trans; [apply Rmax_l|apply IH].
Qed.
Lemma constants_l_term i mi cnt : forall l acc k, (l <= k < l + cnt)%nat ->
  up (INR (binom (i - 1) k) * mab ^ (i - 1 - k) * mi) <= constants_l up cnt l i mab mi acc.
Proof.
  induction cnt as [|cnt IH]; intros l acc k Hk; cbn [constants_l]; [lia|].
  destruct (Nat.eq_dec k l) as [->|Hne].
  - eapply Rle_trans; [apply Rmax_r|apply constants_l_acc].
  - apply IH. lia.
Qed.
Lemma constants_l_max i mi cnt B : forall l acc, acc <= B ->
  (forall k, (l <= k < l + cnt)%nat -> up (INR (binom (i - 1) k) * mab ^ (i - 1 - k) * mi) <= B) ->
  constants_l up cnt l i mab mi acc <= B.
Proof.
  induction cnt as [|cnt IH]; intros l acc Ha H; cbn [constants_l]; [exact Ha|].
  apply IH; [|intros k Hk; apply H; lia]. apply Rmax_lub; [exact Ha|apply H; lia].
Qed.

Lemma constants_i_acc cnt : forall i mi acc, acc <= constants_i up cnt i mab mba mi acc.
Proof.
  induction cnt as [|cnt IH]; intros i mi acc; cbn [constants_i]; [lra|].
  eapply Rle_trans; [apply constants_l_acc|apply IH].
Qed.
Lemma constants_i_term j cnt : forall i acc k l, (1 <= i)%nat -> (i <= k < i + cnt)%nat -> (l < k)%nat ->
  up (coef j k l) <= constants_i up cnt i mab mba (mc ^ Z.to_nat j * mba ^ (i - 1)) acc.
Proof.
  induction cnt as [|cnt IH]; intros i acc k l Hi Hk Hl; cbn [constants_i]; [lia|].
  assert (E : mc ^ Z.to_nat j * mba ^ (i - 1) * mba = mc ^ Z.to_nat j * mba ^ i).
  { replace i with (S (i - 1)) at 2 by lia. cbn [pow]. ring. }
  rewrite E. destruct (Nat.eq_dec k i) as [->|Hne].
  - eapply Rle_trans; [|apply constants_i_acc]. apply (constants_l_term i (mc ^ Z.to_nat j * mba ^ i)). lia.
  - replace i with (S i - 1)%nat at 2 by lia. apply IH; lia.
Qed.
Lemma constants_i_max j B cnt : forall i acc, (1 <= i)%nat -> acc <= B ->
  (forall k l, (i <= k < i + cnt)%nat -> (l < k)%nat -> up (coef j k l) <= B) ->
  constants_i up cnt i mab mba (mc ^ Z.to_nat j * mba ^ (i - 1)) acc <= B.
Proof.
  induction cnt as [|cnt IH]; intros i acc Hi Ha H; cbn [constants_i]; [exact Ha|].
  assert (E : mc ^ Z.to_nat j * mba ^ (i - 1) * mba = mc ^ Z.to_nat j * mba ^ i).
  { replace i with (S (i - 1)) at 2 by lia. cbn [pow]. ring. }
  rewrite E. replace i with (S i - 1)%nat at 2 by lia. apply IH; [lia| |intros k l Hk Hl; apply H; lia].
  apply constants_l_max; [exact Ha|]. intros k Hk. apply (H i k); lia.
Qed.

Lemma constants_j_acc ni : forall j acc, acc <= constants_j up ni j mab mba mc acc.
Proof.
  induction ni as [|n ni IH]; intros j acc; cbn [constants_j]; [lra|].
  eapply Rle_trans; [apply constants_i_acc|apply IH].
Qed.
Lemma constants_j_term ni : forall j acc q i l, (q < length ni)%nat -> (1 <= i <= Z.to_nat (nth q ni 0%Z))%nat -> (l < i)%nat ->
  (0 <= j)%Z -> up (coef (j + Z.of_nat q) i l) <= constants_j up ni j mab mba mc acc.
Proof.
  induction ni as [|n ni IH]; intros j acc q i l Hq Hi Hl Hj; cbn [constants_j length] in *; [lia|].
  destruct q as [|q]; cbn [nth] in Hi.
  - rewrite Z.add_0_r. eapply Rle_trans; [|apply constants_j_acc].
    pose proof (constants_i_term j (Z.to_nat n) 1 acc i l ltac:(lia) ltac:(lia) Hl) as H. cbn [Nat.sub pow] in H. rewrite Rmult_1_r in H. exact H.
  - replace (j + Z.of_nat (S q))%Z with (j + 1 + Z.of_nat q)%Z by lia. apply IH; [lia|exact Hi|exact Hl|lia].
Qed.
Lemma constants_j_max B ni : forall j acc, acc <= B -> (0 <= j)%Z ->
  (forall q i l, (q < length ni)%nat -> (1 <= i <= Z.to_nat (nth q ni 0%Z))%nat -> (l < i)%nat -> up (coef (j + Z.of_nat q) i l) <= B) ->
  constants_j up ni j mab mba mc acc <= B.
Proof.
  induction ni as [|n ni IH]; intros j acc Ha Hj H; cbn [constants_j]; [exact Ha|].
  apply IH; [|lia|].
  - pose proof (constants_i_max j B (Z.to_nat n) 1 acc ltac:(lia) Ha) as G. cbn [Nat.sub pow] in G. rewrite Rmult_1_r in G. apply G.
    intros k l Hk Hl. specialize (H O k l). cbn [length nth] in H. rewrite Z.add_0_r in H. apply H; lia.
  - intros q i l Hq Hi Hl. replace (j + 1 + Z.of_nat q)%Z with (j + Z.of_nat (S q))%Z by lia. apply H; cbn [length nth]; lia.
Qed.
End Collect.

Lemma tree_acc up x c es : forall acc, acc <= fold_left (fun acc e => Rmax acc (mag_constants_edge up x e c)) es acc.
Proof.
  induction es as [|e es IH]; intros acc; cbn [fold_left]; [lra|]. eapply Rle_trans; [apply Rmax_l|apply IH].
Qed.
Lemma tree_ge up x c e es : In e es -> mag_constants_edge up x e c <= mag_constants_tree up x es c.
Proof.
  unfold mag_constants_tree. generalize 0. induction es as [|e' es IH]; intros acc; [intros []|]. cbn [fold_left]. intros [<-|H].
  - eapply Rle_trans; [apply Rmax_r|apply tree_acc].
  - apply IH, H.
Qed.
Lemma tree_le up x c es B : 0 <= B -> (forall e, In e es -> mag_constants_edge up x e c <= B) -> mag_constants_tree up x es c <= B.
Proof.
  unfold mag_constants_tree. generalize 0. induction es as [|e' es IH]; intros acc Ha H; cbn [fold_left]; [exact Ha|].
  apply IH; [|intros; apply H; right; assumption]. apply Rmax_lub; [exact Ha|apply H; left; reflexivity].
Qed.

(** ** truncation *)
Lemma trunc_gt r : r < IZR (trunc r + 1).
Proof.
  unfold trunc. rewrite plus_IZR. destruct (Rle_dec 0 r) as [H|H].
  - pose proof (base_Int_part r). lra.
  - rewrite opp_IZR. pose proof (base_Int_part (- r)). lra.
Qed.
Lemma trunc_neg r : r < 0 -> IZR (trunc r) < r + 1.
Proof.
  intros Hr. unfold trunc. destruct (Rle_dec 0 r) as [H|_]; [lra|]. rewrite opp_IZR. pose proof (base_Int_part (- r)). lra.
Qed.
Lemma trunc_nonneg r : 0 <= r -> (0 <= trunc r)%Z.
Proof.
  intros Hr. unfold trunc. destruct (Rle_dec 0 r) as [_|H]; [|lra]. pose proof (base_Int_part r) as [_ H].
  assert (IZR (-1) < IZR (Int_part r)) as H1 by (simpl; lra). apply lt_IZR in H1. lia.
Qed.
Lemma two_to_log2 r : 0 < r -> two_to (log2 r) = r.
Proof.
  intros Hr. unfold two_to, log2, Rpower. assert (ln 2 <> 0) by (pose proof ln_lt_2; lra).
  replace (ln r / ln 2 * ln 2) with (ln r) by (field; assumption). apply exp_ln, Hr.
Qed.
Lemma two_to_le a b : a <= b -> two_to a <= two_to b.
Proof.
  intros [H| ->]; [|lra]. left. unfold two_to, Rpower. apply exp_increasing, Rmult_lt_compat_r; [|exact H]. pose proof ln_lt_2. lra.
Qed.
Lemma extraprec_enough up lg d x es c : 0 <= d -> log2_within lg d -> 0 < mag_constants_tree up x es c ->
  mag_constants_tree up x es c <= two_to (IZR (extraprec_tree up lg x es c) + d).
Proof.
  intros Hd Hlg Hp. set (M := mag_constants_tree up x es c) in *. rewrite <- (two_to_log2 M Hp) at 1. apply two_to_le.
  unfold extraprec_tree. fold M. pose proof (trunc_gt (lg M)). pose proof (Hlg M Hp). lra.
Qed.

(** ** an edge *)
Lemma pow_strict n a b : (0 < n)%nat -> 0 <= a < b -> a ^ n < b ^ n.
Proof.
  intros Hn Hab. induction n as [|n IH]; [lia|]. destruct n as [|n].
  - cbn [pow]. lra.
  - assert (IH' : a ^ S n < b ^ S n) by (apply IH; lia).
    change (a ^ S (S n)) with (a * a ^ S n). change (b ^ S (S n)) with (b * b ^ S n).
    apply Rmult_le_0_lt_compat; try tauto. apply pow_le. tauto.
Qed.
Lemma pow_inj_pos n a b : (0 < n)%nat -> 0 <= a -> 0 <= b -> a ^ n = b ^ n -> a = b.
Proof.
  intros Hn Ha Hb E. destruct (Rtotal_order a b) as [H|[H|H]]; [|exact H|].
  - pose proof (pow_strict n a b Hn (conj Ha H)). lra.
  - pose proof (pow_strict n b a Hn (conj Hb H)). lra.
Qed.
Lemma Cmod_opp1_pow k : Cmod (cpow (RtoC (-1)) k) = 1.
Proof.
  rewrite cpow_mod, Cmod_R. rewrite Rabs_left by lra. replace (- -1) with 1 by ring. apply pow1.
Qed.
Lemma NC_mod k : Cmod (NC k) = INR k.
Proof. unfold NC. rewrite Cmod_R. apply Rabs_right, Rle_ge, pos_INR. Qed.

Section Edge.
Context (nonpos neg : C -> bool) (x : list C) (e : edge) (m : nat) (y : ydata).
Hypothesis Ha : (ea e < length x)%nat.
Hypothesis Hb : (eb e < length x)%nat.
Hypothesis Hab : vget x (ea e) <> vget x (eb e).
Hypothesis Hm : (0 < m)%nat.
Hypothesis Ey : ydata_init_edge nonpos neg x (ea e) (eb e) (Z.of_nat m) = Done y.
Let mba := Cmod (vget x (eb e) - vget x (ea e))%C / 2.
Let mab := Cmod (vget x (eb e) + vget x (ea e))%C / Cmod (vget x (eb e) - vget x (ea e))%C.
Let mc := / rroot (Z.of_nat m) (mba ^ length x).

Lemma mba_pos : 0 < mba.
Proof using Hab.
  unfold mba. assert (0 < Cmod (vget x (eb e) - vget x (ea e))%C); [|lra].
  apply Cmod_gt_0. intros E. apply Hab. replace (vget x (eb e)) with (vget x (eb e) - vget x (ea e) + vget x (ea e))%C by ring.
  rewrite E. ring.
Qed.
Lemma y_fields : y_ba2 y = ((vget x (eb e) - vget x (ea e)) / RtoC 2)%C /\
  y_ab y = ((vget x (ea e) + vget x (eb e)) / (vget x (eb e) - vget x (ea e)))%C /\ y_c y <> RtoC 0.
Proof using Ha Hb Hab Hm Ey.
  destruct (init_spec nonpos neg x (ea e) (eb e) m Ha Hb Hab Hm) as (y' & E' & _ & _ & _ & _ & H1 & H2 & _ & H3 & _).
  rewrite Ey in E'. injection E' as <-. auto.
Qed.
Lemma ba2_mod : Cmod (y_ba2 y) = mba.
Proof using Ha Hb Hab Hm Ey.
  destruct y_fields as (-> & _ & _). rewrite Cmod_div by apply two_neq. rewrite Cmod_R, Rabs_right by lra. reflexivity.
Qed.
Lemma ab_mod : Cmod (y_ab y) = mab.
Proof using Ha Hb Hab Hm Ey.
  destruct y_fields as (_ & -> & _). rewrite Cmod_div.
  - unfold mab. do 2 f_equal. ring.
  - intros E. pose proof mba_pos as H. unfold mba in H. rewrite E, Cmod_0 in H. lra.
Qed.
Lemma c_mod : Cmod (y_c y) = rroot (Z.of_nat m) (mba ^ length x).
Proof using Ha Hb Hab Hm Ey.
  apply (pow_inj_pos m); [exact Hm|apply Cmod_ge_0|apply rroot_nonneg|].
  rewrite rroot_pow; [|exact Hm|left; apply pow_lt, mba_pos].
  rewrite <- cpow_mod. rewrite (constant_final nonpos neg x (ea e) (eb e) m y Ha Hb Hab Hm Ey).
  rewrite Cmod_mult, Cmod_opp1_pow, cpow_mod. destruct y_fields as (E & _). rewrite <- E, ba2_mod. ring.
Qed.
Lemma mc_pos : 0 < mc.
Proof using Hab. unfold mc. apply Rinv_0_lt_compat, rroot_pos, pow_lt, mba_pos. Qed.

Lemma coef_mod i l j : (0 <= j)%Z ->
  Cmod (NC (binom i l) * cpow (y_ab y) (i - l) * (y_ba2 y * cpow (y_ba2 y) i) / cpow (y_c y) (Z.to_nat j))%C =
  INR (binom (S i - 1) l) * mab ^ (S i - 1 - l) * (mc ^ Z.to_nat j * mba ^ S i).
Proof using Ha Hb Hab Hm Ey.
  intros Hj. destruct y_fields as (_ & _ & Hc). rewrite Cmod_div by (apply cpow_neq_0, Hc).
  rewrite !Cmod_mult, !cpow_mod, NC_mod, ab_mod, ba2_mod, c_mod.
  replace (S i - 1)%nat with i by lia. unfold mc. rewrite pow_inv. cbn [pow]. field.
  apply pow_nonzero. apply Rgt_not_eq, rroot_pos, pow_lt, mba_pos.
Qed.
End Edge.

(** ** coefficients are bounded *)
Lemma coefficient_bound up lg d m n c x es e nonpos neg y q i l :
  rounds_up up -> 0 <= d -> log2_within lg d -> sec_init m n = Done c -> (1 <= n)%Z -> Z.of_nat (length x) = n ->
  edges_of x es -> In e es -> ydata_init_edge nonpos neg x (ea e) (eb e) m = Done y ->
  (q < length (sec_ni c))%nat -> (Z.of_nat i < nth q (sec_ni c) 0)%Z -> (l <= i)%nat ->
  Cmod (NC (binom i l) * cpow (y_ab y) (i - l) * (y_ba2 y * cpow (y_ba2 y) i) / cpow (y_c y) (Z.to_nat (sec_j1 c + Z.of_nat q)))%C
    <= two_to (IZR (extraprec_tree up lg x es c) + d).
Proof.
  intros Hup Hd Hlg Hc Hn Hx Hes He Ey Hq Hi Hl.
  destruct (sec_init_curve_ok m n c Hc Hn) as (Hok & Em & Hg). destruct Hok as (Hm2 & Hj1 & Hni & Hsum).
  destruct (sec_init_fields m n c Hc) as [_ En]. rewrite Em in Hm2.
  destruct (Hes e He) as (Ha & Hb & Hab).
  assert (Emm : m = Z.of_nat (Z.to_nat m)) by lia. rewrite Emm in Ey. assert (Hm : (0 < Z.to_nat m)%nat) by lia.
  assert (Hlen : length x = Z.to_nat n) by lia.
  assert (Hterm : forall i l, (Z.of_nat i < nth q (sec_ni c) 0)%Z -> (l <= i)%nat ->
    Cmod (NC (binom i l) * cpow (y_ab y) (i - l) * (y_ba2 y * cpow (y_ba2 y) i) / cpow (y_c y) (Z.to_nat (sec_j1 c + Z.of_nat q)))%C
      <= mag_constants_tree up x es c).
  { clear i l Hi Hl. intros i l Hi Hl.
    rewrite (coef_mod nonpos neg x e (Z.to_nat m) y Ha Hb Hab Hm Ey i l) by lia.
    eapply Rle_trans; [|apply (tree_ge up x c e es He)].
    eapply Rle_trans; [apply Hup|].
    - pose proof (mba_pos x e Hab) as Hp. pose proof (mc_pos x e (Z.to_nat m) Hab) as Hp2. cbv beta zeta in Hp, Hp2.
      apply Rmult_le_pos; [apply Rmult_le_pos; [apply pos_INR|apply pow_le]|].
      + apply Rmult_le_pos; [apply Cmod_ge_0|left; apply Rinv_0_lt_compat; lra].
      + apply Rmult_le_pos; apply pow_le; lra.
    - unfold mag_constants_edge. rewrite Em, En. rewrite <- Emm, Hlen.
      apply (constants_j_term up _ _ _ (sec_ni c) (sec_j1 c) 0 q (S i) l); [exact Hq|lia|lia|lia]. }
  eapply Rle_trans; [apply Hterm; assumption|]. apply extraprec_enough; [exact Hd|exact Hlg|].
  eapply Rlt_le_trans; [|apply (Hterm i i Hi (le_n i))].
  destruct (y_fields nonpos neg x e (Z.to_nat m) y Ha Hb Hab Hm Ey) as (Eb & _ & Hc0).
  rewrite binom_diag, Nat.sub_diag. cbn [cpow]. rewrite NC_1.
  assert (Hb0 : y_ba2 y <> RtoC 0).
  { intros E. pose proof (ba2_mod nonpos neg x e (Z.to_nat m) y Ha Hb Hab Hm Ey) as H. rewrite E, Cmod_0 in H.
    pose proof (mba_pos x e Hab) as Hp. cbv zeta in Hp. lra. }
  rewrite Cmod_div by (apply cpow_neq_0, Hc0). apply Rdiv_lt_0_compat; [|apply Cmod_gt_0, cpow_neq_0, Hc0].
  apply Cmod_gt_0. repeat apply Cmult_neq_0'; try apply cpow_neq_0; try assumption; intros E; injection E; lra.
Qed.

(** ** the rescaling of arbitrary vectors *)
Lemma factor_block_vec v off len ba2 ab cj : (1 <= len)%nat -> (off + len <= length v)%nat ->
  exists v1 r v2, polynomial_shift v off len ab = Done v1 /\ mul_geom v1 off len ba2 ba2 = Done r /\
    scalar_mul (fst r) off len cj = Done v2 /\
    replaced v v2 off len (fun i => csum (S i) (fun l => NC (binom i l) * cpow ab (i - l) * vget v (off + l)%nat) * (ba2 * cpow ba2 i) * cj)%C.
Proof.
  intros H1 Hlen.
  destruct (ProofVec.shift_spec v off len ab Hlen) as (v1 & E1 & HL1 & Hin1 & Hout1).
  destruct (geom_spec (fun a c0 _ => (a * c0)%C) v1 off len ba2 ba2 H1) as (v2 & E2 & HL2 & Hin2 & Hout2); [lia|].
  destruct (scalar_mul_spec v2 off len cj) as (v3 & E3 & HL3 & Hin3 & Hout3); [lia|].
  exists v1, (v2, (ba2 * cpow ba2 (len - 1))%C), v3. split; [exact E1|]. split; [exact E2|]. split; [exact E3|].
  split; [congruence|]. split.
  - intros l Hl. rewrite Hin3, Hin2, Hin1 by exact Hl. reflexivity.
  - intros i Hi. rewrite Hout3, Hout2, Hout1 by exact Hi. reflexivity.
Qed.

Lemma factor_blocks_vec m j1 ba2 ab cab : (2 <= m)%Z -> (0 <= j1)%Z -> forall ni j off v,
  (0 <= j)%Z -> (j1 + j + Z.of_nat (length ni) <= m + 1)%Z -> (forall n, In n ni -> 1 <= n)%Z ->
  (off + total ni <= length v)%nat ->
  exists v', factor_blocks ni j off ba2 ab cab m j1 (unit_roots m) v = Done v' /\ length v' = length v /\
    (forall k, (k < off \/ off + total ni <= k)%nat -> vget v' k = vget v k) /\
    (forall q i, (q < length ni)%nat -> (Z.of_nat i < nth q ni 0)%Z ->
      vget v' (off + (offset ni q + i)) =
      (csum (S i) (fun l => NC (binom i l) * cpow ab (i - l) * vget v (off + offset ni q + l)%nat) * (ba2 * cpow ba2 i) *
       ((RtoC 1 - root m (- (j1 + (j + Z.of_nat q)))) / cpow cab (Z.to_nat (j1 + (j + Z.of_nat q)))))%C).
Proof.
  intros Hm Hj1. induction ni as [|n ni IH]; intros j off v Hj Hjm Hn Hlen; cbn [factor_blocks total].
  - exists v. conj; try reflexivity. intros q i Hq. cbn in Hq. lia.
  - pose proof (Hn n (or_introl eq_refl)) as Hn0. cbn [total length] in Hlen, Hjm.
    destruct (zeta_index m j1 j Hm Hj1 Hj ltac:(lia)) as [Hi Hroot]. cbn zeta in *.
    set (zi := Z.rem (m - j1 - j) m) in *.
    set (cj := ((RtoC 1 - root m (- (j1 + j))) / cpow cab (Z.to_nat (j1 + j)))%C).
    destruct (factor_block_vec v off (Z.to_nat n) ba2 ab cj ltac:(lia) ltac:(lia))
      as (v1 & r & v2 & E1 & E2 & E3 & HL2 & Hin2 & Hout2).
    rewrite E1. cbn [bind]. rewrite E2. cbn [bind].
    rewrite unit_roots_length by lia. assert (Eb : ((zi <? 0) || (m <=? zi))%Z = false) by lia. rewrite Eb.
    rewrite unit_roots_get by exact Hi.
    assert (Ecj : ((- (root m zi - RtoC 1)) / cpow cab (Z.to_nat (j1 + j)))%C = cj).
    { unfold cj. rewrite Hroot. f_equal. ring. }
    rewrite Ecj. unfold vec in *. rewrite E3. cbn [bind].
    destruct (IH (j + 1)%Z (off + Z.to_nat n)%nat v2) as (v' & E & HL' & Hout & Hin).
    { lia. } { lia. } { intros x Hx. apply Hn. right. exact Hx. } { lia. }
    exists v'. conj; [exact E|congruence| |].
    + intros k Hk. rewrite Hout by lia. apply Hout2. lia.
    + intros [|q] i Hq Hi2; cbn [nth length offset] in *.
      * rewrite Hout by lia. rewrite Nat.add_0_l, Hin2 by lia. unfold cj. replace (j + Z.of_nat 0)%Z with j by lia.
        rewrite !Nat.add_0_r. reflexivity.
      * specialize (Hin q i ltac:(lia) Hi2).
        replace (off + (Z.to_nat n + offset ni q + i))%nat with (off + Z.to_nat n + (offset ni q + i))%nat by lia.
        rewrite Hin. replace (j + 1 + Z.of_nat q)%Z with (j + Z.of_nat (S q))%Z by lia. do 2 f_equal.
        apply csum_ext. intros k Hk. f_equal. rewrite Hout2 by lia. f_equal. lia.
Qed.

Lemma edge_factors_vec m n c v ba2 ab cab : sec_init m n = Done c -> (1 <= n)%Z -> Z.of_nat (length v) = sec_g c ->
  exists v', integrals_edge_factors v ba2 ab cab c = Done v' /\ length v' = length v /\
    forall q i, (q < length (sec_ni c))%nat -> (Z.of_nat i < nth q (sec_ni c) 0)%Z ->
      vget v' (offset (sec_ni c) q + i) =
      (csum (S i) (fun l => NC (binom i l) * cpow ab (i - l) * vget v (offset (sec_ni c) q + l)%nat) * (ba2 * cpow ba2 i) *
        ((RtoC 1 - root m (- (sec_j1 c + Z.of_nat q))) / cpow cab (Z.to_nat (sec_j1 c + Z.of_nat q))))%C.
Proof.
  intros Hc Hn Hv. destruct (sec_init_curve_ok m n c Hc Hn) as (Hok & Em & Hg).
  destruct Hok as (Hm2 & Hj1 & Hni & Hsum). destruct (differentials_count_final m n c Hc Hn) as [_ Hlen].
  destruct (differentials_exact_final m n c Hc Hn) as (_ & Hni1 & _).
  unfold integrals_edge_factors. rewrite Em in *.
  destruct (factor_blocks_vec m (sec_j1 c) ba2 ab cab Hm2 Hj1 (sec_ni c) 0%Z O v) as (v' & E & HL' & _ & Hin).
  { lia. } { lia. } { intros x Hx. apply Hni1 in Hx. lia. }
  { rewrite Nat.add_0_l. apply Nat2Z.inj_le. rewrite total_sum by exact Hni. rewrite Hsum, <- Hv. lia. }
  exists v'. conj; [exact E|exact HL'|]. intros q i Hq Hi. specialize (Hin q i Hq Hi). rewrite !Nat.add_0_l in Hin. rewrite Hin.
  rewrite !Z.add_0_l. reflexivity.
Qed.

Lemma csum_bound k (f : nat -> C) B : (forall i, (i < k)%nat -> Cmod (f i) <= B) -> Cmod (csum k f) <= INR k * B.
Proof.
  induction k as [|k IH]; intros H; cbn [csum].
  - rewrite Cmod_0. cbn. lra.
  - rewrite S_INR. eapply Rle_trans; [apply Cmod_triangle|]. specialize (H k ltac:(lia)) as Hk. specialize (IH ltac:(intros; apply H; lia)). lra.
Qed.
Lemma root_mod1 m k : Cmod (root m k) = 1.
Proof. unfold root. apply cis_mod. Qed.
Lemma one_minus_root m k : Cmod (RtoC 1 - root m k)%C <= 2.
Proof.
  eapply Rle_trans; [apply Cmod_triangle|]. rewrite Cmod_opp, root_mod1, Cmod_1. lra.
Qed.

Lemma error_propagation up lg d m n c x es e nonpos neg y v w eps :
  rounds_up up -> 0 <= d -> log2_within lg d -> sec_init m n = Done c -> (1 <= n)%Z -> Z.of_nat (length x) = n ->
  edges_of x es -> In e es -> ydata_init_edge nonpos neg x (ea e) (eb e) m = Done y ->
  Z.of_nat (length v) = sec_g c -> Z.of_nat (length w) = sec_g c -> 0 <= eps ->
  (forall k, Cmod (vget v k - vget w k)%C <= eps) ->
  exists v' w', integrals_edge_factors v (y_ba2 y) (y_ab y) (y_c y) c = Done v' /\
    integrals_edge_factors w (y_ba2 y) (y_ab y) (y_c y) c = Done w' /\
    forall q i, (q < length (sec_ni c))%nat -> (Z.of_nat i < nth q (sec_ni c) 0)%Z ->
      Cmod (vget v' (offset (sec_ni c) q + i) - vget w' (offset (sec_ni c) q + i))%C
        <= 2 * INR (S i) * (two_to (IZR (extraprec_tree up lg x es c) + d) * eps).
Proof.
  intros Hup Hd Hlg Hc Hn Hx Hes He Ey Hv Hw Heps Hvw.
  destruct (edge_factors_vec m n c v (y_ba2 y) (y_ab y) (y_c y) Hc Hn Hv) as (v' & Ev & _ & Gv).
  destruct (edge_factors_vec m n c w (y_ba2 y) (y_ab y) (y_c y) Hc Hn Hw) as (w' & Ew & _ & Gw).
  exists v', w'. conj; [exact Ev|exact Ew|]. intros q i Hq Hi. rewrite Gv, Gw by assumption.
  set (o := offset (sec_ni c) q). set (z := (RtoC 1 - root m (- (sec_j1 c + Z.of_nat q)))%C).
  set (J := Z.to_nat (sec_j1 c + Z.of_nat q)).
  destruct (Hes e He) as (Ha & Hb & Hab).
  destruct (sec_init_inv m n c Hc Hn) as (Hm2 & _ & _).
  assert (Ey' : ydata_init_edge nonpos neg x (ea e) (eb e) (Z.of_nat (Z.to_nat m)) = Done y) by (rewrite Z2Nat.id by lia; exact Ey).
  destruct (y_fields nonpos neg x e (Z.to_nat m) y Ha Hb Hab ltac:(lia) Ey') as (_ & _ & Hc0).
  match goal with |- Cmod (?p * ?b * (z / ?k) - ?p' * ?b * (z / ?k))%C <= _ =>
    replace (p * b * (z / k) - p' * b * (z / k))%C with (z * ((p - p') * (b / k)))%C by (field; apply cpow_neq_0, Hc0) end.
  assert (Hdiff : (csum (S i) (fun l => NC (binom i l) * cpow (y_ab y) (i - l) * vget v (o + l)%nat)
      - csum (S i) (fun l => NC (binom i l) * cpow (y_ab y) (i - l) * vget w (o + l)%nat))%C
    = csum (S i) (fun l => (NC (binom i l) * cpow (y_ab y) (i - l)) * (vget v (o + l)%nat - vget w (o + l)%nat))%C).
  { rewrite (csum_ext (S i) (fun l => (NC (binom i l) * cpow (y_ab y) (i - l)) * (vget v (o + l)%nat - vget w (o + l)%nat))%C
      (fun l => NC (binom i l) * cpow (y_ab y) (i - l) * vget v (o + l)%nat + (RtoC (-1)) * (NC (binom i l) * cpow (y_ab y) (i - l) * vget w (o + l)%nat))%C).
    - rewrite csum_add, csum_scal, m1. ring.
    - intros l _. rewrite m1. ring. }
  rewrite Hdiff, <- csum_scal_r, Cmod_mult.
  assert (Hsum : Cmod (csum (S i) (fun l => (NC (binom i l) * cpow (y_ab y) (i - l)) * (vget v (o + l)%nat - vget w (o + l)%nat) *
     (y_ba2 y * cpow (y_ba2 y) i / cpow (y_c y) J)))%C <= INR (S i) * (two_to (IZR (extraprec_tree up lg x es c) + d) * eps)).
  { apply csum_bound. intros l Hl.
    replace ((NC (binom i l) * cpow (y_ab y) (i - l)) * (vget v (o + l)%nat - vget w (o + l)%nat) * (y_ba2 y * cpow (y_ba2 y) i / cpow (y_c y) J))%C
      with ((NC (binom i l) * cpow (y_ab y) (i - l) * (y_ba2 y * cpow (y_ba2 y) i) / cpow (y_c y) J) * (vget v (o + l)%nat - vget w (o + l)%nat))%C
      by (field; apply cpow_neq_0, Hc0).
    rewrite Cmod_mult. apply Rmult_le_compat; [apply Cmod_ge_0|apply Cmod_ge_0| |apply Hvw].
    apply (coefficient_bound up lg d m n c x es e nonpos neg y q i l); try assumption. lia. }
  rewrite Rmult_assoc. apply Rmult_le_compat; [apply Cmod_ge_0|apply Cmod_ge_0|apply one_minus_root|exact Hsum].
Qed.

Lemma two_to_plus a b : two_to (a + b) = two_to a * two_to b.
Proof. unfold two_to. apply Rpower_plus. Qed.
Lemma two_to_pos a : 0 < two_to a.
Proof. unfold two_to, Rpower. apply exp_pos. Qed.

Lemma precision_final up lg d prec m n c x es e nonpos neg y v w kappa :
  rounds_up up -> 0 <= d -> log2_within lg d -> sec_init m n = Done c -> (1 <= n)%Z -> Z.of_nat (length x) = n ->
  edges_of x es -> In e es -> ydata_init_edge nonpos neg x (ea e) (eb e) m = Done y ->
  Z.of_nat (length v) = sec_g c -> Z.of_nat (length w) = sec_g c -> 0 <= kappa ->
  (forall k, Cmod (vget v k - vget w k)%C <= kappa * two_to (- IZR (intprec up lg prec x es c))) ->
  exists v' w', integrals_edge_factors v (y_ba2 y) (y_ab y) (y_c y) c = Done v' /\
    integrals_edge_factors w (y_ba2 y) (y_ab y) (y_c y) c = Done w' /\
    forall q i, (q < length (sec_ni c))%nat -> (Z.of_nat i < nth q (sec_ni c) 0)%Z ->
      Cmod (vget v' (offset (sec_ni c) q + i) - vget w' (offset (sec_ni c) q + i))%C
        <= 2 * INR (S i) * kappa * two_to (d - IZR prec).
Proof.
  intros Hup Hd Hlg Hc Hn Hx Hes He Ey Hv Hw Hk Hvw.
  pose proof (two_to_pos (- IZR (intprec up lg prec x es c))) as Hp.
  destruct (error_propagation up lg d m n c x es e nonpos neg y v w (kappa * two_to (- IZR (intprec up lg prec x es c))))
    as (v' & w' & Ev & Ew & H); try assumption; [apply Rmult_le_pos; lra|].
  exists v', w'. conj; [exact Ev|exact Ew|]. intros q i Hq Hi. specialize (H q i Hq Hi).
  eapply Rle_trans; [exact H|]. right.
  replace (d - IZR prec) with (IZR (extraprec_tree up lg x es c) + d + - IZR (intprec up lg prec x es c)).
  - rewrite (two_to_plus (IZR (extraprec_tree up lg x es c) + d)). ring.
  - unfold intprec. rewrite plus_IZR. ring.
Qed.

(** ** when the working precision is larger than the precision asked for *)
Lemma pow_le_1 a k l : 0 <= a <= 1 -> (k <= l)%nat -> a ^ l <= a ^ k.
Proof.
  intros Ha Hkl. replace l with (k + (l - k))%nat by lia. rewrite pow_add.
  assert (a ^ (l - k) <= 1 ^ (l - k)) by (apply pow_incr; exact Ha). rewrite pow1 in H.
  assert (0 <= a ^ k) by (apply pow_le; lra). nra.
Qed.
Lemma pow_le_inv n a b : (0 < n)%nat -> 0 <= a -> 0 <= b -> a ^ n <= b ^ n -> a <= b.
Proof.
  intros Hn Ha Hb H. destruct (Rle_lt_dec a b) as [L|L]; [exact L|]. pose proof (pow_strict n b a Hn (conj Hb L)). lra.
Qed.

Lemma short_edge_final up lg prec m n c x es e :
  rounds_up up -> log2_within lg 0 -> sec_init m n = Done c -> (1 <= n)%Z -> (1 <= sec_g c)%Z -> Z.of_nat (length x) = n ->
  edges_of x es -> In e es -> Cmod (vget x (eb e) - vget x (ea e))%C <= 2 ->
  (prec < intprec up lg prec x es c)%Z /\ (prec + 10 < cstprec up lg prec x es c)%Z.
Proof.
  intros Hup Hlg Hc Hn Hg Hx Hes He Hshort. enough (prec < intprec up lg prec x es c)%Z by (unfold cstprec; lia).
  destruct (sec_init_curve_ok m n c Hc Hn) as (Hok & Em & _). destruct Hok as (Hm2 & Hj1 & Hni & Hsum).
  destruct (sec_init_fields m n c Hc) as [_ En]. rewrite Em in Hm2. destruct (Hes e He) as (Ha & Hb & Hab).
  destruct (differentials_exact_final m n c Hc Hn) as (Hhol & Hni1 & _).
  destruct (differentials_count_final m n c Hc Hn) as [_ Hlen].
  assert (Hq : (0 < length (sec_ni c))%nat) by (destruct (sec_ni c); cbn in *; lia).
  assert (Hn0 : (1 <= nth 0 (sec_ni c) 0)%Z) by (apply Hni1, nth_In, Hq).
  assert (Hj : (m <= sec_j1 c * n)%Z).
  { destruct (proj2 (Hhol 1%Z (sec_j1 c))) as (_ & _ & H); [|pose proof (Z.gcd_nonneg m n); lia].
    split; [lia|]. rewrite Z.sub_diag. change (Z.to_nat 0) with O. lia. }
  pose proof (mba_pos x e Hab) as Hp. cbv zeta in Hp. set (mba := Cmod (vget x (eb e) - vget x (ea e))%C / 2) in *.
  assert (Hmba : mba <= 1) by (unfold mba; lra).
  set (r := rroot m (mba ^ Z.to_nat n)).
  assert (Hr : 0 < r) by (apply rroot_pos, pow_lt, Hp).
  assert (Hrm : r ^ Z.to_nat m = mba ^ Z.to_nat n).
  { unfold r. replace m with (Z.of_nat (Z.to_nat m)) at 1 by lia. apply rroot_pow; [lia|]. left. apply pow_lt, Hp. }
  assert (Hrj : r ^ Z.to_nat (sec_j1 c) <= mba).
  { apply (pow_le_inv (Z.to_nat m)); [lia|apply pow_le; lra|lra|].
    rewrite <- pow_mult, (Nat.mul_comm (Z.to_nat (sec_j1 c))), pow_mult, Hrm, <- pow_mult. apply pow_le_1; [lra|].
    rewrite <- Z2Nat.inj_mul by lia. apply Z2Nat.inj_le; lia. }
  assert (Hbig : 1 <= mag_constants_tree up x es c).
  { eapply Rle_trans; [|apply (tree_ge up x c e es He)]. unfold mag_constants_edge. cbv zeta. rewrite Em, En. fold mba r.
    eapply Rle_trans; [|apply (constants_j_term up _ _ _ (sec_ni c) (sec_j1 c) 0 0 1 0); [exact Hq|lia|lia|lia]].
    rewrite Z.add_0_r.
    replace (INR (binom (1 - 1) 0) * _ ^ (1 - 1 - 0) * ((/ r) ^ Z.to_nat (sec_j1 c) * mba ^ 1)) with (mba / r ^ Z.to_nat (sec_j1 c)).
    - assert (Hpj : 0 < r ^ Z.to_nat (sec_j1 c)) by (apply pow_lt, Hr).
      assert (1 <= mba / r ^ Z.to_nat (sec_j1 c)).
      { apply (Rmult_le_reg_r (r ^ Z.to_nat (sec_j1 c))); [exact Hpj|].
        replace (mba / r ^ Z.to_nat (sec_j1 c) * r ^ Z.to_nat (sec_j1 c)) with mba by (field; lra). lra. }
      pose proof (Hup (mba / r ^ Z.to_nat (sec_j1 c)) ltac:(lra)). lra.
    - cbn [Nat.sub binom pow INR]. rewrite pow_inv. field. apply pow_nonzero. lra. }
  unfold intprec, extraprec_tree. set (M := mag_constants_tree up x es c) in *.
  assert (0 <= lg M).
  { assert (0 <= log2 M); [|pose proof (Hlg M ltac:(lra)); lra]. unfold log2. apply Rmult_le_pos.
    - rewrite <- ln_1. destruct Hbig as [H|<-]; [left; apply ln_increasing; lra|lra].
    - left. apply Rinv_0_lt_compat. pose proof ln_lt_2. lra. }
  pose proof (trunc_nonneg (lg M) H). lia.
Qed.

(** ** when it is not even positive *)
Lemma log2_mono a b : 0 < a -> a <= b -> log2 a <= log2 b.
Proof.
  intros Ha [H| ->]; [|lra]. unfold log2. apply Rmult_le_compat_r; [left; apply Rinv_0_lt_compat; pose proof ln_lt_2; lra|].
  left. apply ln_increasing; assumption.
Qed.
Lemma log2_two_to a : log2 (two_to a) = a.
Proof. unfold log2, two_to, Rpower. rewrite ln_exp. field. pose proof ln_lt_2. lra. Qed.

Definition three (K : R) : list C := [RtoC 0; RtoC K; RtoC (- K)].
Lemma three_dist K a b : 0 < K -> (a < 3)%nat -> (b < 3)%nat -> vget (three K) a <> vget (three K) b ->
  K <= Cmod (vget (three K) b - vget (three K) a)%C.
Proof.
  intros HK Ha Hb Hab.
  do 3 (try destruct a as [|a]); do 3 (try destruct b as [|b]); try lia; cbn [vget nth three] in *; try contradiction;
    rewrite <- RtoC_minus, Cmod_R; unfold Rabs; destruct (Rcase_abs _); lra.
Qed.
Definition c23 : sec := {| sec_m := 2; sec_n := 3; sec_delta := 1; sec_g := 1; sec_j1 := 1; sec_nj := 1; sec_ni := [1%Z] |}.

Lemma edge_small K s e : two_to (2 * s) <= K -> (ea e < 3)%nat -> (eb e < 3)%nat -> vget (three K) (ea e) <> vget (three K) (eb e) ->
  0 < mag_constants_edge (fun r => r) (three K) e c23 <= two_to (/ 2 - s).
Proof.
  intros HK Ha Hb Hab. pose proof (two_to_pos (2 * s)) as Hs.
  pose proof (three_dist K (ea e) (eb e) ltac:(lra) Ha Hb Hab) as Hd.
  pose proof (mba_pos (three K) e Hab) as Hp. cbv zeta in Hp.
  unfold mag_constants_edge. cbv zeta. set (mba := Cmod (vget (three K) (eb e) - vget (three K) (ea e))%C / 2) in *.
  cbn [sec_ni c23 sec_j1 sec_m sec_n constants_j]. change (Z.to_nat 1) with 1%nat. change (Z.to_nat 3) with 3%nat.
  cbn [constants_i constants_l Nat.sub binom INR].
  set (r := rroot 2 (mba ^ 3)).
  assert (Hr : 0 < r) by (apply rroot_pos, pow_lt, Hp).
  assert (Hr2 : r ^ 2 = mba ^ 3) by (apply (rroot_pow 2); [lia|left; apply pow_lt, Hp]).
  cbn [pow].
  assert (Hv : 0 < mba / r) by (apply Rdiv_lt_0_compat; assumption).
  replace (1 * 1 * (/ r * 1 * mba)) with (mba / r) by (field; lra).
 rewrite Rmax_right by lra. split; [exact Hv|].
  apply (pow_le_inv 2); [lia|lra|left; apply two_to_pos|].
  replace ((mba / r) ^ 2) with (mba ^ 2 / r ^ 2) by (field; lra). rewrite Hr2.
  replace (mba ^ 2 / mba ^ 3) with (/ mba) by (field; lra).
  assert (E : two_to (/ 2 - s) ^ 2 * (two_to (2 * s) / 2) = 1).
  { cbn [pow]. rewrite Rmult_1_r, <- two_to_plus. unfold Rdiv. rewrite <- Rmult_assoc, <- two_to_plus.
    replace (/ 2 - s + (/ 2 - s) + 2 * s) with 1 by field. unfold two_to. rewrite Rpower_1 by lra. field. }
  assert (Hm : two_to (2 * s) / 2 <= mba) by (unfold mba; lra).
  apply (Rmult_le_reg_r mba); [exact Hp|]. rewrite Rinv_l by lra. rewrite <- E.
  apply Rmult_le_compat_l; [|exact Hm]. apply pow_le. left. apply two_to_pos.
Qed.

Lemma IZR_pow_4 k : IZR (4 ^ Z.of_nat k) = two_to (2 * INR k).
Proof.
  unfold two_to. replace (2 * INR k) with (INR (2 * k)) by (rewrite mult_INR; cbn; ring).
  rewrite Rpower_pow by lra. rewrite pow_mult, <- pow_IZR. f_equal. ring.
Qed.

Lemma large_roots_final prec : (0 <= prec)%Z -> exists p x c t,
  aj_init 2 p true = Done (c, t) /\ distinct x /\ (forall z, poly_at x z = poly_value p z) /\
  forall es, edges_of x es -> es <> [] -> (cstprec (fun r => r) log2 prec x es c <= 0)%Z.
Proof.
  intros Hprec. set (k := Z.to_nat (prec + 12)). set (K := (4 ^ Z.of_nat k)%Z).
  assert (HK : IZR K = two_to (2 * INR k)) by apply IZR_pow_4. pose proof (two_to_pos (2 * INR k)) as Hpos.
  exists [0; - (K * K); 0; 1]%Z, (three (IZR K)), c23, 2%Z. conj.
  - reflexivity.
  - unfold distinct, three. repeat constructor; cbn [In]; intros H; repeat (destruct H as [H|H]); try contradiction; injection H; lra.
  - intros z. unfold poly_at, three. cbn [cprod poly_value fold_right]. unfold ZC.
    rewrite opp_IZR, mult_IZR, !RtoC_opp, !RtoC_mult. ring.
  - intros es Hes Hne.
    assert (HM : 0 < mag_constants_tree (fun r => r) (three (IZR K)) es c23 <= two_to (/ 2 - INR k)).
    { split.
      - destruct es as [|e es]; [contradiction|]. destruct (Hes e (or_introl eq_refl)) as (Ha & Hb & Hab).
        eapply Rlt_le_trans; [apply (edge_small (IZR K) (INR k) e ltac:(lra) Ha Hb Hab)|apply tree_ge; left; reflexivity].
      - apply tree_le; [left; apply two_to_pos|]. intros e He. destruct (Hes e He) as (Ha & Hb & Hab).
        apply (edge_small (IZR K) (INR k) e ltac:(lra) Ha Hb Hab). }
    unfold cstprec, intprec, extraprec_tree. set (M := mag_constants_tree _ _ _ _) in *.
    assert (HL : log2 M <= / 2 - INR k) by (rewrite <- (log2_two_to (/ 2 - INR k)); apply log2_mono; apply HM).
    assert (Hk : INR k = IZR prec + 12) by (rewrite INR_IZR_INZ; unfold k; rewrite Z2Nat.id by lia; rewrite plus_IZR; reflexivity).
    assert (Hp0 : 0 <= IZR prec) by (apply IZR_le in Hprec; exact Hprec).
    pose proof (trunc_neg (log2 M) ltac:(lra)) as HT.
    assert (IZR (trunc (log2 M)) < IZR (- prec - 10)) as H1 by (rewrite minus_IZR, opp_IZR; lra). apply lt_IZR in H1. lia.
Qed.
