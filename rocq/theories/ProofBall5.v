(** Intersections on balls. *)
From Coq Require Import Reals Lra Lia.
From Verif Require Import CArg ModelTree SpecTree ModelCurve ModelBasis ModelPeriod ModelVec ModelCache ModelInter SpecInter ModelEdge SpecEdge ProofEdge ProofInter ProofAngle ModelTurn SpecTurn ProofTurn
  SpecExtra ModelBall SpecBall ProofBall1 ProofBall2 ProofBall4.
Local Open Scope R_scope.

(** ** the loops *)
Lemma fill_block_mod c i j sp sm sp' sm' m : (0 < m)%Z -> (sp mod m = sp' mod m)%Z -> (sm mod m = sm' mod m)%Z ->
  fill_block c i j sp sm m = fill_block c i j sp' sm' m.
Proof. intros Hm E1 E2. unfold fill_block. rewrite !positive_rem_mod by exact Hm. now rewrite E1, E2. Qed.
Lemma sim_eq_refl {ab : Prop} {X} (o : outcome X) : simu ab eq o o.
Proof. destruct o; cbn; auto. Qed.
Section Loops.
Context (ab : Prop).
Local Notation sim := (simu ab).
Context (sh sh' : nat -> nat -> incidence -> outcome Z) (ng ng' : nat -> nat -> bool) (m : Z).
Lemma row_blocks_sim k ek : forall rest l c, 
  (forall q c, (q < length rest)%nat -> sim eq (pair_block sh ng c k (l + q) ek (nth q rest no_edge) m) (pair_block sh' ng' c k (l + q) ek (nth q rest no_edge) m)) ->
  sim eq (row_blocks sh ng c k l ek rest m) (row_blocks sh' ng' c k l ek rest m).
Proof.
  induction rest as [|e rest IH]; intros l c H; cbn [row_blocks]; [reflexivity|].
  eapply sim_bind.
  - assert (G := H 0%nat c ltac:(cbn; lia)). rewrite Nat.add_0_r in G. exact G.
  - intros b x ->. apply IH. intros q c' Hq. assert (G := H (S q) c' ltac:(cbn; lia)). replace (l + S q)%nat with (S l + q)%nat in G by lia. exact G.
Qed.
Lemma tree_blocks_sim : forall es k c,
  (forall a b c, (a < b < length es)%nat -> sim eq (pair_block sh ng c (k + a) (k + b) (nth a es no_edge) (nth b es no_edge) m)
                                             (pair_block sh' ng' c (k + a) (k + b) (nth a es no_edge) (nth b es no_edge) m)) ->
  sim eq (tree_blocks sh ng c k es m) (tree_blocks sh' ng' c k es m).
Proof.
  induction es as [|e es IH]; intros k c H; cbn [tree_blocks]; [reflexivity|].
  eapply sim_bind; [apply sim_eq_refl|]. intros b x ->. eapply sim_bind.
  - apply row_blocks_sim. intros q c' Hq. assert (G := H 0%nat (S q) c' ltac:(cbn; lia)). cbn [nth] in G.
    rewrite Nat.add_0_r in G. replace (k + S q)%nat with (S k + q)%nat in G by lia. exact G.
  - intros b x' ->. apply IH. intros a b0 c' Hab. assert (G := H (S a) (S b0) c' ltac:(cbn; lia)). cbn [nth] in G.
    replace (k + S a)%nat with (S k + a)%nat in G by lia. replace (k + S b0)%nat with (S k + b0)%nat in G by lia. exact G.
Qed.
Lemma intersection_sim es :
  (forall a b c, (a < b < length es)%nat -> sim eq (pair_block sh ng c a b (nth a es no_edge) (nth b es no_edge) m) (pair_block sh' ng' c a b (nth a es no_edge) (nth b es no_edge) m)) ->
  sim eq (intersection_tree sh ng es m) (intersection_tree sh' ng' es m).
Proof. intro H. unfold intersection_tree. apply tree_blocks_sim. exact H. Qed.
End Loops.

Section Sound.
Variable A : arith.
Variable mem : ball A -> C -> Prop.
Hypothesis S : sound A mem.
Notation mv := (Forall2 mem).
Local Notation sim := (simu (undecided A mem)).
Variable p : Z.

(** the argument of a number on the left *)
Lemma carg_left (t : C) : fst t <= 0 -> t <> RtoC 0 ->
  (0 <= carg (- t)%C <-> snd t <= 0) /\
  (carg t = if Rle_dec 0 (carg (- t)%C) then (if Req_EM_T (snd t) 0 then PI else carg (- t)%C - PI) else carg (- t)%C + PI).
Proof.
  intros Hl Hz. assert (Hm : 0 < Cmod t) by now apply Cmod_gt_0. pose proof PI_RGT_0 as Hpi.
  assert (Hzo : (- t)%C <> RtoC 0) by (intro E; apply Hz; transitivity (- - t)%C; [ring|rewrite E; ring]).
  assert (Hr : - (PI / 2) <= carg (- t)%C <= PI / 2).
  { apply ProofBall2.carg_right; [exact Hzo|]. destruct t as [tx ty]. cbn in *. lra. }
  assert (Hpol := carg_polar (- t)%C). rewrite Cmod_opp in Hpol.
  assert (Hm1 : forall th, cis (th + PI) = (- cis th)%C) by (intro th; rewrite cis_add, cis_PI, m1; ring).
  assert (Hm2 : forall th, cis (th - PI) = (- cis th)%C).
  { intro th. replace th with (th - PI + PI) at 2 by ring. rewrite Hm1. ring. }
  assert (Ht : t = (RtoC (Cmod t) * - cis (carg (- t)))%C) by (transitivity (- - t)%C; [ring|rewrite Hpol at 1; ring]).
  destruct (re_im (- t)%C) as [Er Ei]. rewrite Cmod_opp in Er, Ei.
  assert (Es : snd (- t)%C = - snd t) by (destruct t; reflexivity). rewrite Es in Ei.
  assert (Ef : fst (- t)%C = - fst t) by (destruct t; reflexivity). rewrite Ef in Er.
  assert (HA : 0 <= carg (- t)%C -> snd t <= 0).
  { intro H. assert (0 <= sin (carg (- t)%C)) by (apply sin_ge_0; lra). nra. }
  assert (HB : carg (- t)%C < 0 -> 0 < snd t).
  { intro H. assert (sin (carg (- t)%C) < 0) by (apply sin_lt_0_var; lra). nra. }
  split.
  { split; [exact HA|]. intro H. destruct (Rle_lt_dec 0 (carg (- t)%C)) as [|H']; [assumption|]. specialize (HB H'). lra. }
  destruct (Rle_dec 0 (carg (- t)%C)) as [H|H].
  - destruct (Req_EM_T (snd t) 0) as [E|E].
    + destruct t as [tx ty]. cbn [fst snd] in *. subst ty. apply carg_negative. destruct Hl as [Hl|Hl]; [exact Hl|]. exfalso. apply Hz. now rewrite Hl.
    + assert (H0 : 0 < carg (- t)%C). { destruct H as [H|H]; [exact H|]. exfalso. rewrite <- H, sin_0 in Ei. lra. }
      apply (carg_unique _ (Cmod t)); [exact Hm|lra|]. now rewrite Hm2.
  - apply (carg_unique _ (Cmod t)); [exact Hm|lra|]. now rewrite Hm1.
Qed.

(** the angle in the ball is the exact one, or one turn more when the number is on the left and not above the axis *)
Definition turn_more (T : ball A) (t : C) (dt : Z) : Prop :=
  (dt = 0%Z /\ (b_re_nonpos A T = true -> b_re_nonneg A (b_arg A p (b_neg A T)) = if Rle_dec (snd t) 0 then true else false)) \/
  (dt = 1%Z /\ fst t <= 0 /\ snd t <= 0 /\ (if b_re_nonpos A T then b_re_nonneg A (b_arg A p (b_neg A T)) = false else snd t = 0)).
Lemma angle_sim AB ab CD cd : mem AB ab -> mem CD cd -> ab <> RtoC 0 -> cd <> RtoC 0 ->
  let T := b_div A p AB CD in let t := (ab / cd)%C in
  sim (fun W th => exists dt : Z, mem W (RtoC (th + IZR dt)) /\ turn_more T t dt) (b_angle A p AB CD) (angle ab cd).
Proof using S.
  intros HA HC Ha Hc T t. assert (HT : mem T t) by now apply (s_div A mem S).
  assert (Ht : t <> RtoC 0).
  { intro E. apply Ha. transitivity (t * cd)%C; [unfold t; field; exact Hc|]. rewrite E. ring. }
  unfold b_angle, angle. fold T t. destruct (Req_EM_T (Cmod cd) 0) as [E|_]; [apply Cmod_eq_0 in E; contradiction|].
  destruct (b_finite A T) eqn:Ef; [|apply sim_ab; right; left; exists p, AB, CD, ab, cd; auto]. cbn [negb simu]. pose proof PI_RGT_0 as Hpi.
  assert (Hout : forall W rho, mem W (RtoC rho) -> mem (b_2exp A (b_div A p W (b_pi A p)) (-1)) (RtoC (rho / PI / 2))).
  { intros W rho HW. replace (RtoC (rho / PI / 2)) with (RtoC rho / RtoC PI * RtoC (powerRZ 2 (-1)))%C.
    - apply (s_2exp A mem S), (s_div A mem S); [exact HW|apply (s_pi A mem S)].
    - rewrite powm1. rewrite <- RtoC_div by lra. rewrite <- RtoC_mult. reflexivity. }
  assert (Hneg : mem (b_arg A p (b_neg A T)) (RtoC (carg (- t)%C))) by now apply (s_arg A mem S), (s_neg A mem S).
  unfold turn_more. destruct (b_re_nonpos A T) eqn:En.
  - assert (Hl := s_re_nonpos A mem S T t En HT). destruct (Rle_dec (fst t) 0) as [_|]; [|contradiction].
    destruct (carg_left t Hl Ht) as (L1 & _).
    destruct (b_re_nonneg A (b_arg A p (b_neg A T))) eqn:Er.
    + assert (H0 := s_re_nonneg A mem S _ _ Er Hneg). cbn in H0. destruct (Rle_dec 0 (carg (- t)%C)) as [_|]; [|contradiction].
      exists 0%Z. split; [|left; split; [reflexivity|]; intros _; destruct (Rle_dec (snd t) 0); [reflexivity|tauto]].
      rewrite Rplus_0_r. apply Hout. rewrite RtoC_minus. apply (s_sub A mem S); [exact Hneg|apply (s_pi A mem S)].
    + assert (HW : mem (b_add A p (b_arg A p (b_neg A T)) (b_pi A p)) (RtoC (carg (- t)%C + PI))).
      { rewrite RtoC_plus. apply (s_add A mem S); [exact Hneg|apply (s_pi A mem S)]. }
      destruct (Rle_dec 0 (carg (- t)%C)) as [H0|H0].
      * exists 1%Z. split; [|right; tauto].
        replace ((carg (- t)%C - PI) / PI / 2 + IZR 1) with ((carg (- t)%C + PI) / PI / 2) by (field; lra). now apply Hout.
      * exists 0%Z. split; [|left; split; [reflexivity|]; intros _; destruct (Rle_dec (snd t) 0); [tauto|reflexivity]].
        rewrite Rplus_0_r. now apply Hout.
  - assert (HW : mem (b_arg A p T) (RtoC (carg t))) by now apply (s_arg A mem S).
    assert (H00 : forall x, mem (b_2exp A (b_div A p (b_arg A p T) (b_pi A p)) (-1)) (RtoC x) -> exists dt : Z,
      mem (b_2exp A (b_div A p (b_arg A p T) (b_pi A p)) (-1)) (RtoC (x + IZR dt)) /\
      (dt = 0%Z /\ (false = true -> b_re_nonneg A (b_arg A p (b_neg A T)) = if Rle_dec (snd t) 0 then true else false) \/
       dt = 1%Z /\ fst t <= 0 /\ snd t <= 0 /\ snd t = 0)).
    { intros x H. exists 0%Z. rewrite Rplus_0_r. split; [exact H|]. left. split; [reflexivity|discriminate]. }
    destruct (Rle_dec (fst t) 0) as [Hl|Hl]; [|now apply H00, Hout].
    destruct (carg_left t Hl Ht) as (L1 & L3). destruct (Rle_dec 0 (carg (- t)%C)) as [H0|H0]; [|rewrite <- L3; now apply H00, Hout].
    destruct (Req_EM_T (snd t) 0) as [Es|Es]; [|rewrite <- L3; now apply H00, Hout].
    exists 1%Z. split; [|right; split; [reflexivity|]; split; [exact Hl|]; split; [lra|exact Es]].
    assert (Er : carg (- t)%C = 0).
    { destruct (re_im (- t)%C) as [_ Ei]. rewrite Cmod_opp in Ei. assert (Hm : 0 < Cmod t) by now apply Cmod_gt_0.
      assert (Hzo : (- t)%C <> RtoC 0) by (intro E; apply Ht; transitivity (- - t)%C; [ring|rewrite E; ring]).
      assert (Hr : - (PI / 2) <= carg (- t)%C <= PI / 2) by (apply ProofBall2.carg_right; [exact Hzo|]; destruct t; cbn in *; lra).
      destruct H0 as [H0|H0]; [|now symmetry]. exfalso. assert (0 < sin (carg (- t)%C)) by (apply sin_gt_0; lra).
      assert (Es' : snd (- t)%C = - snd t) by (destruct t; reflexivity). nra. }
    replace ((carg (- t)%C - PI) / PI / 2 + IZR 1) with (carg t / PI / 2); [now apply Hout|]. rewrite L3, Er. field. lra.
Qed.

Section Pair.
Variables (YK YL : b_ydata A) (yk yl : ydata) (m : nat).
Hypothesis HK : ydata_mem A mem YK yk.
Hypothesis HL : ydata_mem A mem YL yl.
Hypothesis Hm : (0 < m)%nat.
Hypothesis Hk0 : y_ba2 yk <> RtoC 0.
Hypothesis Hl0 : y_ba2 yl <> RtoC 0.
Hypothesis Hla : y_ya yl <> RtoC 0.
Let T := b_div A p (by_ba2 A YK) (by_ba2 A YL).
Let t := (y_ba2 yk / y_ba2 yl)%C.

Lemma shift_sim i : (match i with ABAD => y_ya yk | ABBD => y_yb yk end) <> RtoC 0 ->
  (exists s, shift_number yk yl (Z.of_nat m) i = Done s) ->
  sim (fun s' s => exists dr dp : Z, s' = (s + dr + Z.of_nat m * dp)%Z /\ turn_more T t dr)
    (b_shift_number A p YK YL (Z.of_nat m) i) (shift_number yk yl (Z.of_nat m) i).
Proof using S HK HL Hm Hk0 Hl0 Hla.
  intros He (s0 & Es0). destruct HK as (_ & _ & K1 & _ & _ & K2 & K3). destruct HL as (_ & _ & L1 & _ & _ & L2 & L3).
  assert (Hend : mem (match i with ABAD => by_ya A YK | ABBD => by_yb A YK end) (match i with ABAD => y_ya yk | ABBD => y_yb yk end)) by (destruct i; assumption).
  unfold b_shift_number, shift_number in *.
  assert (S1 := angle_sim _ _ _ _ K1 L1 Hk0 Hl0). assert (S2 := angle_sim _ _ _ _ L2 Hend Hla He).
  cbv zeta in S1, S2. fold T t in S1.
  destruct (angle (y_ba2 yk) (y_ba2 yl)) as [rho| | |]; cbn [bind] in *; try discriminate.
  destruct (angle (y_ya yl) _) as [psi| | |] in *; cbn [bind] in *; try discriminate.
  destruct (b_angle A p (by_ba2 A YK) (by_ba2 A YL)) as [R1| | |]; cbn [simu bind] in *; try tauto; try (rewrite Es0; assumption).
  destruct (b_angle A p (by_ya A YL) _) as [P1| | |]; cbn [simu bind] in *; try tauto; try (rewrite Es0; assumption).
  destruct S1 as (dr & M1 & Hdr). destruct S2 as (dp & M2 & _). rewrite Es0.
  assert (Hv := get_si_done _ _ Es0).
  set (e := match i with ABAD => 0 | ABBD => / 2 end).
  assert (Hsum : rho + psi * IZR (Z.of_nat m) + e = IZR s0) by (unfold e; destruct i; rewrite <- Hv; field).
  unfold b_get_si. match goal with |- sim _ (match b_unique A ?B with _ => _ end) _ => assert (HB : mem B (RtoC (IZR (s0 + dr + Z.of_nat m * dp)))) end.
  { assert (M3 : mem (b_add A p R1 (b_mul_int A p P1 (Z.of_nat m))) (RtoC (rho + IZR dr + (psi + IZR dp) * IZR (Z.of_nat m)))).
    { rewrite (RtoC_plus (rho + IZR dr)), (RtoC_mult (psi + IZR dp)). apply (s_add A mem S); [exact M1|]. now apply (s_mul_int A mem S). }
    assert (Ev : IZR (s0 + dr + Z.of_nat m * dp) = rho + IZR dr + (psi + IZR dp) * IZR (Z.of_nat m) + e).
    { rewrite !plus_IZR, mult_IZR, <- Hsum. ring. }
    rewrite Ev. unfold e. destruct i.
    - rewrite Rplus_0_r. exact M3.
    - rewrite (RtoC_plus _ (/ 2)). apply (s_add A mem S); [exact M3|].
      replace (RtoC (/ 2)) with (RtoC 1 * RtoC (powerRZ 2 (-1)))%C; [apply (s_2exp A mem S), (one_mem A mem S)|rewrite powm1; ring]. }
  destruct (b_unique A _) as [s'|] eqn:Eu; [|right; right; eexists _, _; split; [exact HB|exact Eu]]. cbn [simu].
  exists dr, dp. split; [|exact Hdr]. symmetry. exact (s_unique A mem S _ _ _ Eu HB).
Qed.

Lemma T_mem : mem T t.
Proof using S HK HL. destruct HK as (_ & _ & K1 & _). destruct HL as (_ & _ & L1 & _). now apply (s_div A mem S). Qed.
Lemma t_neq : t <> RtoC 0.
Proof using Hk0 Hl0. intro E. apply Hk0. transitivity (t * y_ba2 yl)%C; [unfold t; field; exact Hl0|]. rewrite E. ring. Qed.
Lemma im_known : b_im_has0 A T = false -> b_im_nonpos A T = (if Rle_dec (snd t) 0 then true else false) /\ snd t <> 0.
Proof using S HK HL.
  intro E. assert (HT := T_mem). destruct (s_im_sgn A mem S T t E HT) as [[_ Hs]|(_ & Hs & E2)].
  - split; [|lra]. destruct (Rle_dec (snd t) 0); [lra|]. destruct (b_im_nonpos A T) eqn:Ei; [|reflexivity]. assert (G := s_im_nonpos A mem S T t Ei HT). lra.
  - split; [|lra]. destruct (Rle_dec (snd t) 0); [exact E2|lra].
Qed.

(** same starting point *)
Lemma abad_clear dr : direction_clear A p ABAD T -> turn_more T t dr ->
  (dr = 0%Z /\ b_is_neg_abad A p (by_ba2 A YK) (by_ba2 A YL) = is_neg_abad (y_ba2 yk) (y_ba2 yl)) \/
  (dr = 1%Z /\ b_is_neg_abad A p (by_ba2 A YK) (by_ba2 A YL) = false /\ is_neg_abad (y_ba2 yk) (y_ba2 yl) = true).
Proof using S HK HL.
  intros Hc H. cbn [direction_clear] in Hc. unfold is_neg_abad, b_is_neg_abad. fold t. fold T. unfold turn_more in H.
  destruct (b_re_nonpos A T) eqn:En.
  - destruct H as [[-> H]|(-> & H1 & H2 & H3)].
    + left. split; [reflexivity|]. rewrite <- Hc. now apply H.
    + right. split; [reflexivity|]. split; [congruence|]. destruct (Rle_dec (snd t) 0); [reflexivity|contradiction].
  - destruct (im_known Hc) as [K1 K2]. destruct H as [[-> _]|(_ & _ & _ & H)]; [|contradiction]. left. split; [reflexivity|exact K1].
Qed.
(** end point of one, starting point of the other *)
Lemma abbd_clear dr : direction_clear A p ABBD T -> turn_more T t dr -> dr = 0%Z.
Proof using S HK HL Hk0 Hl0.
  intros Hc H. cbn [direction_clear] in Hc. unfold turn_more in H. destruct H as [[-> _]|(-> & H1 & H2 & H3)]; [reflexivity|exfalso].
  destruct (b_re_nonpos A T) eqn:En.
  - destruct Hc as [Hc1 Hc2]. destruct (im_known Hc1) as [K1 _]. rewrite H3 in Hc2. rewrite <- Hc2 in K1. destruct (Rle_dec (snd t) 0); [discriminate|contradiction].
  - destruct Hc as [Hc|Hc].
    + assert (G := s_re_nonneg A mem S T t Hc T_mem). apply t_neq. rewrite (surjective_pairing t), H3. replace (fst t) with 0 by lra. reflexivity.
    + now destruct (im_known Hc).
Qed.
End Pair.

Lemma no_ydata_mem : ydata_mem A mem (b_no_ydata A) no_ydata.
Proof using S. unfold ydata_mem, b_no_ydata, no_ydata. cbn. pose proof (s_zero A mem S). conj; try assumption; try reflexivity. constructor. Qed.
(** the whole matrix *)
Lemma b_intersection_sim nonpos neg x (m : nat) es Ys ys : distinct x -> (2 <= m)%nat ->
  (forall e, In e es -> (ea e < length x)%nat /\ (eb e < length x)%nat /\ ea e <> eb e) ->
  tree_ydata nonpos neg x (Z.of_nat m) es = Done ys -> Forall2 (ydata_mem A mem) Ys ys -> directions_clear A p Ys es ->
  sim eq (b_intersection A p Ys es (Z.of_nat m)) (intersection_of_data ys es (Z.of_nat m)).
Proof using S.
  intros Hd Hm He Ey HY Hc. destruct (tree_ydata_done nonpos neg x m es Hd ltac:(lia) He) as (ys' & E' & Hl & Hn).
  rewrite Ey in E'. injection E' as <-.
  unfold b_intersection, intersection_of_data. apply intersection_sim. intros k l c Hkl.
  assert (Ik : In (nth k es no_edge) es) by (apply nth_In; lia). assert (Il : In (nth l es no_edge) es) by (apply nth_In; lia).
  destruct (He _ Ik) as (Ka & Kb & Kab). destruct (He _ Il) as (La & Lb & Lab).
  pose proof (Hn k ltac:(lia)) as Yk. pose proof (Hn l ltac:(lia)) as Yl. destruct (Hc k l Hkl) as [Hc1 Hc2]. cbv zeta in Hc1, Hc2.
  destruct (ends_pow x m Hd ltac:(lia) _ _ _ _ _ Ka Kb Kab Yk) as (_ & _ & _ & Nk & Nya & Nyb).
  destruct (ends_pow x m Hd ltac:(lia) _ _ _ _ _ La Lb Lab Yl) as (_ & _ & _ & Nl & Nla & _).
  assert (Hnk : ydata_mem A mem (nth k Ys (b_no_ydata A)) (nth k ys no_ydata)) by (apply Forall2_nth; [exact HY|apply no_ydata_mem]).
  assert (Hnl : ydata_mem A mem (nth l Ys (b_no_ydata A)) (nth l ys no_ydata)) by (apply Forall2_nth; [exact HY|apply no_ydata_mem]).
  unfold pair_block. destruct (negb _ && negb _)%bool; [reflexivity|].
  destruct (Nat.eqb_spec (ea (nth l es no_edge)) (ea (nth k es no_edge))) as [E|E].
  - eapply sim_bind.
    + apply (shift_sim _ _ _ _ m Hnk Hnl ltac:(lia) Nk Nl Nla ABAD Nya).
      destruct (shift_spec (nth k ys no_ydata) (nth l ys no_ydata) m ABAD ltac:(lia) Nl Nya) as (s & rho & Es & _); [|exists s; exact Es].
      rewrite Rmult_0_r, cis_0, Cmult_1_l. rewrite E in Yl, Lab, La. apply (same_start x m Hd ltac:(lia) _ _ _ _ _ _ _ _ _ Ka Kb Lb Kab Lab Yk Yl).
    + intros s' s (dr & dp & -> & Ht). destruct (abad_clear _ _ _ _ Hnk Hnl dr (Hc1 E) Ht) as [[-> Eb]|(-> & Eb & Ee)]; rewrite Eb.
      * destruct (is_neg_abad _ _).
        -- rewrite (fill_block_mod c _ _ _ _ (- s) (-1 - s)); [apply sim_eq_refl|lia| |].
           ++ rewrite <- (Z_mod_plus_full (- s) (- dp)). f_equal. ring.
           ++ rewrite <- (Z_mod_plus_full (-1 - s) (- dp)). f_equal. ring.
        -- rewrite (fill_block_mod c _ _ _ _ (1 - s) (- s)); [apply sim_eq_refl|lia| |].
           ++ rewrite <- (Z_mod_plus_full (1 - s) (- dp)). f_equal. ring.
           ++ rewrite <- (Z_mod_plus_full (- s) (- dp)). f_equal. ring.
      * rewrite Ee. rewrite (fill_block_mod c _ _ _ _ (- s) (-1 - s)); [apply sim_eq_refl|lia| |].
        -- rewrite <- (Z_mod_plus_full (- s) (- dp)). f_equal. ring.
        -- rewrite <- (Z_mod_plus_full (-1 - s) (- dp)). f_equal. ring.
  - destruct (Nat.eqb_spec (ea (nth l es no_edge)) (eb (nth k es no_edge))) as [E'|E']; [|exact I].
    eapply sim_bind.
    + apply (shift_sim _ _ _ _ m Hnk Hnl ltac:(lia) Nk Nl Nla ABBD Nyb).
      destruct (shift_spec (nth k ys no_ydata) (nth l ys no_ydata) m ABBD ltac:(lia) Nl Nyb) as (s & rho & Es & _); [|exists s; exact Es].
      replace (2 * PI * / 2)%R with PI by field. rewrite cis_PI, m1.
      rewrite E' in Yl, Lab, La. rewrite (end_to_start x m Hd ltac:(lia) _ _ _ _ _ _ _ _ _ Ka Kb Lb Kab Lab Yk Yl). ring.
    + intros s' s (dr & dp & -> & Ht). rewrite (abbd_clear _ _ _ _ Hnk Hnl Nk Nl dr (Hc2 E') Ht).
      rewrite (fill_block_mod c _ _ _ _ (- s) (1 - s)); [apply sim_eq_refl|lia| |].
      * rewrite <- (Z_mod_plus_full (- s) (- dp)). f_equal. ring.
      * rewrite <- (Z_mod_plus_full (1 - s) (- dp)). f_equal. ring.
Qed.
End Sound.
