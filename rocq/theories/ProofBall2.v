(** Products of roots on balls. *)
From Coq Require Import Reals Lra Lia.
From Verif Require Import CArg ModelTree ModelCurve ModelBasis ModelPeriod ModelVec ModelCache ModelTurn SpecTurn ProofTurn ModelBall SpecBall ProofBall1.
Local Open Scope R_scope.

Section Sound.
Variable A : arith.
Variable mem : ball A -> C -> Prop.
Hypothesis S : sound A mem.
Notation mv := (Forall2 mem).
Context {why : Prop}.
Local Notation sim := (simu why).
Variable p : Z.

Definition bfac (U : list (ball A)) (d1 : nat) (X : ball A) (k : nat) : ball A :=
  let t := b_sub A p (nth k U (b_zero A)) X in if (d1 <=? k)%nat then b_neg A t else t.
Lemma bfac_mem U u d1 X x k : mv U u -> mem X (RtoC x) -> mem (bfac U d1 X k) (fac u d1 x k).
Proof using S.
  intros HU HX. unfold bfac, fac. pose proof (mget A mem S U u k HU) as H. apply (s_sub A mem S p _ _ _ _ H) in HX.
  destruct (Nat.leb_spec d1 k), (Nat.ltb_spec k d1); try lia; [|exact HX].
  apply (s_neg A mem S) in HX. unfold vget in HX. replace (RtoC x - nth k u (RtoC 0))%C with (- (nth k u (RtoC 0) - RtoC x))%C by ring. exact HX.
Qed.
Lemma b_factor_at_ok U d1 k X : (k < length U)%nat -> b_factor_at A p U d1 k X = Done (bfac U d1 X k).
Proof. intros H. unfold b_factor_at, bread. destruct (Nat.ltb_spec k (length U)); [|lia]. reflexivity. Qed.

Section Point.
Variables (U : list (ball A)) (u : list C) (d1 : nat) (X : ball A) (x : R).
Hypothesis HU : mv U u.
Hypothesis HX : mem X (RtoC x).

Lemma len_U : length U = length u.
Proof using HU. exact (Forall2_len _ _ _ HU). Qed.

(** ** def *)
Lemma b_def_loop_ok m todo : (0 < m)%Z -> forall k Y y, (k + todo <= length u)%nat -> mem Y y ->
  exists W, b_def_loop A p m U d1 X todo k Y = Done W /\ mem W (y * roots_product m (map (fac u d1 x) (seq k todo)))%C.
Proof using S HU HX.
  intro Hm. induction todo as [|todo IH]; intros k Y y Hk HY; cbn [b_def_loop seq map].
  - exists Y. split; [reflexivity|]. unfold roots_product, cprod. cbn. replace (y * RtoC 1)%C with y by ring. exact HY.
  - rewrite b_factor_at_ok by (rewrite len_U; lia). cbn [bind].
    destruct (IH (Datatypes.S k) (b_mul A p Y (b_root A p m (bfac U d1 X k))) (y * croot m (fac u d1 x k))%C ltac:(lia)) as (W & E & HW).
    { apply (s_mul A mem S); [exact HY|]. apply (s_root A mem S); [exact Hm|]. now apply bfac_mem. }
    exists W. split; [exact E|]. unfold roots_product, cprod in *. cbn [map fold_right].
    replace (y * (croot m (fac u d1 x k) * fold_right Cmult (RtoC 1) (map (croot m) (map (fac u d1 x) (seq (Datatypes.S k) todo)))))%C
      with (y * croot m (fac u d1 x k) * fold_right Cmult (RtoC 1) (map (croot m) (map (fac u d1 x) (seq (Datatypes.S k) todo))))%C by ring. exact HW.
Qed.
Lemma b_pol_def_ok m d : (0 < m)%Z -> (d <= length u)%nat -> exists W, b_pol_def A p m U d1 d X = Done W /\ mem W (roots_product m (factors u d1 d x)).
Proof using S HU HX.
  intros Hm Hd. destruct (b_def_loop_ok m d Hm 0 (b_one A) (RtoC 1) ltac:(lia) (one_mem A mem S)) as (W & E & HW).
  exists W. split; [exact E|]. replace (roots_product m (factors u d1 d x)) with (RtoC 1 * roots_product m (map (fac u d1 x) (seq 0 d)))%C; [exact HW|].
  unfold factors. change (fun k => _) with (fac u d1 x). ring.
Qed.

(** ** logarithms *)
Lemma b_log_loop_ok todo : forall k Y y, (k + todo <= length u)%nat -> mem Y y ->
  exists W, b_log_loop A p U d1 X todo k Y = Done W /\ mem W (fold_left (fun a z => a + clog z)%C (map (fac u d1 x) (seq k todo)) y).
Proof using S HU HX.
  induction todo as [|todo IH]; intros k Y y Hk HY; cbn [b_log_loop seq map fold_left]; [exists Y; split; [reflexivity|exact HY]|].
  rewrite b_factor_at_ok by (rewrite len_U; lia). cbn [bind]. apply IH; [lia|].
  apply (s_add A mem S); [exact HY|]. apply (s_log A mem S). now apply bfac_mem.
Qed.
Lemma b_pol_prod_ok m d : (0 < m)%Z -> (d <= length u)%nat -> (forall z, In z (factors u d1 d x) -> z <> RtoC 0) ->
  exists W, b_pol_prod A p m U d1 d X = Done W /\ mem W (roots_product m (factors u d1 d x)).
Proof using S HU HX.
  intros Hm Hd Hz. destruct (b_log_loop_ok d 0 (b_zero A) (RtoC 0) ltac:(lia) (s_zero A mem S)) as (W & E & HW).
  pose proof (pol_prod_ok m u d1 d x Hm Hd Hz) as E'. unfold pol_prod in E'. rewrite log_loop_ok in E' by lia. cbn [bind] in E'.
  assert (E2 : forall (a b : C), Done a = Done b -> a = b) by (intros a b H; now injection H). apply E2 in E'. clear E2.
  unfold b_pol_prod. rewrite E. cbn [bind]. eexists. split; [reflexivity|]. rewrite <- E'.
  apply (s_exp A mem S), (s_div A mem S); [exact HW|apply (s_int A mem S)].
Qed.

(** ** turns *)
Inductive side (Y : ball A) (y : C) : Z -> Prop :=
| Up : b_im_has0 A Y = false -> b_im_sgn A Y = 1%Z -> 0 < carg y < PI -> side Y y 1
| Down : b_im_has0 A Y = false -> b_im_sgn A Y = (-1)%Z -> - PI < carg y < 0 -> side Y y (-1)
| Right r : b_im_has0 A Y = true -> mem Y (RtoC r) -> 0 <= r -> - (PI / 2) <= carg y <= PI / 2 -> side Y y 1.

Lemma carg_up y : 0 < snd y -> 0 < carg y < PI.
Proof.
  intro H. assert (Hz : y <> RtoC 0) by (intros ->; cbn in H; lra). pose proof (Cmod_gt_0 y) as [Hm _]. specialize (Hm Hz).
  destruct (re_im y) as [_ E]. pose proof (carg_range y) as Hr. pose proof PI_RGT_0.
  assert (Hs : 0 < sin (carg y)) by nra.
  destruct (Rle_lt_dec (carg y) 0) as [Hn|Hn].
  - exfalso. destruct Hn as [Hn|Hn]; [|rewrite Hn, sin_0 in Hs; lra]. assert (sin (carg y) < 0) by (apply sin_lt_0_var; lra). lra.
  - split; [exact Hn|]. destruct (Rlt_le_dec (carg y) PI) as [|Hp]; [assumption|].
    assert (carg y = PI) as E' by lra. rewrite E', sin_PI in Hs. lra.
Qed.
Lemma carg_down y : snd y < 0 -> - PI < carg y < 0.
Proof.
  intro H. assert (Hz : y <> RtoC 0) by (intros ->; cbn in H; lra). pose proof (Cmod_gt_0 y) as [Hm _]. specialize (Hm Hz).
  destruct (re_im y) as [_ E]. pose proof (carg_range y) as Hr. pose proof PI_RGT_0.
  assert (Hs : sin (carg y) < 0) by nra.
  split; [lra|]. destruct (Rlt_le_dec (carg y) 0) as [|Hp]; [assumption|].
  assert (0 <= sin (carg y)) by (apply sin_ge_0; lra). lra.
Qed.
Lemma carg_right y : y <> RtoC 0 -> 0 <= fst y -> - (PI / 2) <= carg y <= PI / 2.
Proof.
  intros Hz H. pose proof (Cmod_gt_0 y) as [Hm _]. specialize (Hm Hz).
  destruct (re_im y) as [E _]. pose proof (carg_range y) as Hr. pose proof PI_RGT_0.
  assert (Hs : 0 <= cos (carg y)) by nra. split.
  - destruct (Rle_lt_dec (- (PI / 2)) (carg y)) as [|Hl]; [assumption|]. exfalso.
    assert (cos (carg y) < 0); [|lra]. rewrite <- (cos_neg (carg y)). apply cos_lt_0; lra.
  - destruct (Rle_lt_dec (carg y) (PI / 2)) as [|Hl]; [assumption|]. exfalso.
    assert (cos (carg y) < 0) by (apply cos_lt_0; lra). lra.
Qed.
Lemma b_sgn_side Y y : mem Y y -> y <> RtoC 0 -> b_sgn_imag A Y <> 0%Z -> side Y y (b_sgn_imag A Y).
Proof using S.
  intros HY Hz. unfold b_sgn_imag. destruct (b_im_has0 A Y) eqn:E0.
  - destruct (b_re_nonneg A Y) eqn:Er; [|congruence]. intros _. destruct (s_im_has0 A mem S Y y E0 HY) as [r Hr].
    apply (Right Y y r); [exact E0|exact Hr| |].
    + exact (s_re_nonneg A mem S Y _ Er Hr).
    + apply carg_right; [exact Hz|]. exact (s_re_nonneg A mem S Y _ Er HY).
  - intros _. destruct (s_im_sgn A mem S Y y E0 HY) as [[E Hs]|(E & Hs & _)]; rewrite E.
    + apply Up; [assumption..|]. now apply carg_up.
    + apply Down; [assumption..|]. now apply carg_down.
Qed.
Lemma strict_no_real Y r : b_im_has0 A Y = false -> mem Y (RtoC r) -> False.
Proof using S. intros E H. destruct (s_im_sgn A mem S Y _ E H) as [[_ Hs]|(_ & Hs & _)]; cbn in Hs; lra. Qed.
Lemma strict_up_im Y y : b_im_has0 A Y = false -> b_im_sgn A Y = 1%Z -> mem Y y -> 0 < snd y.
Proof using S. intros E E1 H. destruct (s_im_sgn A mem S Y _ E H) as [[_ Hs]|(E2 & Hs & _)]; [exact Hs|congruence]. Qed.
Lemma strict_down_im Y y : b_im_has0 A Y = false -> b_im_sgn A Y = (-1)%Z -> mem Y y -> snd y < 0.
Proof using S. intros E E1 H. destruct (s_im_sgn A mem S Y _ E H) as [[E2 Hs]|(_ & Hs & _)]; [congruence|exact Hs]. Qed.

Ltac kis v lo hi k Ek := let G := fresh in
  assert (k = v)%Z as -> by (assert (lo < k < hi)%Z as G by (apply (int_between k lo hi _ eq_refl); rewrite Ek; lra); lia); lra.
Lemma b_turn_step Y y T t : mem Y y -> mem T t -> y <> RtoC 0 -> t <> RtoC 0 ->
  b_sgn_imag A Y <> 0%Z -> b_sgn_imag A T <> 0%Z -> b_sgn_imag A (b_mul A p Y T) <> 0%Z ->
  (b_im_has0 A Y = false -> b_im_has0 A T = false -> b_im_sgn A Y = b_im_sgn A T -> b_im_has0 A (b_mul A p Y T) = false) ->
  carg y + carg t = carg (y * t)%C + 2 * PI * IZR (delta (b_sgn_imag A Y) (b_sgn_imag A T) (b_sgn_imag A (b_mul A p Y T))).
Proof using S.
  intros HY HT Hy Ht Sy St Sp Hc. pose proof PI_RGT_0 as Hpi.
  pose proof (s_mul A mem S p _ _ _ _ HY HT) as HP. pose proof (Cmult_neq_0' y t Hy Ht) as Hyt.
  destruct (carg_mult_z y t Hy Ht) as [k Hk]. assert (Ek : 2 * PI * IZR k = carg y + carg t - carg (y * t)%C) by lra.
  destruct (b_sgn_side Y y HY Hy Sy) as [Y1 Y2 Ry|Y1 Y2 Ry|r Y1 Y2 Y3 Ry];
  destruct (b_sgn_side T t HT Ht St) as [T1 T2 Rt|T1 T2 Rt|s T1 T2 T3 Rt];
  destruct (b_sgn_side _ _ HP Hyt Sp) as [P1 P2 R|P1 P2 R|w P1 P2 P3 R];
  unfold delta; cbn.
  (* up, up *)
  - kis 0%Z (-1)%Z 1%Z k Ek.
  - kis 1%Z 0%Z 2%Z k Ek.
  - exfalso. rewrite (Hc Y1 T1) in P1 by congruence. discriminate.
  (* up, down *)
  - kis 0%Z (-1)%Z 1%Z k Ek.
  - kis 0%Z (-1)%Z 1%Z k Ek.
  - kis 0%Z (-1)%Z 1%Z k Ek.
  (* up, right *)
  - kis 0%Z (-1)%Z 1%Z k Ek.
  - exfalso. pose proof (strict_down_im _ _ P1 P2 (s_mul A mem S p _ _ _ _ HY T2)) as G. pose proof (strict_up_im _ _ Y1 Y2 HY) as G'. cbn in G. nra.
  - kis 0%Z (-1)%Z 1%Z k Ek.
  (* down, up *)
  - kis 0%Z (-1)%Z 1%Z k Ek.
  - kis 0%Z (-1)%Z 1%Z k Ek.
  - kis 0%Z (-1)%Z 1%Z k Ek.
  (* down, down *)
  - kis (-1)%Z (-2)%Z 0%Z k Ek.
  - kis 0%Z (-1)%Z 1%Z k Ek.
  - exfalso. rewrite (Hc Y1 T1) in P1 by congruence. discriminate.
  (* down, right *)
  - exfalso. pose proof (strict_up_im _ _ P1 P2 (s_mul A mem S p _ _ _ _ HY T2)) as G. pose proof (strict_down_im _ _ Y1 Y2 HY) as G'. cbn in G. nra.
  - kis 0%Z (-1)%Z 1%Z k Ek.
  - kis 0%Z (-1)%Z 1%Z k Ek.
  (* right, up *)
  - kis 0%Z (-1)%Z 1%Z k Ek.
  - exfalso. pose proof (strict_down_im _ _ P1 P2 (s_mul A mem S p _ _ _ _ Y2 HT)) as G. pose proof (strict_up_im _ _ T1 T2 HT) as G'. cbn in G. nra.
  - kis 0%Z (-1)%Z 1%Z k Ek.
  (* right, down *)
  - exfalso. pose proof (strict_up_im _ _ P1 P2 (s_mul A mem S p _ _ _ _ Y2 HT)) as G. pose proof (strict_down_im _ _ T1 T2 HT) as G'. cbn in G. nra.
  - kis 0%Z (-1)%Z 1%Z k Ek.
  - kis 0%Z (-1)%Z 1%Z k Ek.
  (* right, right *)
  - exfalso. pose proof (strict_up_im _ _ P1 P2 (s_mul A mem S p _ _ _ _ Y2 T2)) as G. cbn in G. nra.
  - exfalso. pose proof (strict_down_im _ _ P1 P2 (s_mul A mem S p _ _ _ _ Y2 T2)) as G. cbn in G. nra.
  - kis 0%Z (-1)%Z 1%Z k Ek.
Qed.

Lemma b_turn_loop_ok todo : forall k Y y q, (k + todo <= length u)%nat -> mem Y y ->
  turn_clear A p Y (map (bfac U d1 X) (seq k todo)) ->
  exists r W, b_turn_loop A p U d1 X todo k Y (b_sgn_imag A Y) q = Done (r, W) /\
    let rest := map (fac u d1 x) (seq k todo) in
    (r = FAIL \/
     mem W (y * cprod rest)%C /\ b_sgn_imag A Y <> 0%Z /\
     (y <> RtoC 0 -> (forall z, In z rest -> z <> RtoC 0) -> carg y + asum rest = carg (y * cprod rest)%C + 2 * PI * IZR (r - q))).
Proof using S HU HX.
  induction todo as [|todo IH]; intros k Y y q Hk HY Hc.
  - exists q, Y. split; [reflexivity|]. right. cbn [seq map turn_clear] in *. unfold cprod. cbn [fold_right].
    replace (y * RtoC 1)%C with y by ring. split; [exact HY|]. split; [exact Hc|]. intros _ _. cbn. rewrite Z.sub_diag. ring.
  - cbn [b_turn_loop]. cbn [seq map turn_clear] in Hc. set (T := bfac U d1 X k) in *.
    destruct (Z.eqb_spec (b_sgn_imag A Y) 0) as [Sy|Sy]; [exists FAIL, Y; split; [reflexivity|left; reflexivity]|].
    rewrite b_factor_at_ok by (rewrite len_U; lia). cbn [bind]. fold T.
    destruct (Z.eqb_spec (b_sgn_imag A T) 0) as [St|St]; [exists FAIL, (b_mul A p Y T); split; [reflexivity|left; reflexivity]|].
    destruct Hc as [Hc|[Hc|[Hc1 Hc2]]]; [contradiction..|].
    assert (HT : mem T (fac u d1 x k)) by now apply bfac_mem. set (t := fac u d1 x k) in *.
    set (q1 := if (b_sgn_imag A Y =? b_sgn_imag A T)%Z && negb (b_sgn_imag A (b_mul A p Y T) =? b_sgn_imag A T)%Z
               then (if (0 <? b_sgn_imag A T)%Z then q + 1 else q - 1)%Z else q).
    assert (Eq1 : q1 = (q + delta (b_sgn_imag A Y) (b_sgn_imag A T) (b_sgn_imag A (b_mul A p Y T)))%Z).
    { unfold q1, delta. destruct (_ && _); [destruct (0 <? _)%Z|]; lia. }
    destruct (IH (Datatypes.S k) (b_mul A p Y T) (y * t)%C q1 ltac:(lia) (s_mul A mem S p _ _ _ _ HY HT) Hc2) as (r & W & E & Hor).
    exists r, W. split; [exact E|]. cbn zeta in Hor |- *. cbn [seq map]. fold t.
    destruct Hor as [Hf|(Hw & Sp & Ha)]; [left; exact Hf|right].
    assert (Ec : (y * cprod (t :: map (fac u d1 x) (seq (Datatypes.S k) todo)))%C = (y * t * cprod (map (fac u d1 x) (seq (Datatypes.S k) todo)))%C)
      by (unfold cprod; cbn [fold_right]; ring).
    rewrite Ec. split; [exact Hw|]. split; [exact Sy|]. intros Hy Hz.
    assert (Ht : t <> RtoC 0) by (apply Hz; left; reflexivity).
    pose proof (b_turn_step Y y T t HY HT Hy Ht Sy St Sp Hc1) as Hs.
    cbn [asum fold_right]. fold (asum (map (fac u d1 x) (seq (Datatypes.S k) todo))).
    assert (Ha' := Ha (Cmult_neq_0' _ _ Hy Ht) (fun z Hin => Hz z (or_intror Hin))).
    rewrite <- Rplus_assoc, Hs. rewrite Eq1 in Ha'. rewrite !minus_IZR, plus_IZR in *. lra.
Qed.

Lemma b_prod_turn_ok d : (0 < d <= length u)%nat -> turns_clear A p U d1 d X ->
  exists r W, b_prod_turn A p U d1 d X = Done (r, W) /\
    (r = FAIL \/
     mem W (cprod (factors u d1 d x)) /\
     ((forall z, In z (factors u d1 d x) -> z <> RtoC 0) -> asum (factors u d1 d x) = carg (cprod (factors u d1 d x)) + 2 * PI * IZR r)).
Proof using S HU HX.
  intros Hd Hc. unfold b_prod_turn, bread. rewrite len_U. destruct (Nat.ltb_spec 0 (length u)); [|lia]. cbn [bind].
  set (Y := if (d1 =? 0)%nat then b_neg A (b_sub A p (bget A U 0) X) else b_sub A p (bget A U 0) X).
  assert (EY : Y = bfac U d1 X 0) by (unfold Y, bfac, bget; destruct d1; reflexivity).
  assert (HY : mem Y (fac u d1 x 0)) by (rewrite EY; now apply bfac_mem).
  assert (Ef : factors u d1 d x = fac u d1 x 0 :: map (fac u d1 x) (seq 1 (d - 1))).
  { unfold factors. change (fun k => _) with (fac u d1 x). destruct d; [lia|]. cbn [seq map]. replace (Datatypes.S d - 1)%nat with d by lia. reflexivity. }
  assert (Hc' : turn_clear A p Y (map (bfac U d1 X) (seq 1 (d - 1)))).
  { unfold turns_clear, factor_balls in Hc. change (fun k => _) with (bfac U d1 X) in Hc. destruct d as [|d]; [lia|]. cbn [seq map] in Hc.
    replace (Datatypes.S d - 1)%nat with d by lia. rewrite EY. exact Hc. }
  destruct (b_turn_loop_ok (d - 1) 1 Y (fac u d1 x 0) 0 ltac:(lia) HY Hc') as (r & W & E & Hor).
  exists r, W. split; [exact E|]. rewrite Ef. destruct Hor as [Hf|(Hw & _ & Ha)]; [left; exact Hf|right].
  unfold cprod. cbn [fold_right]. fold (cprod (map (fac u d1 x) (seq 1 (d - 1)))). split; [exact Hw|].
  intro Hz. cbn [asum fold_right]. rewrite Z.sub_0_r in Ha. apply Ha; [apply Hz; left; reflexivity|]. intros z Hin. apply Hz. right. exact Hin.
Qed.

Lemma turned_root_clear m l r : (0 < m)%Z ->
  ((forall z, In z l -> z <> RtoC 0) -> asum l = carg (cprod l) + 2 * PI * IZR r) ->
  (croot m (cprod l) * root m r)%C = roots_product m l.
Proof.
  intros Hm H. assert (Hm0 : IZR m <> 0) by (apply not_0_IZR; lia). rewrite roots_product_polar. unfold croot, root.
  destruct (zero_factor_dec l) as [Hz | Hz].
  - rewrite (H Hz). rewrite <- Cmult_assoc, <- cis_add. f_equal. f_equal. field. exact Hm0.
  - rewrite Hz, Cmod_0, rroot_0. ring.
Qed.

Lemma b_pol_turn_ok m d : (0 < m)%Z -> (0 < d <= length u)%nat -> turns_clear A p U d1 d X ->
  exists W, b_pol_turn A p m U d1 d X (b_unit_roots A p m) = Done W /\ mem W (roots_product m (factors u d1 d x)).
Proof using S HU HX.
  intros Hm Hd Hc. unfold b_pol_turn. destruct (b_prod_turn_ok d Hd Hc) as (r & W & E & Hor). rewrite E. cbn [bind fst snd].
  set (l := factors u d1 d x) in *. change 2147483647%Z with FAIL.
  destruct (Z.eqb_spec r FAIL) as [F | F]; [apply b_pol_def_ok; [exact Hm|lia]|].
  destruct Hor as [Hf | [Hw Ha]]; [contradiction|]. rewrite crem_mod by exact Hm.
  pose proof (Z.mod_pos_bound r m Hm) as Hb. rewrite <- (turned_root_clear m l r Hm Ha).
  destruct (Z.eqb_spec (r mod m) 0) as [Z0 | Z0].
  - eexists. split; [reflexivity|]. rewrite <- (root_mod m r) by lia. rewrite Z0, root_0.
    replace (croot m (cprod l) * RtoC 1)%C with (croot m (cprod l)) by ring. now apply (s_root A mem S).
  - unfold bread, b_unit_roots, btab. rewrite map_length, seq_length. destruct (Nat.ltb_spec (Z.to_nat (r mod m)) (Z.to_nat m)); [|lia].
    cbn [bind]. eexists. split; [reflexivity|]. apply (s_mul A mem S); [now apply (s_root A mem S)|].
    unfold bget. rewrite (nth_indep _ _ (b_units A p m 0)) by (rewrite map_length, seq_length; lia).
    rewrite map_nth, seq_nth by lia. cbn [plus]. rewrite <- (root_mod m r) by lia.
    replace (r mod m)%Z with (Z.of_nat (Z.to_nat (r mod m))) at 2 by (apply Z2Nat.id; lia). now apply (s_units A mem S).
Qed.
Lemma b_sqrt_turn_ok d : (0 < d <= length u)%nat -> turns_clear A p U d1 d X ->
  exists W, b_sqrt_turn A p U d1 d X = Done W /\ mem W (roots_product 2 (factors u d1 d x)).
Proof using S HU HX.
  intros Hd Hc. unfold b_sqrt_turn. destruct (b_prod_turn_ok d Hd Hc) as (r & W & E & Hor). rewrite E. cbn [bind fst snd].
  set (l := factors u d1 d x) in *. change 2147483647%Z with FAIL.
  destruct (Z.eqb_spec r FAIL) as [F | F]; [apply b_pol_def_ok; lia|].
  destruct Hor as [Hf | [Hw Ha]]; [contradiction|]. eexists. split; [reflexivity|]. rewrite <- (turned_root_clear 2 l r ltac:(lia) Ha).
  assert (HR : mem (b_root A p 2 W) (croot 2 (cprod l))) by (apply (s_root A mem S); [lia|exact Hw]).
  rewrite <- (root_mod 2 r) by lia.
  destruct (Z.eqb_spec (Z.rem r 2) 0) as [R0 | R0].
  - assert ((r mod 2 = 0)%Z) as -> by (apply Z.mod_divide; [lia|]; apply Z.rem_divide; [lia|exact R0]). rewrite root_0.
    replace (croot 2 (cprod l) * RtoC 1)%C with (croot 2 (cprod l)) by ring. exact HR.
  - assert ((r mod 2 = 1)%Z) as ->.
    { pose proof (Z.mod_pos_bound r 2 ltac:(lia)). assert ((r mod 2 <> 0)%Z); [|lia].
      intros H0. apply R0. apply Z.rem_divide; [lia|]. apply Z.mod_divide; [lia|exact H0]. }
    rewrite root_2_1. replace (croot 2 (cprod l) * - RtoC 1)%C with (- croot 2 (cprod l))%C by ring. now apply (s_neg A mem S).
Qed.

(** ** any choice of evaluation *)
Lemma b_gc_root_ok rdef rturn d : (0 < d <= length u)%nat -> (rdef = false -> turns_clear A p U d1 d X) ->
  exists W, b_gc_root A p rdef rturn U d1 d X = Done W /\ mem W (roots_product 2 (factors u d1 d x)).
Proof using S HU HX.
  intros Hd Hc. unfold b_gc_root. destruct rdef; [apply b_pol_def_ok; lia|]. apply b_sqrt_turn_ok; auto.
Qed.
Lemma b_de_root_ok rdef rprod rturn m d : (0 < m)%Z -> (0 < d <= length u)%nat ->
  (forall z, In z (factors u d1 d x) -> z <> RtoC 0) -> (by_turns p rdef rprod rturn d = true -> turns_clear A p U d1 d X) ->
  exists W, b_de_root A p rdef rprod rturn m U d1 d X = Done W /\ mem W (roots_product m (factors u d1 d x)).
Proof using S HU HX.
  intros Hm Hd Hz Hc. unfold b_de_root, by_turns in *. destruct rdef; [apply b_pol_def_ok; lia|].
  destruct rprod; [apply b_pol_prod_ok; try assumption; lia|]. cbn [negb andb] in Hc.
  destruct rturn; [apply b_pol_turn_ok; auto|]. cbn [orb] in Hc.
  destruct (_ && _); [apply b_pol_turn_ok; auto|apply b_pol_prod_ok; try assumption; lia].
Qed.
End Point.
End Sound.
