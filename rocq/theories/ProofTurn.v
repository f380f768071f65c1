(** Proofs about the evaluations of the product of roots. *)
From Verif Require Import CArg ModelTree ModelVec ModelPeriod ModelTurn SpecTurn ProofEdge.
Local Open Scope R_scope.

Definition fac (u : list C) (d1 : nat) (x : R) (k : nat) : C :=
  if (k <? d1)%nat then (nth k u (RtoC 0) - RtoC x)%C else (RtoC x - nth k u (RtoC 0))%C.
Definition asum (l : list C) : R := fold_right (fun z a => carg z + a) 0 l.

Lemma factor_at_ok u d1 k x : (k < length u)%nat -> factor_at u d1 k x = Done (fac u d1 x k).
Proof.
  intros H. unfold factor_at, vread, vget, fac. destruct (Nat.ltb_spec k (length u)); [|lia]. cbn [bind].
  destruct (Nat.leb_spec d1 k), (Nat.ltb_spec k d1); try lia; f_equal; ring.
Qed.

(** ** def *)
Lemma def_loop_ok m u d1 x todo : forall k y, (k + todo <= length u)%nat ->
  def_loop m u d1 x todo k y = Done (y * roots_product m (map (fac u d1 x) (seq k todo)))%C.
Proof.
  induction todo as [|todo IH]; intros k y H; cbn [def_loop seq map].
  - unfold roots_product, cprod. cbn. f_equal. ring.
  - rewrite factor_at_ok by lia. cbn [bind]. rewrite IH by lia. f_equal.
    unfold roots_product, cprod. cbn [map fold_right]. ring.
Qed.
Lemma pol_def_ok m u d1 d x : (d <= length u)%nat -> pol_def m u d1 d x = Done (roots_product m (factors u d1 d x)).
Proof. intros H. unfold pol_def. rewrite def_loop_ok by lia. f_equal. unfold factors. change (fun k => _) with (fac u d1 x). ring. Qed.

(** ** modulus and argument of a product of roots *)
Lemma rroot_mult m a b : 0 <= a -> 0 <= b -> rroot m (a * b) = rroot m a * rroot m b.
Proof.
  intros Ha Hb. unfold rroot. destruct (Rlt_dec 0 a), (Rlt_dec 0 b).
  - destruct (Rlt_dec 0 (a * b)) as [H|H]; [apply eq_sym, Rpower_mult_distr; assumption|]. exfalso. apply H. nra.
  - replace b with 0 by lra. rewrite Rmult_0_r. destruct (Rlt_dec 0 0); lra.
  - replace a with 0 by lra. rewrite Rmult_0_l. destruct (Rlt_dec 0 0); lra.
  - replace a with 0 by lra. rewrite Rmult_0_l. destruct (Rlt_dec 0 0); lra.
Qed.
Lemma rroot_1 m : rroot m 1 = 1.
Proof. unfold rroot. destruct (Rlt_dec 0 1); [|lra]. unfold Rpower. rewrite ln_1, Rmult_0_r. apply exp_0. Qed.

Lemma roots_product_polar m l :
  roots_product m l = (RtoC (rroot m (Cmod (cprod l))) * cis (asum l / IZR m))%C.
Proof.
  unfold roots_product, cprod. induction l as [|z l IH]; cbn [map fold_right asum].
  - rewrite Cmod_1, rroot_1. unfold Rdiv. rewrite Rmult_0_l, cis_0. ring.
  - rewrite IH. unfold croot. rewrite Cmod_mult, rroot_mult by apply Cmod_ge_0. rewrite RtoC_mult.
    replace ((carg z + fold_right (fun z a => carg z + a) 0 l) / IZR m)
      with (carg z / IZR m + asum l / IZR m) by (unfold asum, Rdiv; ring).
    rewrite cis_add. unfold asum. ring.
Qed.

(** ** prod *)
Lemma log_loop_ok u d1 x todo : forall k y, (k + todo <= length u)%nat ->
  log_loop u d1 x todo k y = Done (fold_left (fun a z => a + clog z)%C (map (fac u d1 x) (seq k todo)) y).
Proof.
  induction todo as [|todo IH]; intros k y H; cbn [log_loop seq map fold_left]; [reflexivity|].
  rewrite factor_at_ok by lia. cbn [bind]. apply IH. lia.
Qed.
Lemma cprod_nonzero l : (forall z, In z l -> z <> RtoC 0) -> cprod l <> RtoC 0.
Proof.
  induction l as [|z l IH]; intros H; unfold cprod; cbn [fold_right]; [intros E; injection E; lra|].
  apply Cmult_neq_0'; [apply H; left; reflexivity|]. apply IH. intros; apply H; right; assumption.
Qed.
Lemma sum_log l : (forall z, In z l -> z <> RtoC 0) -> forall y,
  fold_left (fun a z => a + clog z)%C l y = (y + (ln (Cmod (cprod l)), asum l))%C.
Proof.
  induction l as [|z l IH]; intros H y; cbn [fold_left asum fold_right].
  - unfold cprod. cbn [fold_right]. rewrite Cmod_1, ln_1. change (0, 0) with (RtoC 0). ring.
  - rewrite IH by (intros; apply H; right; assumption). unfold cprod. cbn [fold_right]. fold (cprod l).
    rewrite Cmod_mult, ln_mult.
    + unfold clog, Cplus. cbn [fst snd]. unfold asum. f_equal; ring.
    + apply Cmod_gt_0, H. left; reflexivity.
    + apply Cmod_gt_0, cprod_nonzero. intros; apply H; right; assumption.
Qed.
Lemma pol_prod_ok m u d1 d x : (0 < m)%Z -> (d <= length u)%nat ->
  (forall z, In z (factors u d1 d x) -> z <> RtoC 0) ->
  pol_prod m u d1 d x = Done (roots_product m (factors u d1 d x)).
Proof.
  intros Hm Hd Hz. unfold pol_prod. rewrite log_loop_ok by lia. cbn [bind].
  change (map (fac u d1 x) (seq 0 d)) with (factors u d1 d x). rewrite sum_log by exact Hz. f_equal.
  rewrite roots_product_polar. set (P := cprod (factors u d1 d x)). assert (HP : 0 < Cmod P).
  { apply Cmod_gt_0, cprod_nonzero, Hz. }
  assert (Hm0 : IZR m <> 0) by (apply not_0_IZR; lia).
  replace ((RtoC 0 + (ln (Cmod P), asum (factors u d1 d x))) / RtoC (IZR m))%C
    with ((/ IZR m * ln (Cmod P), asum (factors u d1 d x) / IZR m) : C).
  - unfold cexp. cbn [fst snd]. unfold rroot. destruct (Rlt_dec 0 (Cmod P)); [|lra]. reflexivity.
  - unfold Cdiv, Cinv, Cplus, Cmult, RtoC. cbn [fst snd]. f_equal; field; repeat split; nra.
Qed.

(** ** signs and arguments *)
Lemma re_im z : fst z = Cmod z * cos (carg z) /\ snd z = Cmod z * sin (carg z).
Proof.
  pose proof (carg_polar z) as E. split.
  - apply (f_equal fst) in E. rewrite E at 1. unfold Cmult, RtoC, cis. cbn [fst snd]. ring.
  - apply (f_equal snd) in E. rewrite E at 1. unfold Cmult, RtoC, cis. cbn [fst snd]. ring.
Qed.

Lemma sgn_cases z : z <> RtoC 0 ->
  (sgn_imag z = 1%Z /\ 0 <= carg z < PI) \/ (sgn_imag z = (-1)%Z /\ - PI < carg z < 0) \/
  (sgn_imag z = 0%Z /\ carg z = PI /\ negative_real z).
Proof.
  intros Hz. apply Cmod_gt_0 in Hz. destruct (re_im z) as [Er Ei]. pose proof (carg_range z) as Hr.
  pose proof PI_RGT_0 as Hpi.
  destruct (Rtotal_order (carg z) 0) as [Hn | [He | Hp]].
  - right; left. split; [|lra]. assert (Hs : sin (carg z) < 0) by (apply sin_lt_0_var; lra).
    unfold sgn_imag. destruct (Req_EM_T (snd z) 0); [nra|]. destruct (Rlt_dec 0 (snd z)); [nra|]. reflexivity.
  - left. split; [|lra]. rewrite He, sin_0 in Ei. rewrite He, cos_0 in Er. unfold sgn_imag.
    destruct (Req_EM_T (snd z) 0); [|lra]. destruct (Rle_dec 0 (fst z)); [reflexivity|lra].
  - destruct (Rlt_le_dec (carg z) PI) as [Hlt | Hge].
    + left. split; [|lra]. assert (Hs : 0 < sin (carg z)) by (apply sin_gt_0; lra).
      unfold sgn_imag. destruct (Req_EM_T (snd z) 0); [nra|]. destruct (Rlt_dec 0 (snd z)); [reflexivity|nra].
    + right; right. assert (He : carg z = PI) by lra. rewrite He, sin_PI in Ei. rewrite He, cos_PI in Er.
      unfold sgn_imag, negative_real. destruct (Req_EM_T (snd z) 0); [|lra]. destruct (Rle_dec 0 (fst z)); [lra|].
      split; [reflexivity|]. split; [exact He|]. split; lra.
Qed.

Lemma carg_mult_z y t : y <> RtoC 0 -> t <> RtoC 0 -> exists k : Z, carg y + carg t = carg (y * t)%C + 2 * PI * IZR k.
Proof.
  intros Hy Ht. apply cis_eq.
  assert (Hm : RtoC (Cmod y * Cmod t) <> RtoC 0).
  { intros E. injection E. apply Cmod_gt_0 in Hy. apply Cmod_gt_0 in Ht. nra. }
  pose proof (carg_polar (y * t)%C) as E. rewrite (carg_polar y) in E at 1. rewrite (carg_polar t) in E at 1.
  rewrite Cmod_mult in E. rewrite cis_add.
  replace (cis (carg y) * cis (carg t))%C
    with (/ RtoC (Cmod y * Cmod t) * (RtoC (Cmod y) * cis (carg y) * (RtoC (Cmod t) * cis (carg t))))%C.
  - rewrite E. field. exact Hm.
  - rewrite RtoC_mult. rewrite RtoC_mult in Hm. field.
    split; intros E0; apply Hm; rewrite E0; ring.
Qed.

Lemma int_between (k : Z) lo hi a : a = 2 * PI * IZR k -> 2 * PI * IZR lo < a < 2 * PI * IZR hi -> (lo < k < hi)%Z.
Proof.
  intros -> [H1 H2]. pose proof PI_RGT_0. split; apply lt_IZR; apply (Rmult_lt_reg_l (2 * PI)); lra.
Qed.

(** one multiplication *)
Definition delta (sy st sy' : Z) : Z :=
  if (sy =? st)%Z && negb (sy' =? st)%Z then (if (0 <? st)%Z then 1 else -1)%Z else 0%Z.
Lemma turn_step y t : y <> RtoC 0 -> t <> RtoC 0 -> sgn_imag y <> 0%Z -> sgn_imag t <> 0%Z ->
  let d := delta (sgn_imag y) (sgn_imag t) (sgn_imag (y * t)%C) in
  carg y + carg t = carg (y * t)%C + 2 * PI * IZR d \/
  (negative_real (y * t)%C /\ sgn_imag (y * t)%C = 0%Z /\ carg y + carg t = carg (y * t)%C + 2 * PI * IZR (d - 1)).
Proof.
  intros Hy Ht Sy St d. pose proof PI_RGT_0 as Hpi.
  destruct (carg_mult_z y t Hy Ht) as [k Hk]. pose proof (Cmult_neq_0' y t Hy Ht) as Hyt.
  assert (Ek : 2 * PI * IZR k = carg y + carg t - carg (y * t)%C) by lra.
  destruct (sgn_cases y Hy) as [[Ey Ry] | [[Ey Ry] | [Ey _]]]; [| |congruence];
  (destruct (sgn_cases t Ht) as [[Et Rt] | [[Et Rt] | [Et _]]]; [| |congruence]);
  (destruct (sgn_cases _ Hyt) as [[E R] | [[E R] | [E [R Hneg]]]]);
  subst d; rewrite ?Ey, ?Et, ?E; cbn.
  (* both in the upper half plane *)
  - left. assert (k = 0)%Z as -> by (assert (-1 < k < 1)%Z by (apply (int_between k (-1) 1 _ eq_refl); rewrite Ek; lra); lia). lra.
  - left. assert (k = 1)%Z as -> by (assert (0 < k < 2)%Z by (apply (int_between k 0 2 _ eq_refl); rewrite Ek; lra); lia). lra.
  - right. assert (k = 0)%Z as -> by (assert (-1 < k < 1)%Z by (apply (int_between k (-1) 1 _ eq_refl); rewrite Ek; lra); lia).
    split; [exact Hneg|]. split; [reflexivity|lra].
  (* opposite sides *)
  - left. assert (k = 0)%Z as -> by (assert (-1 < k < 1)%Z by (apply (int_between k (-1) 1 _ eq_refl); rewrite Ek; lra); lia). lra.
  - left. assert (k = 0)%Z as -> by (assert (-1 < k < 1)%Z by (apply (int_between k (-1) 1 _ eq_refl); rewrite Ek; lra); lia). lra.
  - exfalso. assert (-1 < k < 0)%Z by (apply (int_between k (-1) 0 _ eq_refl); rewrite Ek; lra). lia.
  - left. assert (k = 0)%Z as -> by (assert (-1 < k < 1)%Z by (apply (int_between k (-1) 1 _ eq_refl); rewrite Ek; lra); lia). lra.
  - left. assert (k = 0)%Z as -> by (assert (-1 < k < 1)%Z by (apply (int_between k (-1) 1 _ eq_refl); rewrite Ek; lra); lia). lra.
  - exfalso. assert (-1 < k < 0)%Z by (apply (int_between k (-1) 0 _ eq_refl); rewrite Ek; lra). lia.
  (* both in the lower half plane *)
  - left. assert (k = -1)%Z as -> by (assert (-2 < k < 0)%Z by (apply (int_between k (-2) 0 _ eq_refl); rewrite Ek; lra); lia). lra.
  - left. assert (k = 0)%Z as -> by (assert (-1 < k < 1)%Z by (apply (int_between k (-1) 1 _ eq_refl); rewrite Ek; lra); lia). lra.
  - left. assert (k = -1)%Z as -> by (assert (-2 < k < 0)%Z by (apply (int_between k (-2) 0 _ eq_refl); rewrite Ek; lra); lia). lra.
Qed.

(** ** the loop *)
Lemma turn_loop_ok u d1 x todo : forall k y q, (k + todo <= length u)%nat ->
  exists r w, turn_loop u d1 x todo k y (sgn_imag y) q = Done (r, w) /\
    let rest := map (fac u d1 x) (seq k todo) in
    (r = FAIL \/
     w = (y * cprod rest)%C /\
     (y <> RtoC 0 -> (forall z, In z rest -> z <> RtoC 0) ->
       carg y + asum rest = carg w + 2 * PI * IZR (r - q) \/
       (negative_real w /\ carg y + asum rest = carg w + 2 * PI * IZR (r - q - 1)))).
Proof.
  induction todo as [|todo IH]; intros k y q H.
  - exists q, y. split; [reflexivity|]. right. cbn [seq map]. split; [unfold cprod; cbn; ring|].
    intros _ _. left. cbn. rewrite Z.sub_diag. ring.
  - cbn [turn_loop]. destruct (sgn_imag y =? 0)%Z eqn:Sy.
    { exists FAIL, y. split; [reflexivity|]. left. reflexivity. }
    rewrite factor_at_ok by lia. cbn [bind]. set (t := fac u d1 x k).
    destruct (sgn_imag t =? 0)%Z eqn:St.
    { exists FAIL, (y * t)%C. split; [reflexivity|]. left. reflexivity. }
    apply Z.eqb_neq in Sy, St.
    set (q1 := if (sgn_imag y =? sgn_imag t)%Z && negb (sgn_imag (y * t)%C =? sgn_imag t)%Z
               then (if (0 <? sgn_imag t)%Z then q + 1 else q - 1)%Z else q).
    assert (Eq1 : q1 = (q + delta (sgn_imag y) (sgn_imag t) (sgn_imag (y * t)%C))%Z).
    { unfold q1, delta. destruct (_ && _); [destruct (0 <? _)%Z|]; lia. }
    destruct (IH (S k) (y * t)%C q1 ltac:(lia)) as (r & w & E & Hor). exists r, w. split; [exact E|].
    cbn zeta in Hor |- *. cbn [seq map]. fold t.
    destruct Hor as [Hf | [Hw Ha]]; [left; exact Hf|].
    destruct (Z.eq_dec (sgn_imag (y * t)%C) 0) as [S0 | S0].
    + destruct todo as [|todo].
      * right. split; [rewrite Hw; unfold cprod; cbn; ring|].
        intros Hy Hz. cbn [seq map] in *. assert (Ht : t <> RtoC 0) by (apply Hz; left; reflexivity).
        cbn [turn_loop] in E. injection E as Er Ew. subst r w.
        pose proof (turn_step y t Hy Ht Sy St) as Hstep. cbn zeta in Hstep. rewrite Eq1.
        cbn [asum fold_right]. rewrite Rplus_0_r.
        destruct Hstep as [Hs | (Hn & _ & Hs)].
        -- left. rewrite Hs. f_equal. f_equal. f_equal. lia.
        -- right. split; [exact Hn|]. rewrite Hs. f_equal. f_equal. f_equal. lia.
      * left. cbn [turn_loop] in E. rewrite (proj2 (Z.eqb_eq _ _) S0) in E.
        injection E as Er _. symmetry. exact Er.
    + right. split; [rewrite Hw; unfold cprod; cbn [fold_right]; ring|].
      intros Hy Hz. assert (Ht : t <> RtoC 0) by (apply Hz; left; reflexivity).
      pose proof (turn_step y t Hy Ht Sy St) as Hstep. cbn zeta in Hstep.
      destruct Hstep as [Hs | (_ & Hn & _)]; [|congruence].
      cbn [asum fold_right]. fold (asum (map (fac u d1 x) (seq (S k) todo))).
      destruct Ha as [Ha | [Hn Ha]].
      * apply Cmult_neq_0'; assumption.
      * intros z Hin. apply Hz. right. exact Hin.
      * left. rewrite <- Rplus_assoc, Hs. rewrite Eq1 in Ha. rewrite !minus_IZR, plus_IZR in *. lra.
      * right. split; [exact Hn|]. rewrite <- Rplus_assoc, Hs. rewrite Eq1 in Ha. rewrite !minus_IZR, plus_IZR in *. lra.
Qed.

Lemma prod_turn_ok u d1 d x : (0 < d <= length u)%nat ->
  exists r w, prod_turn u d1 d x = Done (r, w) /\
    (r = FAIL \/
     w = cprod (factors u d1 d x) /\
     ((forall z, In z (factors u d1 d x) -> z <> RtoC 0) ->
       asum (factors u d1 d x) = carg w + 2 * PI * IZR r \/
       (negative_real w /\ asum (factors u d1 d x) = carg w + 2 * PI * IZR (r - 1)))).
Proof.
  intros H. unfold prod_turn, vread. destruct (Nat.ltb_spec 0 (length u)); [|lia]. cbn [bind].
  set (y := if (d1 =? 0)%nat then (- (vget u 0 - RtoC x))%C else (vget u 0 - RtoC x)%C).
  assert (Ey : y = fac u d1 x 0).
  { unfold y, fac, vget. destruct (Nat.eqb_spec d1 0), (Nat.ltb_spec 0 d1); try lia; ring. }
  destruct (turn_loop_ok u d1 x (d - 1) 1 y 0 ltac:(lia)) as (r & w & E & Hor).
  exists r, w. split; [exact E|].
  assert (Ef : factors u d1 d x = y :: map (fac u d1 x) (seq 1 (d - 1))).
  { unfold factors. change (fun k => _) with (fac u d1 x). rewrite Ey. destruct d; [lia|]. cbn [seq map].
    replace (S d - 1)%nat with d by lia. reflexivity. }
  rewrite Ef. destruct Hor as [Hf | [Hw Ha]]; [left; exact Hf|right]. split; [exact Hw|].
  intros Hz. cbn [asum fold_right]. rewrite Z.sub_0_r in Ha. apply Ha.
  - apply Hz. left; reflexivity.
  - intros z Hin. apply Hz. right. exact Hin.
Qed.

Lemma zero_factor_dec l : (forall z : C, In z l -> z <> RtoC 0) \/ cprod l = RtoC 0.
Proof.
  induction l as [|z l IH]; [left; intros ? []|].
  destruct (Req_EM_T (Cmod z) 0) as [E | E].
  - right. apply Cmod_eq_0 in E. unfold cprod. cbn [fold_right]. rewrite E. ring.
  - destruct IH as [IH | IH].
    + left. intros y [Hy | Hy]; [|apply IH; exact Hy]. subst y. intros Hz. apply E. rewrite Hz. apply Cmod_0.
    + right. unfold cprod in *. cbn [fold_right]. rewrite IH. ring.
Qed.
Lemma rroot_0 m : rroot m 0 = 0.
Proof. unfold rroot. destruct (Rlt_dec 0 0); lra. Qed.

(** root of the product times the root of unity of the counted turns *)
Lemma turned_root m l r : (0 < m)%Z ->
  ((forall z, In z l -> z <> RtoC 0) ->
     asum l = carg (cprod l) + 2 * PI * IZR r \/
     (negative_real (cprod l) /\ asum l = carg (cprod l) + 2 * PI * IZR (r - 1))) ->
  (croot m (cprod l) * root m r)%C = roots_product m l \/
  (negative_real (cprod l) /\ (croot m (cprod l) * root m r)%C = (root m 1 * roots_product m l)%C).
Proof.
  intros Hm H. assert (Hm0 : IZR m <> 0) by (apply not_0_IZR; lia). rewrite roots_product_polar. unfold croot, root.
  destruct (zero_factor_dec l) as [Hz | Hz].
  - destruct (H Hz) as [E | [Hn E]]; rewrite E.
    + left. rewrite <- Cmult_assoc, <- cis_add. f_equal. f_equal. field. exact Hm0.
    + right. split; [exact Hn|]. rewrite <- Cmult_assoc, <- cis_add.
      rewrite (Cmult_comm (cis (2 * PI * 1 / IZR m))), <- Cmult_assoc, <- cis_add. f_equal. f_equal.
      rewrite minus_IZR. field. exact Hm0.
  - left. rewrite Hz, Cmod_0, rroot_0. ring.
Qed.

Lemma crem_mod q m : (0 < m)%Z -> Z.rem (Z.rem q m + m) m = (q mod m)%Z.
Proof.
  intros Hm. pose proof (Z.rem_bound_abs q m ltac:(lia)) as Hb.
  rewrite Z.rem_mod_nonneg by lia. replace (Z.rem q m + m)%Z with (Z.rem q m + 1 * m)%Z by ring.
  rewrite Z.mod_add by lia. pose proof (Z.quot_rem' q m) as E. rewrite E at 2.
  rewrite Z.add_comm, Z.mul_comm, Z.mod_add by lia. reflexivity.
Qed.

Lemma pol_turn_ok m u d1 d x : (0 < m)%Z -> (0 < d <= length u)%nat ->
  let l := factors u d1 d x in
  exists w, pol_turn m u d1 d x (unit_roots m) = Done w /\
    (w = roots_product m l \/ (negative_real (cprod l) /\ w = (root m 1 * roots_product m l)%C)).
Proof.
  intros Hm Hd l. unfold pol_turn. destruct (prod_turn_ok u d1 d x Hd) as (r & w & E & Hor). rewrite E. cbn [bind fst snd].
  fold l in Hor. destruct (Z.eqb_spec r FAIL) as [F | F].
  { exists (roots_product m l). split; [apply pol_def_ok; lia|]. left; reflexivity. }
  destruct Hor as [Hf | [Hw Ha]]; [contradiction|]. subst w. rewrite crem_mod by exact Hm.
  exists (croot m (cprod l) * root m r)%C. split; [|apply turned_root; assumption].
  pose proof (Z.mod_pos_bound r m Hm) as Hb.
  destruct (Z.eqb_spec (r mod m) 0) as [Z0 | Z0].
  - f_equal. rewrite <- (root_mod m r) by lia. rewrite Z0, root_0. ring.
  - unfold vread, unit_roots. rewrite vtab_length. destruct (Nat.ltb_spec (Z.to_nat (r mod m)) (Z.to_nat m)); [|lia].
    cbn [bind]. rewrite vget_tab by lia. rewrite Z2Nat.id by lia. rewrite root_mod by lia. reflexivity.
Qed.

Lemma root_2_1 : root 2 1 = (- RtoC 1)%C.
Proof. unfold root. replace (2 * PI * 1 / 2) with PI by field. rewrite cis_PI. apply m1. Qed.
Lemma sqrt_turn_ok u d1 d x : (0 < d <= length u)%nat ->
  let l := factors u d1 d x in
  exists w, sqrt_turn u d1 d x = Done w /\
    (w = roots_product 2 l \/ (negative_real (cprod l) /\ w = (- roots_product 2 l)%C)).
Proof.
  intros Hd l. unfold sqrt_turn. destruct (prod_turn_ok u d1 d x Hd) as (r & w & E & Hor). rewrite E. cbn [bind fst snd].
  fold l in Hor. destruct (Z.eqb_spec r FAIL) as [F | F].
  { exists (roots_product 2 l). split; [apply (pol_def_ok 2); lia|]. left; reflexivity. }
  destruct Hor as [Hf | [Hw Ha]]; [contradiction|]. subst w.
  exists (croot 2 (cprod l) * root 2 r)%C. split.
  - f_equal. rewrite <- (root_mod 2 r) by lia.
    destruct (Z.eqb_spec (Z.rem r 2) 0) as [R0 | R0].
    + assert ((r mod 2 = 0)%Z) as -> by (apply Z.mod_divide; [lia|]; apply Z.rem_divide; [lia|exact R0]). rewrite root_0. ring.
    + assert ((r mod 2 = 1)%Z) as ->.
      { pose proof (Z.mod_pos_bound r 2 ltac:(lia)). assert ((r mod 2 <> 0)%Z); [|lia].
        intros H0. apply R0. apply Z.rem_divide; [lia|]. apply Z.mod_divide; [lia|exact H0]. }
      rewrite root_2_1. ring.
  - destruct (turned_root 2 l r ltac:(lia) Ha) as [H | [Hn H]]; [left; exact H|right].
    split; [exact Hn|]. rewrite H, root_2_1. ring.
Qed.

(** ** any choice of evaluation *)
Lemma de_root_ok rdef rprod rturn prec m u d1 d x : (0 < m)%Z -> (0 < d <= length u)%nat ->
  (forall z, In z (factors u d1 d x) -> z <> RtoC 0) -> ~ negative_real (cprod (factors u d1 d x)) ->
  de_root rdef rprod rturn prec m u d1 d x = Done (roots_product m (factors u d1 d x)).
Proof.
  intros Hm Hd Hz Hn.
  assert (Ht : pol_turn m u d1 d x (unit_roots m) = Done (roots_product m (factors u d1 d x))).
  { destruct (pol_turn_ok m u d1 d x Hm Hd) as (w & E & [-> | [H _]]); [exact E|contradiction]. }
  unfold de_root. destruct rdef; [apply pol_def_ok; lia|]. destruct rprod; [apply pol_prod_ok; try assumption; lia|].
  destruct rturn; [exact Ht|]. destruct (_ && _); [exact Ht|]. apply pol_prod_ok; try assumption; lia.
Qed.
Lemma gc_root_ok rdef rturn u d1 d x : (0 < d <= length u)%nat -> ~ negative_real (cprod (factors u d1 d x)) ->
  gc_root rdef rturn u d1 d x = Done (roots_product 2 (factors u d1 d x)).
Proof.
  intros Hd Hn. unfold gc_root. destruct rdef; [apply (pol_def_ok 2); lia|].
  destruct (sqrt_turn_ok u d1 d x Hd) as (w & E & [-> | [H _]]); [exact E|contradiction].
Qed.

(** ** the failing cases *)
Lemma sgn_upper a : 0 < a -> sgn_imag (0, a) = 1%Z.
Proof. intros H. unfold sgn_imag. cbn [fst snd]. destruct (Req_EM_T a 0); [lra|]. destruct (Rlt_dec 0 a); [reflexivity|lra]. Qed.
Lemma sgn_negative a : a < 0 -> sgn_imag (a, 0) = 0%Z.
Proof. intros H. unfold sgn_imag. cbn [fst snd]. destruct (Req_EM_T 0 0); [|lra]. destruct (Rle_dec 0 a); [lra|reflexivity]. Qed.
Lemma carg_upper a : 0 < a -> carg (0, a) = PI / 2.
Proof. intros H. unfold carg. cbn [fst snd]. destruct (Rlt_dec 0 0); [lra|]. destruct (Rlt_dec 0 a); [reflexivity|lra]. Qed.
Lemma carg_negative a : a < 0 -> carg (a, 0) = PI.
Proof.
  intros H. unfold carg. cbn [fst snd]. destruct (Rlt_dec 0 a); [lra|]. destruct (Rlt_dec a 0); [|lra].
  destruct (Rle_dec 0 0); [|lra]. replace (0 / a) with 0 by (field; lra). rewrite atan_0. ring.
Qed.
Lemma upper_pair : ((0, 1) * (0, 2))%C = (-2, 0).
Proof. unfold Cmult. cbn [fst snd]. f_equal; ring. Qed.

Lemma prod_turn_bad u d1 x : length u = 2%nat -> fac u d1 x 0 = (0, 1) -> fac u d1 x 1 = (0, 2) ->
  prod_turn u d1 2 x = Done (1%Z, (-2, 0)).
Proof.
  intros Hl E0 E1. unfold prod_turn, vread. rewrite Hl. cbn [Nat.ltb Nat.leb bind].
  set (y := if (d1 =? 0)%nat then (- (vget u 0 - RtoC x))%C else (vget u 0 - RtoC x)%C).
  assert (Ey : y = (0, 1)).
  { rewrite <- E0. unfold y, fac, vget. destruct (Nat.eqb_spec d1 0), (Nat.ltb_spec 0 d1); try lia; ring. }
  rewrite Ey, sgn_upper by lra. change (2 - 1)%nat with 1%nat. cbn [turn_loop].
  change (1 =? 0)%Z with false. cbv iota. rewrite factor_at_ok by lia. rewrite E1. cbn [bind].
  rewrite upper_pair, sgn_upper by lra. rewrite sgn_negative by lra. reflexivity.
Qed.

Lemma root_1_neq m : (2 <= m)%Z -> root m 1 <> RtoC 1.
Proof.
  intros Hm E. unfold root in E. destruct (cis_1_integer _ E) as [k Hk]. pose proof PI_RGT_0 as Hpi.
  assert (Hm0 : IZR m <> 0) by (apply not_0_IZR; lia).
  assert (H1 : 1 = IZR k * IZR m).
  { apply (Rmult_eq_reg_l (2 * PI)); [|lra]. replace (2 * PI * (IZR k * IZR m)) with (2 * PI * IZR k * IZR m) by ring.
    rewrite <- Hk. field. exact Hm0. }
  rewrite <- mult_IZR in H1. apply eq_IZR in H1. destruct (Z_lt_le_dec 0 k); nia.
Qed.

Lemma bad_factors u d1 x : fac u d1 x 0 = (0, 1) -> fac u d1 x 1 = (0, 2) -> factors u d1 2 x = [(0, 1); (0, 2)].
Proof. intros E0 E1. unfold factors. change (fun k => _) with (fac u d1 x). cbn [seq map]. rewrite E0, E1. reflexivity. Qed.
Lemma bad_roots m : (0 < m)%Z -> roots_product m [(0, 1); (0, 2)] = (RtoC (rroot m 2) * cis (PI / IZR m))%C.
Proof.
  intros Hm. rewrite roots_product_polar. unfold cprod, asum. cbn [fold_right]. rewrite !carg_upper by lra.
  replace ((0, 1) * ((0, 2) * RtoC 1))%C with ((-2, 0) : C) by (unfold Cmult, RtoC; cbn [fst snd]; f_equal; ring).
  change ((-2, 0) : C) with (RtoC (-2)). rewrite Cmod_R. replace (Rabs (-2)) with 2 by (rewrite Rabs_left; lra).
  f_equal. f_equal. field. apply not_0_IZR. lia.
Qed.
Lemma pol_turn_bad m u d1 x : (2 <= m)%Z -> length u = 2%nat -> fac u d1 x 0 = (0, 1) -> fac u d1 x 1 = (0, 2) ->
  exists w, pol_turn m u d1 2 x (unit_roots m) = Done w /\ w <> roots_product m (factors u d1 2 x).
Proof.
  intros Hm Hl E0 E1. unfold pol_turn. rewrite prod_turn_bad by assumption. cbn [bind fst snd].
  change (1 =? FAIL)%Z with false. cbv iota. rewrite crem_mod by lia. rewrite Z.mod_small by lia.
  change (1 =? 0)%Z with false. cbv iota.
  unfold vread, unit_roots. rewrite vtab_length. destruct (Nat.ltb_spec (Z.to_nat 1) (Z.to_nat m)); [|lia].
  cbn [bind]. rewrite vget_tab by lia. change (Z.of_nat (Z.to_nat 1)) with 1%Z.
  eexists. split; [reflexivity|]. rewrite (bad_factors u d1 x E0 E1), bad_roots by lia.
  unfold croot. rewrite carg_negative by lra. change ((-2, 0) : C) with (RtoC (-2)). rewrite Cmod_R.
  replace (Rabs (-2)) with 2 by (rewrite Rabs_left; lra).
  set (s := (RtoC (rroot m 2) * cis (PI / IZR m))%C). intros E. apply (root_1_neq m Hm).
  assert (Hs : s <> RtoC 0).
  { apply Cmult_neq_0'; [|apply cis_neq_0]. intros H0. injection H0. pose proof (rroot_pos m 2). lra. }
  replace (root m 1) with (/ s * (s * root m 1))%C by (field; exact Hs). rewrite E. field. exact Hs.
Qed.

Lemma sqrt_turn_bad u d1 x : length u = 2%nat -> fac u d1 x 0 = (0, 1) -> fac u d1 x 1 = (0, 2) ->
  exists w, sqrt_turn u d1 2 x = Done w /\ w <> roots_product 2 (factors u d1 2 x).
Proof.
  intros Hl E0 E1. unfold sqrt_turn. rewrite prod_turn_bad by assumption. cbn [bind fst snd].
  change (1 =? FAIL)%Z with false. change (Z.rem 1 2 =? 0)%Z with false. cbv iota.
  eexists. split; [reflexivity|]. rewrite (bad_factors u d1 x E0 E1), bad_roots by lia.
  unfold croot. rewrite carg_negative by lra. change ((-2, 0) : C) with (RtoC (-2)). rewrite Cmod_R.
  replace (Rabs (-2)) with 2 by (rewrite Rabs_left; lra).
  set (s := (RtoC (rroot 2 2) * cis (PI / 2))%C). intros E.
  assert (Hs : s <> RtoC 0).
  { apply Cmult_neq_0'; [|apply cis_neq_0]. intros H0. injection H0. pose proof (rroot_pos 2 2). lra. }
  apply Hs. replace s with (/ (RtoC 1 + RtoC 1) * (s - - s))%C.
  - rewrite E. field. intros H0. injection H0. lra.
  - field. intros H0. injection H0. lra.
Qed.

Lemma no_point_bad m : (2 <= m)%Z -> forall c, exists w,
  pol_turn m [RtoC 2; c] 0 0 0 (unit_roots m) = Done w /\ w <> roots_product m (factors [RtoC 2; c] 0 0 0).
Proof.
  intros Hm c. unfold pol_turn, prod_turn. cbn [vread length Nat.ltb Nat.leb bind Nat.sub turn_loop Nat.eqb fst snd].
  change (0 =? FAIL)%Z with false. cbv iota. rewrite Z.rem_0_l, Z.add_0_l, Z.rem_same by lia.
  change (0 =? 0)%Z with true. cbv iota. eexists. split; [reflexivity|].
  unfold vget. cbn [nth]. intros E. apply (f_equal Cmod) in E. rewrite croot_mod in E.
  unfold roots_product, factors, cprod in E. cbn [seq map fold_right] in E. rewrite Cmod_1 in E.
  replace (- (RtoC 2 - RtoC 0))%C with (RtoC (-2)) in E by (unfold Copp, Cminus, Cplus, RtoC; cbn [fst snd]; f_equal; cbn; ring).
  rewrite Cmod_R in E. replace (Rabs (-2)) with 2 in E by (rewrite Rabs_left; lra).
  unfold rroot in E. destruct (Rlt_dec 0 2); [|lra].
  assert (H : Rpower 2 0 < Rpower 2 (/ IZR m)). { apply Rpower_lt; [lra|]. apply Rinv_0_lt_compat, IZR_lt. lia. }
  rewrite Rpower_O in H by lra. lra.
Qed.

(** the model of the end points of an edge uses the same product *)
From Verif Require Import ModelEdge.
Lemma root_product_loop m d1 x u : forall pre y,
  root_product m u (length pre) d1 (RtoC x) y =
  (y * roots_product m (map (fac (pre ++ u) d1 x) (seq (length pre) (length u))))%C.
Proof.
  induction u as [|p u IH]; intros pre y; cbn [root_product length seq map].
  - unfold roots_product, cprod. cbn. ring.
  - specialize (IH (pre ++ [p])). rewrite app_length in IH. cbn [length] in IH.
    rewrite Nat.add_1_r in IH. rewrite IH. rewrite <- app_assoc. cbn [app].
    assert (E : (if (d1 <=? length pre)%nat then (- (p - RtoC x))%C else (p - RtoC x)%C) = fac (pre ++ p :: u) d1 x (length pre)).
    { unfold fac. rewrite nth_middle. destruct (Nat.leb_spec d1 (length pre)), (Nat.ltb_spec (length pre) d1); try lia; ring. }
    rewrite E. unfold roots_product, cprod. cbn [map fold_right]. ring.
Qed.
Lemma edge_def_same m u d1 x : mth_root_pol_def m u d1 (RtoC x) = roots_product m (factors u d1 (length u) x).
Proof. unfold mth_root_pol_def. pose proof (root_product_loop m d1 x u [] (RtoC 1)) as E. cbn [app length] in E. rewrite E. unfold factors. change (fun k => _) with (fac u d1 x). ring. Qed.
