From Coq Require Import Classical.
From Verif Require Import CArg SpecEdge ModelTree ModelVec ModelPeriod ModelTurn ModelMaRoot ProofMaRoot ModelMaPoint SpecMaPoint.
Local Open Scope R_scope.

Lemma sc_error_pos c : 0 < sc_error c.
Proof. apply Rinv_0_lt_compat, pow_lt. lra. Qed.
Lemma point_error_pos c : 0 < point_error c.
Proof. apply Rinv_0_lt_compat, pow_lt. lra. Qed.

(** the minimum *)
Lemma min_from_spec x : forall pts k d i, (i < k)%nat ->
  let r := min_from x pts k d i in
  fst r <= d /\ (forall p, In p pts -> fst r <= Cmod (x - p)%C) /\
  (r = (d, i) \/ exists j p, nth_error pts j = Some p /\ snd r = (k + j)%nat /\ fst r = Cmod (x - p)%C).
Proof.
  induction pts as [|q pts IH]; intros k d i Hi; cbn [min_from].
  - cbn [fst]. split; [lra|]. split; [now intros ? []|now left].
  - destruct (Rlt_dec (Cmod (x - q)%C) d) as [H|H].
    + destruct (IH (S k) (Cmod (x - q)%C) k ltac:(lia)) as (A & B & D). cbv zeta. split; [lra|]. split.
      * intros p [->|Hp]; [exact A|now apply B].
      * right. destruct D as [-> |(j & p & H1 & H2 & H3)].
        -- exists 0%nat, q. cbn [fst snd]. repeat split; lia.
        -- exists (S j), p. repeat split; [exact H1|lia|exact H3].
    + destruct (IH (S k) d i ltac:(lia)) as (A & B & D). cbv zeta. split; [lra|]. split.
      * intros p [->|Hp]; [lra|now apply B].
      * destruct D as [-> |(j & p & H1 & H2 & H3)]; [now left|]. right. exists (S j), p. repeat split; [exact H1|lia|exact H3].
Qed.

Lemma distance_spec x pts : pts <> [] -> exists i p, distance x pts = Done (Cmod (x - p)%C, i) /\ nth_error pts i = Some p /\
  forall q, In q pts -> Cmod (x - p)%C <= Cmod (x - q)%C.
Proof.
  destruct pts as [|q pts]; [easy|]. intros _. unfold distance.
  destruct (min_from_spec x pts 1 (Cmod (x - q)%C) 0 ltac:(lia)) as (A & B & D).
  destruct (min_from x pts 1 (Cmod (x - q)%C) 0) as (d & i). cbn [fst snd] in *.
  destruct D as [E|(j & p & H1 & H2 & H3)].
  - injection E as -> ->. exists 0%nat, q. repeat split. intros r [->|Hr]; [lra|now apply B].
  - subst. exists (1 + j)%nat, p. repeat split; [exact H1|]. intros r [->|Hr]; [exact A|now apply B].
Qed.

Lemma prod_fold x pts : forall r, fold_left (fun r p => (r * (x - p))%C) pts r = (r * poly_at pts x)%C.
Proof.
  induction pts as [|p pts IH]; intro r; cbn [fold_left].
  - unfold poly_at. cbn. ring.
  - rewrite IH. unfold poly_at. cbn [cprod]. ring.
Qed.

Lemma poly_at_zero pts x : poly_at pts x = RtoC 0 <-> In x pts.
Proof.
  induction pts as [|p pts IH]; unfold poly_at in *; cbn [cprod In].
  - split; [|easy]. intro E. injection E as E. lra.
  - split.
    + intro E. destruct (Ceq_dec (x - p)%C (RtoC 0)) as [H|H].
      * left. replace x with ((x - p) + p)%C by ring. rewrite H. ring.
      * right. apply IH. destruct (Ceq_dec (cprod (fun r => (x - r)%C) pts) (RtoC 0)) as [|H2]; [assumption|].
        exfalso. now apply (Cmult_neq_0' _ _ H H2).
    + intros [->|H]; [ring|]. rewrite (proj2 IH H). ring.
Qed.

Lemma away_or c x : sensible c -> exists i p, distance x (sc_pts c) = Done (Cmod (x - p)%C, i) /\ nth_error (sc_pts c) i = Some p /\
  (Cmod (x - p)%C < sc_error c \/ away c (sc_error c) x).
Proof.
  intros (_ & _ & Hn). destruct (distance_spec x _ Hn) as (i & p & E & Hi & H). exists i, p. repeat split; [exact E|exact Hi|].
  destruct (Rlt_dec (Cmod (x - p)%C) (sc_error c)); [now left|]. right. intros q Hq. specialize (H q Hq). lra.
Qed.

Lemma away_value c x : sensible c -> away c (sc_error c) x -> value_f c x <> RtoC 0.
Proof.
  intros (Hm & Hl & Hn) H E. unfold value_f in E.
  assert (E2 : poly_at (sc_pts c) x = RtoC 0).
  { destruct (Ceq_dec (poly_at (sc_pts c) x) (RtoC 0)) as [|H2]; [assumption|]. exfalso. now apply (Cmult_neq_0' _ _ Hl H2). }
  apply poly_at_zero in E2. specialize (H x E2). replace (x - x)%C with (RtoC 0) in H by ring. rewrite Cmod_0 in H.
  pose proof (sc_error_pos c). lra.
Qed.

Lemma principal_away c x : sensible c -> away c (sc_error c) x ->
  principal_branch c x = Done (croot (Z.of_nat (sc_m c)) (value_f c x)).
Proof.
  intros Hs H. pose proof (away_value c x Hs H) as Hv. destruct (away_or c x Hs) as (i & p & E & Hi & _).
  pose proof (H p (nth_error_In _ _ Hi)) as Hp. destruct Hs as (Hm & Hl & Hn).
  unfold principal_branch. rewrite E. cbn [bind fst]. destruct (Rlt_dec (Cmod (x - p)%C) (sc_error c)); [lra|].
  rewrite prod_fold. replace (sc_lc c * (RtoC 1 * poly_at (sc_pts c) x))%C with (value_f c x) by (unfold value_f; ring).
  cbv zeta. destruct (Nat.eqb_spec (sc_m c) 2) as [->|]; [reflexivity|].
  destruct (Ceq_dec (value_f c x) (RtoC 0)); [easy|]. rewrite cexp_clog; [reflexivity|lia|exact Hv].
Qed.
Lemma principal_near c x p : sensible c -> In p (sc_pts c) -> Cmod (x - p)%C < sc_error c ->
  principal_branch c x = Done (RtoC 0).
Proof.
  intros (Hm & Hl & Hn) Hp H. destruct (distance_spec x _ Hn) as (i & q & E & Hi & Hq). specialize (Hq p Hp).
  unfold principal_branch. rewrite E. cbn [bind fst]. destruct (Rlt_dec (Cmod (x - q)%C) (sc_error c)); [reflexivity|lra].
Qed.

Lemma zeta_even m k : (k < m)%nat -> vread (zetas m) (2 * k) = Done (root (Z.of_nat m) (Z.of_nat k)).
Proof.
  intro H. pose proof (zetas_read m (Z.of_nat (2 * k)) ltac:(lia)) as E. rewrite Z.mod_small, Nat2Z.id in E by lia. rewrite E.
  f_equal. unfold root. f_equal. rewrite <- !INR_IZR_INZ, mult_INR. cbn [INR]. field. apply not_0_INR. lia.
Qed.
Lemma multiples_ok m y : forall todo k, (k + todo <= m)%nat ->
  zeta_multiples (zetas m) y todo k = Done (map (fun j => (root (Z.of_nat m) (Z.of_nat j) * y)%C) (seq k todo)).
Proof.
  induction todo as [|todo IH]; intros k H; cbn [zeta_multiples seq map]; [reflexivity|].
  rewrite zeta_even by lia. cbn [bind]. rewrite IH by lia. reflexivity.
Qed.

Lemma root_inj m j k : (0 <= j < m)%Z -> (0 <= k < m)%Z -> root m j = root m k -> j = k.
Proof.
  intros Hj Hk E. unfold root in E. apply cis_eq in E. destruct E as (q & E).
  assert (Hm : IZR m <> 0) by (apply not_0_IZR; lia). pose proof PI_RGT_0 as HP.
  assert (E2 : IZR j = IZR (k + m * q)).
  { rewrite plus_IZR, mult_IZR. apply (Rmult_eq_reg_l (2 * PI / IZR m)).
    - replace (2 * PI / IZR m * IZR j) with (2 * PI * IZR j / IZR m) by (field; exact Hm). rewrite E. field. exact Hm.
    - unfold Rdiv. apply Rmult_integral_contrapositive_currified; [lra|]. now apply Rinv_neq_0_compat. }
  apply eq_IZR in E2. clear - Hj Hk E2. assert (q = 0)%Z; [|subst; lia].
  destruct (Z_lt_le_dec q 0); [|destruct (Z_lt_le_dec 0 q); [|lia]]; exfalso; nia.
Qed.

Lemma root_all m z : (0 < m)%nat -> cpow z m = RtoC 1 -> exists k, (k < m)%nat /\ z = root (Z.of_nat m) (Z.of_nat k).
Proof.
  intros Hm E. assert (Hm0 : INR m <> 0) by (apply not_0_INR; lia).
  assert (Hz : Cmod z = 1).
  { pose proof (cpow_mod z m) as F. rewrite E, Cmod_1 in F. pose proof (Cmod_ge_0 z) as G.
    destruct (Rlt_le_dec (Cmod z) 1) as [H|H].
    - exfalso. assert (Cmod z ^ m < 1); [|lra]. clear -Hm H G. destruct m as [|m]; [lia|]. cbn [pow].
      pose proof (pow_incr (Cmod z) 1 m ltac:(lra)) as P. rewrite pow1 in P. pose proof (pow_le (Cmod z) m G). nra.
    - destruct (Req_dec (Cmod z) 1) as [|H2]; [assumption|]. exfalso.
      pose proof (Rlt_pow_R1 (Cmod z) m ltac:(lra) ltac:(lia)). lra. }
  pose proof (carg_polar z) as P. rewrite Hz in P.
  assert (P2 : z = cis (carg z)) by (rewrite P at 1; ring).
  assert (E2 : cis (INR m * carg z) = RtoC 1) by (rewrite <- cis_cpow, <- P2; exact E).
  apply cis_1_integer in E2. destruct E2 as (k & Hk). set (M := Z.of_nat m).
  exists (Z.to_nat (k mod M)). pose proof (Z.mod_pos_bound k M ltac:(unfold M; lia)) as B. split; [unfold M in *; lia|].
  rewrite Z2Nat.id by lia. rewrite root_mod by (unfold M; lia). rewrite P2.
  unfold root. f_equal. unfold M. rewrite <- INR_IZR_INZ. rewrite <- Hk. field. exact Hm0.
Qed.

Lemma cpow_inj_root m (y z : C) : (0 < m)%nat -> y <> RtoC 0 -> cpow z m = cpow y m ->
  exists k, (k < m)%nat /\ z = (root (Z.of_nat m) (Z.of_nat k) * y)%C.
Proof.
  intros Hm Hy E. pose proof (cpow_neq_0 y m Hy) as Hp.
  destruct (root_all m (z / y)%C Hm) as (k & Hk & F).
  - assert (G : (cpow (z / y)%C m * cpow y m)%C = cpow z m).
    { rewrite <- cpow_mul. f_equal. field. exact Hy. }
    rewrite E in G. replace (cpow (z / y)%C m) with ((cpow (z / y)%C m * cpow y m) / cpow y m)%C by (field; exact Hp). rewrite G. field. exact Hp.
  - exists k. split; [exact Hk|]. rewrite <- F. field. exact Hy.
Qed.

Lemma nodup_map_in {A B} (f : A -> B) l : (forall x y, In x l -> In y l -> f x = f y -> x = y) -> NoDup l -> NoDup (map f l).
Proof.
  intros H N. induction N as [|x l Hx N IH]; cbn [map]; constructor.
  - intro I. apply in_map_iff in I. destruct I as (y & E & I). apply Hx. rewrite (H x y); [exact I|now left|now right|easy].
  - apply IH. intros. apply H; try now right. assumption.
Qed.
Lemma cpow_zero m : (0 < m)%nat -> cpow (RtoC 0) m = RtoC 0.
Proof. intros H. destruct m; [lia|]. cbn [cpow]. ring. Qed.
Lemma cpow_zero_inv m z : cpow z m = RtoC 0 -> z = RtoC 0.
Proof. intro E. destruct (Ceq_dec z (RtoC 0)) as [|H]; [assumption|]. exfalso. now apply (cpow_neq_0 z m H). Qed.
Lemma root_pow_m m k : (0 < m)%nat -> cpow (root (Z.of_nat m) k) m = RtoC 1.
Proof. intro H. rewrite root_pow. apply root_mult. lia. Qed.

Lemma branches_solutions c x : sensible c -> away c (sc_error c) x \/ In x (sc_pts c) ->
  exists l, se_branches c x = Done l /\ length l = sc_m c /\ (forall y, In y l <-> on_curve c x y) /\
    (away c (sc_error c) x -> NoDup l).
Proof.
  intros Hs Hx. assert (Hm : (0 < sc_m c)%nat) by (destruct Hs; lia).
  assert (HB : forall y0, principal_branch c x = Done y0 ->
    se_branches c x = Done (map (fun j => (root (Z.of_nat (sc_m c)) (Z.of_nat j) * y0)%C) (seq 0 (sc_m c)))).
  { intros y0 E. unfold se_branches. rewrite E. cbn [bind]. apply multiples_ok. lia. }
  destruct (classic (away c (sc_error c) x)) as [H|H].
  - pose proof (principal_away c x Hs H) as E. rewrite (HB _ E). set (y0 := croot _ _).
    assert (Ey : cpow y0 (sc_m c) = value_f c x) by (apply croot_pow, Hm).
    pose proof (away_value c x Hs H) as Hv.
    assert (Hy : y0 <> RtoC 0) by (intro F; rewrite F, cpow_zero in Ey by exact Hm; now apply Hv).
    eexists. split; [reflexivity|]. split; [now rewrite map_length, seq_length|]. split.
    + intro y. rewrite in_map_iff. split.
      * intros (k & <- & _). unfold on_curve. rewrite cpow_mul, root_pow_m, Ey by exact Hm. ring.
      * intro O. unfold on_curve in O. rewrite <- Ey in O. destruct (cpow_inj_root _ _ _ Hm Hy O) as (k & Hk & ->).
        exists k. split; [reflexivity|]. apply in_seq. lia.
    + intros _. apply nodup_map_in; [|apply seq_NoDup].
      intros j k Hj Hk F. apply in_seq in Hj, Hk. apply Nat2Z.inj. apply (root_inj (Z.of_nat (sc_m c))); [lia|lia|].
      replace (root (Z.of_nat (sc_m c)) (Z.of_nat j)) with (root (Z.of_nat (sc_m c)) (Z.of_nat j) * y0 / y0)%C by (field; exact Hy).
      rewrite F. field. exact Hy.
  - destruct Hx as [Hx|Hx]; [easy|]. assert (E : principal_branch c x = Done (RtoC 0)).
    { apply (principal_near c x x Hs Hx). replace (x - x)%C with (RtoC 0) by ring. rewrite Cmod_0. apply sc_error_pos. }
    rewrite (HB _ E). eexists. split; [reflexivity|]. split; [now rewrite map_length, seq_length|]. split; [|easy].
    assert (V : value_f c x = RtoC 0) by (unfold value_f; rewrite (proj2 (poly_at_zero _ _) Hx); ring).
    intro y. rewrite in_map_iff. unfold on_curve. rewrite V. split.
    + intros (k & <- & _). replace (root (Z.of_nat (sc_m c)) (Z.of_nat k) * RtoC 0)%C with (RtoC 0) by ring. now apply cpow_zero.
    + intro O. apply cpow_zero_inv in O. subst y. exists 0%nat. split; [ring|]. apply in_seq. lia.
Qed.

Lemma branches_near c x p : sensible c -> In p (sc_pts c) -> Cmod (x - p)%C < sc_error c ->
  se_branches c x = Done (repeat (RtoC 0) (sc_m c)) /\ on_curve c p (RtoC 0).
Proof.
  intros Hs Hp H. assert (Hm : (0 < sc_m c)%nat) by (destruct Hs; lia). split.
  - unfold se_branches. rewrite (principal_near c x p Hs Hp H). cbn [bind]. rewrite multiples_ok by lia. f_equal.
    assert (G : forall k, map (fun j => (root (Z.of_nat (sc_m c)) (Z.of_nat j) * RtoC 0)%C) (seq k (sc_m c)) = repeat (RtoC 0) (sc_m c)).
    { generalize (sc_m c) at 2 3. induction n as [|n IH]; intro k; cbn [seq map repeat]; [reflexivity|]. rewrite IH. f_equal. ring. }
    apply G.
  - unfold on_curve, value_f. rewrite (proj2 (poly_at_zero _ _) Hp), cpow_zero by exact Hm. ring.
Qed.

Lemma branches_total c x : sensible c -> exists l, se_branches c x = Done l /\ length l = sc_m c.
Proof.
  intros Hs. destruct (away_or c x Hs) as (i & p & E & Hi & [H|H]).
  - destruct (branches_near c x p Hs (nth_error_In _ _ Hi) H) as (F & _). rewrite F. eexists. split; [reflexivity|]. apply repeat_length.
  - destruct (branches_solutions c x Hs (or_introl H)) as (l & F & L & _). now exists l.
Qed.

(** the test *)
Lemma pow_eq_mod (a b : R) m : (0 < m)%nat -> 0 <= a -> 0 <= b -> a ^ m = b ^ m -> a = b.
Proof.
  intros Hm Ha Hb E. destruct (Rtotal_order a b) as [H|[H|H]]; [|exact H|]; exfalso.
  - assert (a ^ m < b ^ m); [|lra]. clear E. destruct m as [|m]; [lia|]. cbn [pow]. pose proof (pow_incr a b m ltac:(lra)).
    pose proof (pow_le a m Ha). pose proof (pow_lt b m ltac:(lra)). nra.
  - assert (b ^ m < a ^ m); [|lra]. clear E. destruct m as [|m]; [lia|]. cbn [pow]. pose proof (pow_incr b a m ltac:(lra)).
    pose proof (pow_le b m Hb). pose proof (pow_lt a m ltac:(lra)). nra.
Qed.

Lemma test_modulus c x y err : sensible c -> away c (sc_error c) x \/ In x (sc_pts c) ->
  exists b y0, is_point c x y err = Done b /\ on_curve c x y0 /\ (b = true <-> Rabs (Cmod y - Cmod y0) <= err).
Proof.
  intros Hs Hx. destruct (branches_solutions c x Hs Hx) as (l & E & L & B & _). unfold se_branches in E.
  assert (Hm : (0 < sc_m c)%nat) by (destruct Hs; lia).
  destruct (principal_branch c x) as [y0| | |] eqn:EP; try discriminate. cbn [bind] in E.
  rewrite multiples_ok in E by lia. injection E as <-.
  unfold is_point. rewrite EP. cbn [bind]. eexists _, y0. split; [reflexivity|]. split.
  - apply B. apply in_map_iff. exists 0%nat. split; [|apply in_seq; lia]. cbn [Z.of_nat]. rewrite root_0. ring.
  - destruct (Rlt_dec err (Rabs (Cmod y - Cmod y0))); split; intro; try easy; lra.
Qed.

Lemma mod_of_curve c x y y0 : (2 <= sc_m c)%nat -> on_curve c x y -> on_curve c x y0 -> Cmod y = Cmod y0.
Proof.
  intros Hm H1 H2. apply (pow_eq_mod _ _ (sc_m c)); try apply Cmod_ge_0; [lia|]. rewrite <- !cpow_mod. unfold on_curve in *. congruence.
Qed.

Lemma test_all c x y err : sensible c -> away c (sc_error c) x \/ In x (sc_pts c) ->
  exists b, is_point c x y err = Done b /\
    (b = true <-> forall y0, on_curve c x y0 -> Rabs (Cmod y - Cmod y0) <= err).
Proof.
  intros Hs Hx. destruct (test_modulus c x y err Hs Hx) as (b & y0 & E & O & B). exists b. split; [exact E|]. rewrite B. split.
  - intros H y1 O1. rewrite (mod_of_curve c x y1 y0) by (try assumption; apply Hs). exact H.
  - intro H. now apply H.
Qed.
Lemma test_accepts c x y err : sensible c -> away c (sc_error c) x \/ In x (sc_pts c) -> 0 <= err -> on_curve c x y ->
  is_point c x y err = Done true.
Proof.
  intros Hs Hx He O. destruct (test_all c x y err Hs Hx) as (b & E & B). rewrite E. f_equal. apply B.
  intros y0 O0. rewrite (mod_of_curve c x y y0) by (try assumption; apply Hs). rewrite Rminus_eq_0, Rabs_R0. exact He.
Qed.
Lemma test_turned c x y u err : sensible c -> away c (sc_error c) x \/ In x (sc_pts c) -> 0 <= err -> on_curve c x y -> Cmod u = 1 ->
  is_point c x (u * y)%C err = Done true.
Proof.
  intros Hs Hx He O Hu. destruct (test_all c x (u * y)%C err Hs Hx) as (b & E & B). rewrite E. f_equal. apply B.
  intros y0 O0. rewrite Cmod_mult, Hu, (mod_of_curve c x y y0) by (try assumption; apply Hs). rewrite Rmult_1_l, Rminus_eq_0, Rabs_R0. exact He.
Qed.

Definition example_curve (m : nat) (lc : R) : se_curve :=
  {| sc_m := m; sc_delta := 1; sc_g := 1; sc_f := [RtoC 0; RtoC (2 * lc); RtoC (- 3 * lc); RtoC lc]; sc_lc := RtoC lc;
     sc_pts := [RtoC 0; RtoC 1; RtoC 2]; sc_prec := 30 |}.
Lemma example_sensible m lc : (2 <= m)%nat -> lc <> 0 -> sensible (example_curve m lc).
Proof. intros Hm Hl. split; [exact Hm|]. split; [|easy]. cbn. intro E. injection E as E. easy. Qed.
Lemma example_away m lc : away (example_curve m lc) (sc_error (example_curve m lc)) (RtoC 3).
Proof.
  intros p Hp. assert (L : sc_error (example_curve m lc) <= 1).
  { unfold sc_error. rewrite <- Rinv_1. apply Rinv_le_contravar; [lra|]. apply pow_R1_Rle. lra. }
  assert (1 <= Cmod (RtoC 3 - p)%C); [|lra]. cbn in Hp. decompose [or] Hp; try easy; subst p; rewrite <- RtoC_minus, Cmod_R; rewrite Rabs_pos_eq; lra.
Qed.
Lemma example_value m lc : value_f (example_curve m lc) (RtoC 3) = RtoC (6 * lc).
Proof. unfold value_f, poly_at. cbn. apply injective_projections; cbn; ring. Qed.

Lemma re_bound z : Rabs (fst z) <= Cmod z.
Proof. unfold Cmod. rewrite <- sqrt_Rsqr_abs. apply sqrt_le_1_alt. unfold Rsqr. cbn [pow]. pose proof (Rle_0_sqr (snd z)) as H. unfold Rsqr in H. lra. Qed.
Lemma wrong_point : let c := example_curve 2 (/ 6) in
  sensible c /\ away c (sc_error c) (RtoC 3) /\ is_point c (RtoC 3) Ci (point_error c) = Done true /\
  forall y, on_curve c (RtoC 3) y -> 1 <= Cmod (Ci - y)%C.
Proof.
  cbv zeta. assert (Hs : sensible (example_curve 2 (/ 6))) by (apply example_sensible; [lia|lra]).
  split; [exact Hs|]. split; [apply example_away|]. split.
  - replace Ci with (Ci * RtoC 1)%C by ring. apply test_turned; [exact Hs|left; apply example_away|left; apply point_error_pos| |].
    + unfold on_curve. rewrite example_value, cpow_one. f_equal. lra.
    + unfold Cmod, Ci. cbn. replace (0 * (0 * 1) + 1 * (1 * 1)) with 1 by ring. apply sqrt_1.
  - intros (a & b) O. unfold on_curve in O. rewrite example_value in O. cbn [example_curve sc_m cpow] in O.
    injection O as O1 O2. refine (Rle_trans _ _ _ _ (re_bound _)). cbn [Ci Cminus Cplus Copp fst snd Re].
    replace (0 + - a) with (- a) by ring. rewrite Rabs_Ropp. assert (H : 1 <= a * a) by nra.
    destruct (Rle_dec 0 a); [rewrite Rabs_pos_eq by assumption|rewrite Rabs_left by lra]; nra.
Qed.

Lemma random_on_curve c x : sensible c -> away c (sc_error c) x \/ In x (sc_pts c) ->
  exists y, random_point c x = Done (x, y) /\ on_curve c x y.
Proof.
  intros Hs Hx. destruct (test_modulus c x (RtoC 0) 0 Hs Hx) as (b & y0 & E & O & B). unfold is_point in E. unfold random_point.
  destruct (classic (away c (sc_error c) x)) as [H|H].
  - rewrite (principal_away c x Hs H). cbn [bind]. eexists. split; [reflexivity|]. apply croot_pow. destruct Hs. lia.
  - destruct Hx as [Hx|Hx]; [easy|]. rewrite (principal_near c x x Hs Hx).
    + cbn [bind]. eexists. split; [reflexivity|]. apply (branches_near c x x Hs Hx).
      replace (x - x)%C with (RtoC 0) by ring. rewrite Cmod_0. apply sc_error_pos.
    + replace (x - x)%C with (RtoC 0) by ring. rewrite Cmod_0. apply sc_error_pos.
Qed.
