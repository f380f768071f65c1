From Verif Require Import CArg ModelTree ModelInter ModelEdge SpecEdge ProofEdge.
Local Open Scope R_scope.

Lemma carg_right z : 0 <= fst z -> - (PI / 2) <= carg z <= PI / 2.
Proof.
  intros H. destruct z as [x y]. cbn [fst] in H. unfold carg. cbn [fst snd]. pose proof PI_RGT_0.
  destruct (Rlt_dec 0 x). { pose proof (atan_bound (y / x)). lra. }
  destruct (Rlt_dec x 0); [lra|]. destruct (Rlt_dec 0 y); [lra|]. destruct (Rlt_dec y 0); lra.
Qed.

Lemma angle_spec ab cd : cd <> RtoC 0 -> exists th, angle ab cd = Done th /\ - / 2 <= th < / 2 /\
  (ab / cd)%C = (RtoC (Cmod (ab / cd)) * cis (2 * PI * th))%C.
Proof.
  intros Hcd. unfold angle. destruct (Req_EM_T (Cmod cd) 0) as [H|_]; [apply Cmod_eq_0 in H; contradiction|].
  set (t := (ab / cd)%C). pose proof PI_RGT_0 as Hpi.
  assert (Hs : forall rho, 2 * PI * (rho / PI / 2) = rho) by (intros; field; lra).
  assert (Hr : forall rho, - PI <= rho < PI -> - / 2 <= rho / PI / 2 < / 2).
  { intros rho [H1 H2]. assert (E : rho = 2 * PI * (rho / PI / 2)) by (symmetry; apply Hs).
    set (q := rho / PI / 2) in *. rewrite E in H1, H2. split.
    - apply (Rmult_le_reg_l (2 * PI)); [lra|]. lra.
    - apply (Rmult_lt_reg_l (2 * PI)); [lra|]. lra. }
  destruct (Rle_dec (fst t) 0) as [Hre|Hre].
  - set (a := carg (- t)%C).
    assert (Hb : - (PI / 2) <= a <= PI / 2).
    { apply carg_right. destruct t as [tx ty]. cbn [fst Copp] in *. lra. }
    pose proof (carg_polar (- t)%C) as E. fold a in E. rewrite Cmod_opp in E.
    destruct (Rle_dec 0 a) as [Ha|Ha]; eexists; (split; [reflexivity|]); (split; [apply Hr; lra|]); rewrite Hs.
    + transitivity (- (- t))%C; [ring|]. rewrite E.
      replace (a - PI) with (- PI + a) by ring. rewrite cis_add.
      assert (Em : cis (- PI) = (- RtoC 1)%C) by (unfold cis, RtoC, Copp; cbn [fst snd]; rewrite cos_neg, sin_neg, cos_PI, sin_PI; reflexivity).
      rewrite Em. ring.
    + transitivity (- (- t))%C; [ring|]. rewrite E. rewrite cis_add, cis_PI, m1. ring.
  - eexists. split; [reflexivity|]. assert (Ht : 0 <= fst t) by lra. pose proof (carg_right t Ht).
    split; [apply Hr; lra|]. rewrite Hs. apply carg_polar.
Qed.

Lemma get_si_int z : get_si (IZR z) = Done z.
Proof.
  unfold get_si. assert (E : Int_part (IZR z) = z).
  { pose proof (base_Int_part (IZR z)) as [H1 H2]. apply le_IZR in H1.
    assert (H3 : IZR z < IZR (Int_part (IZR z)) + 1) by lra. rewrite <- plus_IZR in H3. apply lt_IZR in H3. lia. }
  rewrite E. destruct (Req_EM_T (IZR z) (IZR z)); [reflexivity|contradiction].
Qed.
Lemma get_si_done r z : get_si r = Done z -> r = IZR z.
Proof. unfold get_si. destruct (Req_EM_T _ _) as [E|]; intros H; [|discriminate]. injection H as H. rewrite <- E, H. reflexivity. Qed.

(** B P^m on the unit circle decides the angles *)
Lemma turn_integer (B P : C) rho psi (m : nat) e :
  B = (RtoC (Cmod B) * cis (2 * PI * rho))%C -> P = (RtoC (Cmod P) * cis (2 * PI * psi))%C ->
  (B * cpow P m)%C = cis (2 * PI * e) ->
  exists z : Z, rho + psi * IZR (Z.of_nat m) - e = IZR z.
Proof.
  intros EB EP E.
  assert (Hmod : Cmod B * Cmod P ^ m = 1).
  { rewrite <- cpow_mod, <- Cmod_mult, E. apply cis_mod. }
  assert (Hc : cis (2 * PI * (rho + psi * IZR (Z.of_nat m))) = cis (2 * PI * e)).
  { rewrite <- E. rewrite EB, EP at 1. rewrite cpow_mul, cpow_RtoC, cis_cpow.
    transitivity (RtoC (Cmod B * Cmod P ^ m) * (cis (2 * PI * rho) * cis (INR m * (2 * PI * psi))))%C.
    - rewrite Hmod, <- cis_add. rewrite Cmult_1_l. f_equal. rewrite INR_IZR_INZ. ring.
    - rewrite RtoC_mult. ring. }
  destruct (cis_eq _ _ Hc) as [z Hz]. exists z. pose proof PI_RGT_0. nra.
Qed.

Lemma shift_spec (yk yl : ydata) (m : nat) (t : incidence) :
  let end_k := match t with ABAD => y_ya yk | ABBD => y_yb yk end in
  let e := match t with ABAD => 0 | ABBD => / 2 end in
  (0 < m)%nat -> y_ba2 yl <> RtoC 0 -> end_k <> RtoC 0 ->
  (y_ba2 yk * cpow (y_ya yl) m)%C = (cis (2 * PI * e) * (y_ba2 yl * cpow end_k m))%C ->
  exists s rho, shift_number yk yl (Z.of_nat m) t = Done s /\ - / 2 <= rho < / 2 /\
    (y_ba2 yk / y_ba2 yl)%C = (RtoC (Cmod (y_ba2 yk / y_ba2 yl)) * cis (2 * PI * rho))%C /\
    (y_ya yl / end_k)%C = (RtoC (Cmod (y_ya yl / end_k)) * (cis (- (2 * PI * (rho + e) / IZR (Z.of_nat m))) * root (Z.of_nat m) s))%C /\
    (2 * Z.abs s <= Z.of_nat m + 2)%Z.
Proof.
  intros end_k e Hm Hh He E. unfold shift_number.
  destruct (angle_spec (y_ba2 yk) (y_ba2 yl) Hh) as (rho & Er & Hr & Hrho).
  destruct (angle_spec (y_ya yl) end_k He) as (psi & Ep & Hp & Hpsi).
  rewrite Er. cbn [bind]. fold end_k. rewrite Ep. cbn [bind].
  assert (Hprod : ((y_ba2 yk / y_ba2 yl) * cpow (y_ya yl / end_k) m)%C = cis (2 * PI * e)).
  { assert (Hq : cpow (y_ya yl / end_k)%C m = (cpow (y_ya yl) m / cpow end_k m)%C).
    { assert (Hd : (cpow (y_ya yl / end_k) m * cpow end_k m)%C = cpow (y_ya yl) m).
      { rewrite <- cpow_mul. f_equal. field. exact He. }
      rewrite <- Hd. field. apply cpow_neq_0, He. }
    rewrite Hq. pose proof (cpow_neq_0 end_k m He) as Hz.
    transitivity ((y_ba2 yk * cpow (y_ya yl) m) / (y_ba2 yl * cpow end_k m))%C; [field; auto|].
    rewrite E. field. auto. }
  destruct (turn_integer _ _ rho psi m (- e) Hrho Hpsi) as [z Hz].
  { rewrite Hprod. unfold e. destruct t.
    - f_equal. ring.
    - replace (2 * PI * / 2) with PI by field. replace (2 * PI * - / 2) with (- PI) by field.
      unfold cis. rewrite cos_neg, sin_neg, sin_PI. f_equal. ring. }
  assert (Hz' : rho + psi * IZR (Z.of_nat m) + e = IZR z) by lra.
  exists z, rho. conj; try assumption; try apply Hr.
  - match goal with |- get_si ?r = _ => replace r with (IZR z); [apply get_si_int|] end.
    unfold e in Hz'. destruct t; lra.
  - rewrite Hpsi at 1. f_equal. unfold root. rewrite <- cis_add. f_equal. rewrite <- Hz'.
    field. apply not_0_IZR. lia.
  - assert (Hm0 : 0 < IZR (Z.of_nat m)) by (apply IZR_lt; lia).
    assert (H1 : 2 * IZR z <= IZR (Z.of_nat m) + 2) by (unfold e in Hz'; destruct t; nra).
    assert (H2 : - (IZR (Z.of_nat m) + 2) <= 2 * IZR z) by (unfold e in Hz'; destruct t; nra).
    rewrite <- mult_IZR, <- plus_IZR in H1. apply le_IZR in H1.
    rewrite <- mult_IZR, <- plus_IZR, <- opp_IZR in H2. apply le_IZR in H2. lia.
Qed.

(** ** the data of two edges of one curve *)
Definition rest_of (n a : nat) : list nat := filter (fun k => negb (k =? a)%nat) (seq 0 n).
Definition slope (x : list C) (a : nat) : C := cprod (fun k => vget x a - vget x k)%C (rest_of (length x) a).

Lemma rest_perm n a b : (a < n)%nat -> (b < n)%nat -> a <> b -> Permutation (rest_of n a) (b :: other_points n a b).
Proof.
  intros Ha Hb Hab. apply NoDup_Permutation.
  - apply NoDup_filter, seq_NoDup.
  - constructor; [|apply NoDup_filter, seq_NoDup]. intros H. apply other_points_in in H. lia.
  - intros k. cbn [In]. rewrite other_points_in. unfold rest_of. rewrite filter_In, in_seq, negb_true_iff, Nat.eqb_neq. lia.
Qed.
Lemma other_points_comm n a b : other_points n a b = other_points n b a.
Proof. unfold other_points. apply filter_ext. intros k. rewrite orb_comm. reflexivity. Qed.

Lemma slope_split x a b : (a < length x)%nat -> (b < length x)%nat -> a <> b ->
  slope x a = ((vget x a - vget x b) * cprod (fun k => vget x a - vget x k)%C (other_points (length x) a b))%C.
Proof. intros Ha Hb Hab. unfold slope. rewrite (cprod_perm _ _ _ (rest_perm _ a b Ha Hb Hab)). reflexivity. Qed.

Lemma distinct_get x i j : distinct x -> (i < length x)%nat -> (j < length x)%nat -> i <> j -> vget x i <> vget x j.
Proof. intros H Hi Hj Hij E. apply Hij. unfold vget in E. apply (proj1 (NoDup_nth x (RtoC 0)) H i j Hi Hj E). Qed.

Lemma slope_neq x a : distinct x -> (a < length x)%nat -> slope x a <> RtoC 0.
Proof.
  intros Hd Ha. unfold slope. apply cprod_neq. intros k Hk. unfold rest_of in Hk. rewrite filter_In, in_seq, negb_true_iff, Nat.eqb_neq in Hk.
  assert (Hne : vget x a <> vget x k) by (apply distinct_get; try assumption; lia).
  intros E. apply Hne. replace (vget x a) with (vget x a - vget x k + vget x k)%C by ring. rewrite E. ring.
Qed.

Section Ends.
Context (x : list C) (m : nat).
Hypothesis Hd : distinct x.
Hypothesis Hm : (0 < m)%nat.

Lemma ends_pow nonpos neg a b y : (a < length x)%nat -> (b < length x)%nat -> a <> b ->
  ydata_init_edge nonpos neg x a b (Z.of_nat m) = Done y ->
  y_ba2 y = ((vget x b - vget x a) / RtoC 2)%C /\
  (RtoC 2 * cpow (y_ya y) m)%C = (y_ba2 y * slope x a)%C /\
  (RtoC 2 * cpow (y_yb y) m)%C = (- (y_ba2 y * slope x b))%C /\
  y_ba2 y <> RtoC 0 /\ y_ya y <> RtoC 0 /\ y_yb y <> RtoC 0.
Proof using Hd Hm.
  intros Ha Hb Hab E. pose proof (distinct_get x a b Hd Ha Hb Hab) as Hne.
  destruct (init_spec nonpos neg x a b m Ha Hb Hne Hm) as (y' & E' & _ & _ & _ & _ & Eh & _ & _ & _ & Eya & Eyb).
  rewrite E in E'. injection E' as <-.
  pose proof (h_neq x a b Hne) as Hh. rewrite <- Eh in Hh.
  pose proof (value_pow nonpos neg x a b m Ha Hb Hne Hm y (RtoC (-1)) E) as Va. rewrite <- Eya, <- Eh in Va.
  pose proof (value_pow nonpos neg x a b m Ha Hb Hne Hm y (RtoC 1) E) as Vb. rewrite <- Eyb, <- Eh in Vb.
  assert (Pa : edge_point (vget x a) (vget x b) (RtoC (-1)) = vget x a).
  { unfold edge_point. rewrite m1, two. field. intros H0. injection H0. lra. }
  assert (Pb : edge_point (vget x a) (vget x b) (RtoC 1) = vget x b).
  { unfold edge_point. rewrite two. field. intros H0. injection H0. lra. }
  rewrite Pa in Va. rewrite Pb in Vb.
  assert (Hba : (vget x b - vget x a)%C = (RtoC 2 * y_ba2 y)%C) by (rewrite Eh; field; apply two_neq).
  assert (Ea : (RtoC 2 * cpow (y_ya y) m)%C = (y_ba2 y * slope x a)%C).
  { rewrite Va, (slope_split x a b Ha Hb Hab).
    replace (vget x a - vget x b)%C with (- (vget x b - vget x a))%C by ring. rewrite Hba. ring. }
  assert (Eb : (RtoC 2 * cpow (y_yb y) m)%C = (- (y_ba2 y * slope x b))%C).
  { rewrite Vb, (slope_split x b a Hb Ha (not_eq_sym Hab)), (other_points_comm _ b a). rewrite Hba. ring. }
  conj; try assumption.
  - intros H0. rewrite H0 in Ea. destruct m as [|m']; [lia|]. cbn [cpow] in Ea. rewrite !Cmult_0_r in Ea.
    symmetry in Ea. revert Ea. apply Cmult_neq_0'; [exact Hh|apply slope_neq; assumption].
  - intros H0. rewrite H0 in Eb. destruct m as [|m']; [lia|]. cbn [cpow] in Eb. rewrite !Cmult_0_r in Eb.
    assert (Hz : (y_ba2 y * slope x b)%C <> RtoC 0) by (apply Cmult_neq_0'; [exact Hh|apply slope_neq; assumption]).
    apply Hz. transitivity (- - (y_ba2 y * slope x b))%C; [ring|]. rewrite <- Eb. ring.
Qed.

Lemma same_start nonpos neg nonpos' neg' a b d yk yl : (a < length x)%nat -> (b < length x)%nat -> (d < length x)%nat -> a <> b -> a <> d ->
  ydata_init_edge nonpos neg x a b (Z.of_nat m) = Done yk -> ydata_init_edge nonpos' neg' x a d (Z.of_nat m) = Done yl ->
  (y_ba2 yk * cpow (y_ya yl) m)%C = (y_ba2 yl * cpow (y_ya yk) m)%C.
Proof using Hd Hm.
  intros Ha Hb Hdd Hab Had Ek El.
  destruct (ends_pow _ _ a b yk Ha Hb Hab Ek) as (_ & Ka & _). destruct (ends_pow _ _ a d yl Ha Hdd Had El) as (_ & La & _).
  apply (f_equal (fun z => y_ba2 yl * z)%C) in Ka. apply (f_equal (fun z => y_ba2 yk * z)%C) in La.
  assert (E2 : (RtoC 2 * (y_ba2 yk * cpow (y_ya yl) m))%C = (RtoC 2 * (y_ba2 yl * cpow (y_ya yk) m))%C).
  { transitivity (y_ba2 yk * (RtoC 2 * cpow (y_ya yl) m))%C; [ring|]. rewrite La.
    transitivity (y_ba2 yl * (RtoC 2 * cpow (y_ya yk) m))%C; [|ring]. rewrite Ka. ring. }
  pose proof two_neq as H2. apply (f_equal (fun z => z / RtoC 2)%C) in E2.
  transitivity (RtoC 2 * (y_ba2 yk * cpow (y_ya yl) m) / RtoC 2)%C; [field; exact H2|]. rewrite E2. field. exact H2.
Qed.
Lemma end_to_start nonpos neg nonpos' neg' a b d yk yl : (a < length x)%nat -> (b < length x)%nat -> (d < length x)%nat -> a <> b -> b <> d ->
  ydata_init_edge nonpos neg x a b (Z.of_nat m) = Done yk -> ydata_init_edge nonpos' neg' x b d (Z.of_nat m) = Done yl ->
  (y_ba2 yk * cpow (y_ya yl) m)%C = (- (y_ba2 yl * cpow (y_yb yk) m))%C.
Proof using Hd Hm.
  intros Ha Hb Hdd Hab Hbd Ek El.
  destruct (ends_pow _ _ a b yk Ha Hb Hab Ek) as (_ & _ & Kb & _). destruct (ends_pow _ _ b d yl Hb Hdd Hbd El) as (_ & La & _).
  assert (E2 : (RtoC 2 * (y_ba2 yk * cpow (y_ya yl) m))%C = (RtoC 2 * - (y_ba2 yl * cpow (y_yb yk) m))%C).
  { transitivity (y_ba2 yk * (RtoC 2 * cpow (y_ya yl) m))%C; [ring|]. rewrite La.
    transitivity (- (y_ba2 yl * (RtoC 2 * cpow (y_yb yk) m)))%C; [|ring]. rewrite Kb. ring. }
  pose proof two_neq as H2. apply (f_equal (fun z => z / RtoC 2)%C) in E2.
  transitivity (RtoC 2 * (y_ba2 yk * cpow (y_ya yl) m) / RtoC 2)%C; [field; exact H2|]. rewrite E2. field. exact H2.
Qed.
End Ends.

(** ** a whole tree *)
From Verif Require Import SpecTree SpecInter ProofTreeEx ProofInter ProofInterMain.
Local Open Scope nat_scope.

Lemma tree_ydata_done nonpos neg x m es : distinct x -> 0 < m ->
  (forall e, In e es -> ea e < length x /\ eb e < length x /\ ea e <> eb e) ->
  exists ys, tree_ydata nonpos neg x (Z.of_nat m) es = Done ys /\ length ys = length es /\
    forall k, k < length es ->
      ydata_init_edge (nonpos (nth k es no_edge)) (neg (nth k es no_edge)) x (ea (nth k es no_edge)) (eb (nth k es no_edge)) (Z.of_nat m) = Done (nth k ys no_ydata).
Proof.
  intros Hd Hm. induction es as [|e es IH]; intros He; cbn [tree_ydata].
  - exists []. conj; try reflexivity. cbn. intros; lia.
  - destruct (He e (or_introl eq_refl)) as (Ha & Hb & Hab).
    destruct (init_spec (nonpos e) (neg e) x (ea e) (eb e) m Ha Hb (distinct_get x _ _ Hd Ha Hb Hab) Hm) as (y & Ey & _).
    destruct IH as (ys & Eys & Hl & Hn). { intros e' He'. apply He. right. exact He'. }
    rewrite Ey. cbn [bind]. rewrite Eys. cbn [bind]. exists (y :: ys). conj; [reflexivity|cbn; lia|].
    intros [|k] Hk; cbn [nth length] in *; [exact Ey|]. apply Hn. lia.
Qed.

Lemma growing_edges es len : growing es -> (forall v, touched es v -> v < len) ->
  forall e, In e es -> ea e < len /\ eb e < len /\ ea e <> eb e.
Proof.
  intros Hg Ht e He. conj.
  - apply Ht. exists e. auto.
  - apply Ht. exists e. auto.
  - apply in_split in He. destruct He as (l1 & l2 & E). apply (Hg l1 e l2 E).
Qed.

Lemma whole_tree nonpos neg x m es : distinct x -> 2 <= m -> growing es ->
  (forall v, touched es v -> v < length x) ->
  exists ys c, tree_ydata nonpos neg x (Z.of_nat m) es = Done ys /\ intersection_of_data ys es (Z.of_nat m) = Done c.
Proof.
  intros Hd Hm Hg Ht. pose proof (growing_edges es _ Hg Ht) as He.
  destruct (tree_ydata_done nonpos neg x m es Hd) as (ys & Eys & Hl & Hn); [lia|exact He|].
  exists ys. unfold intersection_of_data.
  set (shift := fun k l t => shift_number (nth k ys no_ydata) (nth l ys no_ydata) (Z.of_nat m) t).
  set (ng := fun k l => is_neg_abad (y_ba2 (nth k ys no_ydata)) (y_ba2 (nth l ys no_ydata))).
  destruct (intersection_tree_spec shift ng (sheet shift ng es) (Z.of_nat m) es) as (c & Ec & _).
  - lia.
  - intros k l Hkl Hr.
    assert (Ik : In (nth k es no_edge) es) by (apply nth_In; lia). assert (Il : In (nth l es no_edge) es) by (apply nth_In; lia).
    destruct (He _ Ik) as (Ka & Kb & Kab). destruct (He _ Il) as (La & Lb & Lab).
    pose proof (Hn k ltac:(lia)) as Yk. pose proof (Hn l ltac:(lia)) as Yl.
    destruct (ends_pow x m Hd ltac:(lia) _ _ _ _ _ Ka Kb Kab Yk) as (_ & _ & _ & Nk & Nya & Nyb).
    destruct (ends_pow x m Hd ltac:(lia) _ _ _ _ _ La Lb Lab Yl) as (_ & _ & _ & Nl & _ & _).
    assert (Hs : exists s, shift k l (kind (relative (ng k l) (nth k es no_edge) (nth l es no_edge))) = Done s).
    { unfold relative in *. destruct (Nat.eqb_spec (ea (nth l es no_edge)) (ea (nth k es no_edge))) as [E|E]; cbn [kind].
      - destruct (shift_spec (nth k ys no_ydata) (nth l ys no_ydata) m ABAD ltac:(lia) Nl Nya) as (s & rho & Es & _).
        + rewrite Rmult_0_r, cis_0, Cmult_1_l.
          rewrite E in Yl, Lab, La. apply (same_start x m Hd ltac:(lia) _ _ _ _ _ _ _ _ _ Ka Kb Lb Kab Lab Yk Yl).
        + exists s. exact Es.
      - destruct (Nat.eqb_spec (ea (nth l es no_edge)) (eb (nth k es no_edge))) as [E'|E']; [|contradiction]. cbn [kind].
        destruct (shift_spec (nth k ys no_ydata) (nth l ys no_ydata) m ABBD ltac:(lia) Nl Nyb) as (s & rho & Es & _).
        + replace (2 * PI * / 2)%R with PI by field. rewrite cis_PI, m1.
          rewrite E' in Yl, Lab, La. rewrite (end_to_start x m Hd ltac:(lia) _ _ _ _ _ _ _ _ _ Ka Kb Lb Kab Lab Yk Yl). ring.
        + exists s. exact Es. }
    destruct Hs as [s Es]. unfold sheet. rewrite Es. reflexivity.
  - exists c. split; [exact Eys|exact Ec].
Qed.

Lemma partition_final nonpos neg x a b m : a < length x -> b < length x -> vget x a <> vget x b -> 0 < m ->
    exists y, ydata_init_edge nonpos neg x a b (Z.of_nat m) = Done y /\
      Permutation
        (map (fun k => (RtoC 2 * vget x k - (vget x b + vget x a)) / (vget x b - vget x a))%C
             (filter (fun k => negb ((k =? a) || (k =? b)))%nat (seq 0 (length x))))
        (y_u y) /\
      y_n1 y <= length (y_u y) /\ length (y_u y) + 2 = length x /\
      (forall p, In p (firstn (y_n1 y) (y_u y)) -> nonpos p = false) /\
      (forall p, In p (skipn (y_n1 y) (y_u y)) -> nonpos p = true) /\
      y_ba2 y = ((vget x b - vget x a) / RtoC 2)%C /\
      y_ab y = ((vget x a + vget x b) / (vget x b - vget x a))%C.
Proof.
  intros Ha Hb Hab Hm.
  destruct (init_spec nonpos neg x a b m Ha Hb Hab Hm) as (y & E & P & Hn & H1 & H2 & H3 & H4 & _).
  exists y. conj; try assumption. pose proof (Permutation_length P) as HL. rewrite map_length in HL.
  assert (a <> b) by (intros ->; contradiction).
  pose proof (other_points_length (length x) a b Ha Hb ltac:(assumption)). lia.
Qed.

Lemma constant_final nonpos neg x a b m y : a < length x -> b < length x -> vget x a <> vget x b -> 0 < m ->
  ydata_init_edge nonpos neg x a b (Z.of_nat m) = Done y ->
  cpow (y_c y) m = (cpow (RtoC (-1)) (y_n1 y + 1)%nat * cpow ((vget x b - vget x a) / RtoC 2)%C (length x))%C.
Proof.
  intros Ha Hb Hab Hm E. destruct (init_spec nonpos neg x a b m Ha Hb Hab Hm) as (y' & E' & _ & _ & _ & _ & _ & _ & Hc & _).
  rewrite E in E'. injection E' as <-. rewrite Hc, Nat.add_1_r. reflexivity.
Qed.

Lemma common_start_final nonpos neg nonpos' neg' x m a b d yk yl : distinct x -> 0 < m ->
    a < length x -> b < length x -> d < length x -> a <> b -> a <> d ->
    ydata_init_edge nonpos neg x a b (Z.of_nat m) = Done yk ->
    ydata_init_edge nonpos' neg' x a d (Z.of_nat m) = Done yl ->
    exists s rho, shift_number yk yl (Z.of_nat m) ABAD = Done s /\ (- / 2 <= rho < / 2)%R /\
      (y_ba2 yk / y_ba2 yl)%C = (RtoC (Cmod (y_ba2 yk / y_ba2 yl)%C) * cis (2 * PI * rho)%R)%C /\
      (y_ya yl / y_ya yk)%C = (RtoC (Cmod (y_ya yl / y_ya yk)%C) * (cis (- (2 * PI * rho / IZR (Z.of_nat m)))%R * root (Z.of_nat m) s))%C /\
      (2 * Z.abs s <= Z.of_nat m + 2)%Z.
Proof.
  intros Hd Hm Ha Hb Hdd Hab Had Ek El.
  destruct (ends_pow x m Hd Hm _ _ _ _ _ Ha Hb Hab Ek) as (_ & _ & _ & _ & Nya & _).
  destruct (ends_pow x m Hd Hm _ _ _ _ _ Ha Hdd Had El) as (_ & _ & _ & Nl & _ & _).
  destruct (shift_spec yk yl m ABAD Hm Nl Nya) as (s & rho & Es & Hr & H1 & H2 & H3).
  - rewrite Rmult_0_r, cis_0, Cmult_1_l. exact (same_start x m Hd Hm _ _ _ _ a b d yk yl Ha Hb Hdd Hab Had Ek El).
  - exists s, rho. rewrite Rplus_0_r in H2. conj; try assumption; try apply Hr.
Qed.
Lemma end_to_start_final nonpos neg nonpos' neg' x m a b d yk yl : distinct x -> 0 < m ->
    a < length x -> b < length x -> d < length x -> a <> b -> b <> d ->
    ydata_init_edge nonpos neg x a b (Z.of_nat m) = Done yk ->
    ydata_init_edge nonpos' neg' x b d (Z.of_nat m) = Done yl ->
    exists s rho, shift_number yk yl (Z.of_nat m) ABBD = Done s /\ (- / 2 <= rho < / 2)%R /\
      (y_ba2 yk / y_ba2 yl)%C = (RtoC (Cmod (y_ba2 yk / y_ba2 yl)%C) * cis (2 * PI * rho)%R)%C /\
      (y_ya yl / y_yb yk)%C = (RtoC (Cmod (y_ya yl / y_yb yk)%C) * (cis (- (2 * PI * (rho + / 2) / IZR (Z.of_nat m)))%R * root (Z.of_nat m) s))%C /\
      (2 * Z.abs s <= Z.of_nat m + 2)%Z.
Proof.
  intros Hd Hm Ha Hb Hdd Hab Hbd Ek El.
  destruct (ends_pow x m Hd Hm _ _ _ _ _ Ha Hb Hab Ek) as (_ & _ & _ & _ & _ & Nyb).
  destruct (ends_pow x m Hd Hm _ _ _ _ _ Hb Hdd Hbd El) as (_ & _ & _ & Nl & _ & _).
  destruct (shift_spec yk yl m ABBD Hm Nl Nyb) as (s & rho & Es & Hr & H1 & H2 & H3).
  - replace (2 * PI * / 2)%R with PI by field. rewrite cis_PI, m1.
    rewrite (end_to_start x m Hd Hm _ _ _ _ a b d yk yl Ha Hb Hdd Hab Hbd Ek El). ring.
  - exists s, rho. conj; try assumption; try apply Hr.
Qed.
Lemma always_computed_final nonpos neg x m sort param n r mn es r' mn' : distinct x -> 2 <= m ->
    (forall l, Permutation l (sort l)) -> n < length x ->
    spanning_tree sort param (length x) n r mn = Done (es, r', mn') ->
    exists ys c, tree_ydata nonpos neg x (Z.of_nat m) es = Done ys /\
      intersection_of_data ys es (Z.of_nat m) = Done c.
Proof.
  intros Hd Hm Hs Hn Et.
  destruct (tree_final sort param (length x) n r mn Hs Hn) as (l0 & r0 & mn0 & Et' & _ & Hg & _ & _ & Hr & _).
  rewrite Et in Et'. injection Et' as <- <- <-. apply whole_tree; assumption.
Qed.
