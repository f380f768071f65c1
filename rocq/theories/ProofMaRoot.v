(** Proofs about the analytic continuation of the Magma package. *)
From Verif Require Import CArg ModelTree ModelVec ModelPeriod ModelTurn ModelEdge ModelMaRoot SpecEdge SpecTurn ProofEdge ProofTurn.
Local Open Scope R_scope.

(** ** signs and arguments *)
Lemma im_cases z : z <> RtoC 0 ->
  (im_sgn z = 1%Z /\ 0 <= carg z <= PI) \/ (im_sgn z = (-1)%Z /\ - PI < carg z < 0).
Proof.
  intros Hz. apply Cmod_gt_0 in Hz. destruct (re_im z) as [Er Ei]. pose proof (carg_range z) as Hr.
  pose proof PI_RGT_0 as Hpi. unfold im_sgn.
  destruct (Rlt_le_dec (carg z) 0) as [Hn|Hp].
  - right. assert (Hs : sin (carg z) < 0) by (apply sin_lt_0_var; lra).
    destruct (Req_EM_T (snd z) 0); [nra|]. destruct (Rlt_dec 0 (snd z)); [nra|]. split; [reflexivity|lra].
  - left. assert (Hs : 0 <= sin (carg z)) by (apply sin_ge_0; lra).
    destruct (Req_EM_T (snd z) 0); [split; [reflexivity|lra]|]. destruct (Rlt_dec 0 (snd z)); [split; [reflexivity|lra]|nra].
Qed.

Definition good (ts : C * Z) : Prop :=
  fst ts <> RtoC 0 /\
  ((snd ts = 1%Z /\ 0 <= carg (fst ts) < PI) \/ (snd ts = (-1)%Z /\ - PI < carg (fst ts) <= 0)).

Definition shift (isgnz s isgnz' : Z) : Z :=
  if (isgnz =? s)%Z && negb (isgnz' =? s)%Z then (if (s =? 1)%Z then 2 else -2)%Z else 0%Z.

Lemma ac_step z t s : z <> RtoC 0 -> good (t, s) ->
  carg z + carg t = carg (z * t)%C + PI * IZR (shift (im_sgn z) s (im_sgn (z * t)%C)).
Proof.
  intros Hz [Ht Hs]. cbn [fst snd] in *. pose proof PI_RGT_0 as Hpi.
  destruct (carg_mult_z z t Hz Ht) as [k Hk]. pose proof (Cmult_neq_0' z t Hz Ht) as Hzt.
  assert (Ek : 2 * PI * IZR k = carg z + carg t - carg (z * t)%C) by lra.
  destruct (im_cases z Hz) as [[Ez Rz] | [Ez Rz]];
  destruct Hs as [[Es Rs] | [Es Rs]];
  destruct (im_cases _ Hzt) as [[E R] | [E R]];
  rewrite Ez, Es, E; unfold shift; cbn [Z.eqb Pos.eqb negb andb].
  - assert (k = 0)%Z as -> by (assert (-1 < k < 1)%Z by (apply (int_between k (-1) 1 _ eq_refl); rewrite Ek; lra); lia). lra.
  - assert (k = 1)%Z as -> by (assert (0 < k < 2)%Z by (apply (int_between k 0 2 _ eq_refl); rewrite Ek; lra); lia). lra.
  - assert (k = 0)%Z as -> by (assert (-1 < k < 1)%Z by (apply (int_between k (-1) 1 _ eq_refl); rewrite Ek; lra); lia). lra.
  - assert (k = 0)%Z as -> by (assert (-1 < k < 1)%Z by (apply (int_between k (-1) 1 _ eq_refl); rewrite Ek; lra); lia). lra.
  - assert (k = 0)%Z as -> by (assert (-1 < k < 1)%Z by (apply (int_between k (-1) 1 _ eq_refl); rewrite Ek; lra); lia). lra.
  - assert (k = 0)%Z as -> by (assert (-1 < k < 1)%Z by (apply (int_between k (-1) 1 _ eq_refl); rewrite Ek; lra); lia). lra.
  - assert (k = -1)%Z as -> by (assert (-2 < k < 0)%Z by (apply (int_between k (-2) 0 _ eq_refl); rewrite Ek; lra); lia). lra.
  - assert (k = 0)%Z as -> by (assert (-1 < k < 1)%Z by (apply (int_between k (-1) 1 _ eq_refl); rewrite Ek; lra); lia). lra.
Qed.

(** ** the loop on a list of factors with declared signs *)
Fixpoint ac_list (l : list (C * Z)) (z : C) (isgnz w : Z) : C * Z :=
  match l with
  | [] => (z, w)
  | (t, s) :: l => ac_list l (z * t)%C (im_sgn (z * t)%C) (w + shift isgnz s (im_sgn (z * t)%C))
  end.

Lemma ac_list_spec l : forall z w, z <> RtoC 0 -> Forall good l ->
  fst (ac_list l z (im_sgn z) w) = (z * SpecTurn.cprod (map fst l))%C /\
  carg z + asum (map fst l) = carg (fst (ac_list l z (im_sgn z) w)) + PI * IZR (snd (ac_list l z (im_sgn z) w) - w).
Proof.
  induction l as [|[t s] l IH]; intros z w Hz HG; cbn [ac_list map asum fold_right fst snd].
  - unfold SpecTurn.cprod. cbn [fold_right]. split; [ring|]. rewrite Z.sub_diag. lra.
  - inversion_clear HG as [|? ? Hg Hl].
    pose proof (ac_step z t s Hz Hg) as Hst. destruct Hg as [Ht Hs].
    destruct (IH (z * t)%C (w + shift (im_sgn z) s (im_sgn (z * t)%C))%Z (Cmult_neq_0' _ _ Hz Ht) Hl) as [E1 E2].
    set (r := ac_list _ _ _ _) in *. split.
    + rewrite E1. unfold SpecTurn.cprod. cbn [fold_right fst]. ring.
    + cbn [fst] in *. fold (asum (map fst l)) in *. rewrite minus_IZR in *. rewrite plus_IZR in E2. lra.
Qed.

(** the first factor: its declared sign is wrong when it is a positive real declared negative *)
Definition odd_start (l : list (C * Z)) : Prop :=
  match l with
  | (t0, s0) :: (t1, s1) :: _ => carg t0 = 0 /\ s0 = (-1)%Z /\ carg t1 = 0 /\ s1 = (-1)%Z
  | _ => False
  end.

Lemma im_sgn_zero z : z <> RtoC 0 -> carg z = 0 -> im_sgn z = 1%Z.
Proof. intros Hz E. destruct (im_cases z Hz) as [[H _]|[_ H]]; [exact H|lra]. Qed.

Lemma good_sgn t s : good (t, s) -> s = im_sgn t \/ (carg t = 0 /\ s = (-1)%Z).
Proof.
  intros [Ht Hs]. cbn [fst snd] in *. destruct (im_cases t Ht) as [[E R]|[E R]]; destruct Hs as [[-> H]|[-> H]]; rewrite E; auto.
  - right. split; [lra|reflexivity].
  - lra.
Qed.

Lemma carg_pos_mult t0 t1 : t0 <> RtoC 0 -> t1 <> RtoC 0 -> carg t0 = 0 -> carg (t0 * t1)%C = carg t1.
Proof.
  intros H0 H1 E. pose proof (carg_polar t0) as P0. rewrite E, cis_0, Cmult_1_r in P0.
  apply (carg_unique _ (Cmod t0 * Cmod t1)).
  - apply Rmult_lt_0_compat; apply Cmod_gt_0; assumption.
  - apply carg_range.
  - rewrite P0 at 1. rewrite (carg_polar t1) at 1. rewrite RtoC_mult. ring.
Qed.

Lemma ac_list_start t0 s0 l : Forall good ((t0, s0) :: l) ->
  exists e : Z, (odd_start ((t0, s0) :: l) /\ e = 1%Z \/ ~ odd_start ((t0, s0) :: l) /\ e = 0%Z) /\
  fst (ac_list l t0 s0 0) = SpecTurn.cprod (map fst ((t0, s0) :: l)) /\
  asum (map fst ((t0, s0) :: l)) = carg (fst (ac_list l t0 s0 0)) + PI * IZR (snd (ac_list l t0 s0 0) + 2 * e).
Proof.
  intros HG. inversion_clear HG as [|? ? Hg Hl]. pose proof Hg as [Ht0 Hs0]. cbn [fst] in Ht0.
  pose proof (good_sgn _ _ Hg) as Hs.
  destruct (Z.eq_dec s0 (im_sgn t0)) as [->|Hne].
  - exists 0%Z. split; [right; split; [|reflexivity]|].
    + destruct l as [|[t1 s1] l]; cbn [odd_start]; [tauto|]. intros (H1 & H2 & _).
      rewrite (im_sgn_zero _ Ht0 H1) in H2. discriminate.
    + destruct (ac_list_spec l t0 0 Ht0 Hl) as [E1 E2]. split; [rewrite E1; unfold SpecTurn.cprod; cbn [map fold_right fst]; reflexivity|].
      cbn [map asum fold_right fst]. fold (asum (map fst l)). rewrite E2, Z.sub_0_r. f_equal. f_equal. f_equal. lia.
  - destruct Hs as [Hs|[Ha ->]]; [contradiction|]. pose proof (im_sgn_zero _ Ht0 Ha) as Hi.
    destruct l as [|[t1 s1] l].
    + exists 0%Z. split; [right; cbn; tauto|]. cbn [ac_list fst snd map]. unfold SpecTurn.cprod. cbn [fold_right fst asum].
      split; [ring|]. change (0 + 2 * 0)%Z with 0%Z. lra.
    + inversion_clear Hl as [|? ? Hg1 Hl']. pose proof Hg1 as [Ht1 Hs1]. cbn [fst] in Ht1.
      cbn [ac_list].
      pose proof (Cmult_neq_0' _ _ Ht0 Ht1) as Hz. pose proof (carg_pos_mult _ _ Ht0 Ht1 Ha) as Ec.
      set (w1 := (0 + shift (-1) s1 (im_sgn (t0 * t1)%C))%Z).
      destruct (ac_list_spec l (t0 * t1)%C w1 Hz Hl') as [E1 E2].
      assert (Hcase : exists e, (odd_start ((t0, (-1)%Z) :: (t1, s1) :: l) /\ e = 1%Z \/ ~ odd_start ((t0, (-1)%Z) :: (t1, s1) :: l) /\ e = 0%Z) /\ w1 = (- 2 * e)%Z).
      { cbn [odd_start]. cbn [fst snd] in Hs1. destruct Hs1 as [[-> R1]|[-> R1]].
        - exists 0%Z. split; [right; split; [|reflexivity]; intros (_ & _ & _ & H); discriminate|]. reflexivity.
        - destruct (Req_EM_T (carg t1) 0) as [E0|E0].
          + exists 1%Z. split; [left; tauto|]. unfold w1. rewrite (im_sgn_zero _ Hz) by lra. reflexivity.
          + exists 0%Z. split; [right; tauto|]. unfold w1.
            destruct (im_cases _ Hz) as [[_ H]|[H _]]; [exfalso; apply E0; lra|]. rewrite H. reflexivity. }
      destruct Hcase as (e & He & Ew). exists e. split; [exact He|].
      set (r := ac_list l _ _ w1) in *. split.
      * rewrite E1. unfold SpecTurn.cprod. cbn [map fold_right fst]. ring.
      * cbn [map asum fold_right fst] in *. fold (asum (map fst l)) in *. rewrite Ew in E2.
        replace (snd r - -2 * e)%Z with (snd r + 2 * e)%Z in E2 by lia. lra.
Qed.

(** ** reading the arrays *)
Definition afac (e : se_edge) (x : R) (k : nat) : C :=
  let p := vget (e_data e) k in if (k <? e_up e)%nat then (p - RtoC x)%C else (RtoC x - p)%C.
Definition asg (e : se_edge) (k : nat) : Z := nth k (e_isgn e) 0%Z.
Definition pairs (e : se_edge) (x : R) (ks : list nat) : list (C * Z) := map (fun k => (afac e x k, asg e k)) ks.

Lemma ac_factor_ok e k x : (k < length (e_data e))%nat -> ac_factor e k x = Done (afac e x k).
Proof. intros H. unfold ac_factor, vread, afac. destruct (Nat.ltb_spec k (length (e_data e))); [reflexivity|lia]. Qed.
Lemma sread_ok l k : (k < length l)%nat -> sread l k = Done (nth k l 0%Z).
Proof. intros H. unfold sread. rewrite (nth_error_nth' l 0%Z H). reflexivity. Qed.

Lemma ac_loop_ok e x todo : forall k z s w, (k + todo <= length (e_data e))%nat -> (k + todo <= length (e_isgn e))%nat ->
  ac_loop e x todo k z s w = Done (ac_list (pairs e x (seq k todo)) z s w).
Proof.
  induction todo as [|todo IH]; intros k z s w H1 H2; cbn [ac_loop seq pairs map ac_list]; [reflexivity|].
  rewrite ac_factor_ok by lia. cbn [bind]. rewrite sread_ok by lia. cbn [bind].
  rewrite IH by lia. unfold pairs, asg. f_equal. f_equal. unfold shift.
  destruct ((s =? nth k (e_isgn e) 0)%Z && negb (im_sgn (z * afac e x k)%C =? nth k (e_isgn e) 0)%Z);
    [destruct (nth k (e_isgn e) 0 =? 1)%Z|]; lia.
Qed.

Lemma zetas_read m (w : Z) : (0 < m)%nat ->
  vread (zetas m) (Z.to_nat (w mod (2 * Z.of_nat m))) = Done (cis (PI * IZR w / INR m)).
Proof.
  intros Hm. set (M := (2 * Z.of_nat m)%Z). assert (HM : (0 < M)%Z) by (unfold M; lia).
  pose proof (Z.mod_pos_bound w M HM) as Hr. unfold vread, zetas. rewrite map_length, seq_length.
  destruct (Nat.ltb_spec (Z.to_nat (w mod M)) (2 * m)); [|unfold M in *; lia]. f_equal.
  unfold vget. set (f := fun k : nat => cis (INR k * PI / INR m)).
  rewrite (nth_indep _ (RtoC 0) (f 0%nat)) by (rewrite map_length, seq_length; assumption).
  rewrite map_nth, seq_nth by assumption. unfold f. cbn [Nat.add].
  rewrite INR_IZR_INZ, Z2Nat.id by lia.
  assert (Hm0 : INR m <> 0) by (apply not_0_INR; lia).
  rewrite (Z.div_mod w M) at 2 by lia.
  assert (HMR : IZR M = 2 * INR m) by (unfold M; rewrite mult_IZR, <- INR_IZR_INZ; reflexivity).
  rewrite plus_IZR, mult_IZR, HMR.
  replace (PI * (2 * INR m * IZR (w / M) + IZR (w mod M)) / INR m)
    with (2 * PI * IZR (w / M) + IZR (w mod M) * PI / INR m) by (field; exact Hm0).
  rewrite cis_add, cis_2PI_Z. ring.
Qed.

Lemma cexp_clog m z : (0 < m)%nat -> z <> RtoC 0 -> cexp (clog z / RtoC (INR m))%C = croot (Z.of_nat m) z.
Proof.
  intros Hm Hz. apply Cmod_gt_0 in Hz. assert (Hm0 : INR m <> 0) by (apply not_0_INR; lia).
  replace (clog z / RtoC (INR m))%C with ((/ INR m * ln (Cmod z), carg z / INR m) : C).
  - unfold cexp, croot, rroot. cbn [fst snd]. rewrite <- INR_IZR_INZ. destruct (Rlt_dec 0 (Cmod z)); [reflexivity|lra].
  - unfold clog, Cdiv, Cinv, Cmult, RtoC. cbn [fst snd]. f_equal; field; repeat split; nra.
Qed.

Lemma ac_mth_root_ok m n e x : (2 <= m)%nat -> (1 <= n)%nat -> (n <= length (e_data e))%nat -> (n <= length (e_isgn e))%nat ->
  Forall good (pairs e x (seq 0 n)) ->
  exists k : Z, (odd_start (pairs e x (seq 0 n)) /\ k = 1%Z \/ ~ odd_start (pairs e x (seq 0 n)) /\ k = 0%Z) /\
  ac_mth_root x e (zetas m) m n =
    Done (root (Z.of_nat m) (- k) * roots_product (Z.of_nat m) (map (afac e x) (seq 0 n)))%C.
Proof.
  intros Hm Hn Hd Hi HG. destruct n as [|n]; [lia|]. cbn [seq pairs map] in HG |- *. fold (pairs e x (seq 1 n)) in *.
  unfold ac_mth_root. rewrite ac_factor_ok by lia. cbn [bind]. rewrite sread_ok by lia. cbn [bind].
  rewrite ac_loop_ok by lia. replace (S n - 1)%nat with n by lia. cbn [bind].
  fold (asg e 0). destruct (ac_list_start _ _ _ HG) as (k & Hk & E1 & E2).
  exists k. split; [exact Hk|].
  assert (Hf : map fst ((afac e x 0, asg e 0) :: pairs e x (seq 1 n)) = afac e x 0 :: map (afac e x) (seq 1 n)).
  { cbn [map fst]. f_equal. unfold pairs. rewrite map_map. reflexivity. }
  rewrite Hf in E1, E2.
  assert (Hz : SpecTurn.cprod (afac e x 0 :: map (afac e x) (seq 1 n)) <> RtoC 0).
  { apply cprod_nonzero. rewrite <- Hf. intros z Hin. apply in_map_iff in Hin. destruct Hin as (p & <- & Hp).
    apply Forall_forall with (x := p) in HG; [|exact Hp]. apply HG. }
  destruct (ac_list (pairs e x (seq 1 n)) (afac e x 0) (asg e 0) 0) as [z w]. cbn [fst snd] in *. subst z.
  set (L := afac e x 0 :: map (afac e x) (seq 1 n)) in *. set (z := SpecTurn.cprod L) in *.
  rewrite roots_product_polar. fold z. rewrite E2.
  assert (Hm0 : INR m <> 0) by (apply not_0_INR; lia). pose proof PI_RGT_0 as Hpi.
  assert (Hgoal : forall z' w', z' <> RtoC 0 -> Cmod z' = Cmod z -> carg z' + PI * IZR w' = carg z + PI * IZR w ->
    (cis (PI * IZR w' / INR m) * croot (Z.of_nat m) z')%C =
    (root (Z.of_nat m) (- k) * (RtoC (rroot (Z.of_nat m) (Cmod z)) * cis ((carg z + PI * IZR (w + 2 * k)) / IZR (Z.of_nat m))))%C).
  { intros z' w' Hz' Hmod Harg. unfold croot, root. rewrite Hmod, <- !INR_IZR_INZ.
    rewrite (Cmult_comm (RtoC _)), (Cmult_assoc (cis _)), <- cis_add.
    rewrite (Cmult_comm (RtoC _)), (Cmult_assoc (cis _)), <- cis_add. f_equal. f_equal.
    rewrite opp_IZR, plus_IZR, mult_IZR.
    replace (PI * IZR w' / INR m + carg z' / INR m) with ((carg z' + PI * IZR w') / INR m) by (field; exact Hm0).
    rewrite Harg. field. exact Hm0. }
  set (neg := if Req_EM_T (snd z) 0 then _ else _).
  assert (Hcase : exists z' w', (if neg then (- z)%C else z) = z' /\ (if neg then (w + 1)%Z else w) = w' /\
    z' <> RtoC 0 /\ Cmod z' = Cmod z /\ carg z' + PI * IZR w' = carg z + PI * IZR w).
  { eexists. eexists. split; [reflexivity|]. split; [reflexivity|]. unfold neg.
    destruct (Req_EM_T (snd z) 0) as [H1|H1]; [|auto]. destruct (Rlt_dec (fst z) 0) as [H2|H2]; [|auto].
    split; [intros E; apply Hz; replace z with (- (- z))%C by ring; rewrite E; ring|].
    split; [apply Cmod_opp|].
    assert (Ez : z = (RtoC (- fst z) * cis PI)%C) by (rewrite cis_PI; unfold Cmult, RtoC; cbn [fst snd]; rewrite (surjective_pairing z) at 1; rewrite H1; f_equal; ring).
    rewrite (carg_unique z (- fst z) PI); [|lra|lra|exact Ez].
    rewrite (carg_unique (- z)%C (- fst z) 0); [|lra|lra|].
    - rewrite plus_IZR. lra.
    - rewrite cis_0, Cmult_1_r. unfold Copp, RtoC. rewrite H1. f_equal. ring. }
  destruct Hcase as (z' & w' & -> & -> & Hz' & Hmod & Harg).
  destruct (Nat.eqb_spec m 2) as [->|Hm2].
  - replace (w' mod 4)%Z with (w' mod (2 * Z.of_nat 2))%Z by reflexivity. rewrite zetas_read by lia. cbn [bind].
    change 2%Z with (Z.of_nat 2) at 1. rewrite Hgoal by assumption. reflexivity.
  - rewrite zetas_read by lia. cbn [bind]. rewrite cexp_clog by (assumption || lia). rewrite Hgoal by assumption. reflexivity.
Qed.
