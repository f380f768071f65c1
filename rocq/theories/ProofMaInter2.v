(** The pair of numbers of two edges in the Magma package. *)
From Coquelicot Require Import Coquelicot.
From Verif Require Import CArg ModelTree ModelVec ModelPeriod ModelTurn ModelEdge ModelMaRoot ModelMaTree ModelSymp SpecTurn SpecMaRoot ProofEdge ProofTurn ProofMaRoot ProofMaRoot2 ProofMaRoot3 ProofErr3 ProofHol11 ProofAngle SpecCross ProofCross ProofCross2 ModelMaInter SpecDeq SpecEdge.
Local Open Scope R_scope.

Lemma round_int r k : r = IZR k -> round_near r = k.
Proof.
  intros ->. unfold round_near. destruct (base_Int_part (IZR k + / 2)) as (A & B).
  assert (X : IZR (Int_part (IZR k + / 2)) < IZR (k + 1)) by (rewrite plus_IZR; lra). apply lt_IZR in X.
  assert (Y : IZR (k - 1) < IZR (Int_part (IZR k + / 2))) by (rewrite minus_IZR; lra). apply lt_IZR in Y. lia.
Qed.

(** ** a root of 1, or of -1, up to a factor *)
Lemma power_polar m v : cpow v m = (RtoC (Cmod v ^ m) * cis (INR m * carg v))%C.
Proof. rewrite (carg_polar v) at 1. rewrite cpow_mul, cpow_RtoC, cpow_cis. reflexivity. Qed.
Lemma unit_pos r t s : 0 < r -> (RtoC r * cis t)%C = cis s -> cis t = cis s.
Proof.
  intros Hr E. assert (M := f_equal Cmod E). rewrite Cmod_mult, Cmod_R, !cis_mod, Rabs_pos_eq in M by lra. rewrite Rmult_1_r in M. subst r. rewrite Cmult_1_l in E. exact E.
Qed.
Lemma power_turn m v q s : v <> RtoC 0 -> q <> RtoC 0 -> (cpow v m * q)%C = cis s -> exists k : Z, carg q + INR m * carg v = s + 2 * PI * IZR k.
Proof.
  intros Hv Hq E. rewrite power_polar, (carg_polar q) in E.
  assert (Pv : 0 < Cmod v ^ m) by (apply pow_lt, Cmod_gt_0, Hv). assert (Pq : 0 < Cmod q) by (apply Cmod_gt_0, Hq).
  assert (E2 : (RtoC (Cmod v ^ m * Cmod q) * cis (carg q + INR m * carg v))%C = cis s).
  { rewrite <- E, CBase.cis_add, RtoC_mult. ring. }
  apply unit_pos in E2; [|apply Rmult_lt_0_compat; assumption]. exact (cis_eq _ _ E2).
Qed.

Lemma carg_along z : z <> RtoC 0 -> along z (carg z).
Proof. intro H. split; [exact H|apply carg_polar]. Qed.
Lemma quot_neq p q : p <> RtoC 0 -> q <> RtoC 0 -> (q / p)%C <> RtoC 0.
Proof. intros Hp Hq E. apply Hq. replace q with (q / p * p)%C by (field; exact Hp). rewrite E. ring. Qed.
Lemma offset_arg M p q s r : (0 < M)%Z -> p <> RtoC 0 -> q <> RtoC 0 -> carg (q / p)%C = 2 * PI * (IZR s - r) / IZR M -> offset_by M p q s r.
Proof.
  intros HM Hp Hq E. exists (carg p). split; [apply carg_along, Hp|]. rewrite <- E. split; [exact Hq|].
  rewrite CBase.cis_add.
  transitivity (p * (q / p))%C; [field; exact Hp|]. rewrite (carg_polar p), (carg_polar (q / p)%C) at 1.
  replace (Cmod q) with (Cmod p * Cmod (q / p)%C). 2: { rewrite <- Cmod_mult. f_equal. field. exact Hp. }
  rewrite RtoC_mult. ring.
Qed.
Lemma offset_scal M p q s r c : 0 < c -> offset_by M p q s r -> offset_by M (RtoC c * p)%C (RtoC c * q)%C s r.
Proof. intros Hc (t & A & B). exists t. split; apply along_scal; assumption. Qed.

(** ** the values at the ends of an edge *)
Section Curve.
Context (x : list C) (m : nat).
Let n := length x.
Hypothesis Hd : distinct x.
Hypothesis Hm : (2 <= m)%nat.
Hypothesis Hn : (3 <= n)%nat.

Definition edge_values (a b : nat) (e : se_edge) (f : R -> C) : Prop :=
  edge_data x (zetas m) m n a b = Done e /\
  (forall t, continuous (fun t => fst (f t)) t /\ continuous (fun t => snd (f t)) t) /\
  (forall t, -1 <= t <= 1 -> end_value t e (zetas m) m n = Done (f t) /\
     (cpow (RtoC 2) n * poly_at x (edge_point (vget x a) (vget x b) (RtoC t)))%C = ((RtoC 1 - RtoC t * RtoC t) * cpow (f t) m)%C) /\
  vread (e_data e) (n - 2) = Done ((vget x b - vget x a) / RtoC 2)%C /\
  (RtoC 2 * cpow (f (-1)) m)%C = (cpow (RtoC 2) n * ((vget x b - vget x a) / RtoC 2) * slope x a)%C /\
  (RtoC 2 * cpow (f 1) m)%C = (- (cpow (RtoC 2) n * ((vget x b - vget x a) / RtoC 2) * slope x b))%C /\
  f (-1) <> RtoC 0 /\ f 1 <> RtoC 0.

Lemma power_nonzero (z w : C) : (RtoC 2 * cpow z m)%C = w -> w <> RtoC 0 -> z <> RtoC 0.
Proof. intros E Hw ->. apply Hw. rewrite <- E. destruct m; [lia|]. cbn [cpow]. ring. Qed.

Lemma values_exist a b : (a < n)%nat -> (b < n)%nat -> a <> b -> clear_edge x a b -> exists e f, edge_values a b e f.
Proof using All.
  intros Ha Hb Hab Hc. pose proof (distinct_get x a b Hd Ha Hb Hab) as Hne.
  destruct (edge_data_ok x a b m Ha Hb Hne Hm Hn) as (e & u & up & c & E & HE).
  destruct (edge_branch x a b m Ha Hb Hne Hm Hn e u up c HE Hc) as (k & _ & HB).
  set (f := fun t => (c * (root (Z.of_nat m) (- k) * y_tilde (Z.of_nat m) u up (RtoC t)))%C).
  exists e, f. pose proof (edge_constant x a b m Ha Hb Hne Hm Hn e u up c HE) as (K1 & K2).
  assert (Lu : (length (e_data e) = n + 1)%nat). { destruct HE as (-> & _ & HL & _). cbn [e_data]. rewrite app_length. cbn [length]. fold n in HL. lia. }
  assert (P : forall t, cpow (f t) m = (cpow (RtoC 2) n * - ((vget x b - vget x a) / RtoC 2 * ((vget x b - vget x a) / RtoC 2) * cprod (fun k => edge_point (vget x a) (vget x b) (RtoC t) - vget x k)%C (other_points n a b)))%C).
  { intro t. rewrite <- (tilde_power x a b m Ha Hb Hne Hm Hn e u up c HE). unfold f. rewrite !cpow_mul, root_pow_one by exact Hm. ring. }
  assert (Pa : edge_point (vget x a) (vget x b) (RtoC (-1)) = vget x a).
  { unfold edge_point. rewrite m1, two. field. intros H0. injection H0. lra. }
  assert (Pb : edge_point (vget x a) (vget x b) (RtoC 1) = vget x b).
  { unfold edge_point. rewrite two. field. intros H0. injection H0. lra. }
  assert (Ea : (RtoC 2 * cpow (f (-1)) m)%C = (cpow (RtoC 2) n * ((vget x b - vget x a) / RtoC 2) * slope x a)%C).
  { rewrite P, Pa, (slope_split x a b Ha Hb Hab). fold n. set (Q := cprod _ _). field. apply two_neq. }
  assert (Eb : (RtoC 2 * cpow (f 1) m)%C = (- (cpow (RtoC 2) n * ((vget x b - vget x a) / RtoC 2) * slope x b))%C).
  { rewrite P, Pb, (slope_split x b a Hb Ha (not_eq_sym Hab)), (other_points_comm _ b a). fold n. set (Q := cprod _ _). field. apply two_neq. }
  assert (Hh : ((vget x b - vget x a) / RtoC 2)%C <> RtoC 0) by (apply (h_neq x a b Hne)).
  assert (H2 : cpow (RtoC 2) n <> RtoC 0) by (apply cpow_neq_0, two_neq).
  split; [exact E|]. split.
  { intro t. apply (ccont_mult (fun _ => c)); [apply ccont_const|]. apply (ccont_mult (fun _ => root (Z.of_nat m) (- k))); [apply ccont_const|]. apply y_cont_m. lia. }
  split.
  { intros t Ht. split.
    - unfold end_value. fold n in HB. rewrite (HB t Ht). cbn [bind]. rewrite vread_ok by lia. cbn [bind]. fold n in K1. rewrite K1. reflexivity.
    - rewrite <- (tilde_equation x a b m Ha Hb Hne Hm Hn e u up c HE). f_equal. unfold f. rewrite !cpow_mul, root_pow_one by exact Hm. ring. }
  split; [rewrite vread_ok by lia; fold n in K2; rewrite K2; reflexivity|].
  split; [exact Ea|]. split; [exact Eb|]. split.
  - apply (power_nonzero _ _ Ea). apply Cmult_neq_0'; [apply Cmult_neq_0'; [exact H2|exact Hh]|apply slope_neq; assumption].
  - apply (power_nonzero _ _ Eb). intro X. assert (Y : forall z : C, (- z)%C = RtoC 0 -> z = RtoC 0) by (intros z Z; replace z with (- - z)%C by ring; rewrite Z; ring). apply Y in X. revert X. apply Cmult_neq_0'; [apply Cmult_neq_0'; [exact H2|exact Hh]|apply slope_neq; assumption].
Qed.

Lemma end_points_4 i j k l : (end_points i j k l =? 4)%nat = true <-> NoDup [i; j; k; l].
Proof.
  unfold end_points. rewrite Nat.eqb_eq. split.
  - intro H. apply (@NoDup_incl_NoDup _ (nodup Nat.eq_dec [i; j; k; l])); [apply NoDup_nodup|rewrite H; cbn [length]; lia|intros z; apply nodup_In].
  - intro H. rewrite (nodup_fixed_point Nat.eq_dec H). reflexivity.
Qed.
Lemma end_points_less i j k l : ~ NoDup [i; j; k; l] -> (end_points i j k l =? 4)%nat = false.
Proof. intro H. destruct (end_points i j k l =? 4)%nat eqn:E; [|reflexivity]. exfalso. apply H, end_points_4, E. Qed.

Lemma half_quot a b c d : vget x c <> vget x d -> (vget x b - vget x a)%C = ((vget x b - vget x a) / RtoC 2 / ((vget x d - vget x c) / RtoC 2) * (vget x d - vget x c))%C.
Proof. intro H. field. split; [apply two_neq|]. intro X. apply H. replace (vget x d) with (vget x d - vget x c + vget x c)%C by ring. rewrite X. ring. Qed.

Lemma pair_start a b d e1 f1 e2 f2 : (a < n)%nat -> (b < n)%nat -> (d < n)%nat -> a <> b -> a <> d -> b <> d ->
  free_segment x (vget x a) (vget x b) -> free_segment x (vget x a) (vget x d) ->
  edge_values a b e1 f1 -> edge_values a d e2 f2 ->
  exists s r, se_intersection_number a b e1 a d e2 x m n (zetas m) = Done (if Rlt_dec r 0 then (- s, -1 - s) else (1 - s, - s))%Z /\
    -1 < r < 1 /\ r <> 0 /\ offset_by (Z.of_nat m) (f1 (-1)) (f2 (-1)) s r /\
    carg ((vget x b - vget x a) / RtoC 2 / ((vget x d - vget x a) / RtoC 2))%C = 2 * PI * r.
Proof using All.
  intros Ha Hb Hdd Hab Had Hbd F1 F2 (_ & _ & V1 & R1 & P1 & _ & N1 & _) (_ & _ & V2 & R2 & P2 & _ & N2 & _).
  assert (Dab := distinct_get x a b Hd Ha Hb Hab). assert (Dad := distinct_get x a d Hd Ha Hdd Had). assert (Dbd := distinct_get x b d Hd Hb Hdd Hbd).
  assert (Nh1 : ((vget x b - vget x a) / RtoC 2)%C <> RtoC 0) by (apply (h_neq x a b Dab)).
  assert (Nh2 : ((vget x d - vget x a) / RtoC 2)%C <> RtoC 0) by (apply (h_neq x a d Dad)).
  assert (Hq := half_quot a b a d Dad).
  set (h1 := ((vget x b - vget x a) / RtoC 2)%C) in *. set (h2 := ((vget x d - vget x a) / RtoC 2)%C) in *.
  assert (Nq : (h1 / h2)%C <> RtoC 0) by (apply quot_neq; assumption).
  assert (Nv : (f2 (-1) / f1 (-1))%C <> RtoC 0) by (apply quot_neq; assumption).
  assert (Pm : (cpow (f2 (-1) / f1 (-1)) m * (h1 / h2))%C = cis 0).
  { rewrite cis_0. set (v1 := f1 (-1)) in *. set (v2 := f2 (-1)) in *.
    assert (E : (cpow (v2 / v1) m * cpow v1 m)%C = cpow v2 m). { rewrite <- cpow_mul. f_equal. field. exact N1. }
    set (W := cpow (v2 / v1)%C m) in *.
    assert (S1 : slope x a <> RtoC 0) by (apply slope_neq; assumption). assert (H2 : cpow (RtoC 2) n <> RtoC 0) by (apply cpow_neq_0, two_neq).
    assert (E3 : (W * (cpow (RtoC 2) n * h1 * slope x a))%C = (cpow (RtoC 2) n * h2 * slope x a)%C).
    { rewrite <- P1, <- P2, <- E. ring. }
    transitivity (W * (cpow (RtoC 2) n * h1 * slope x a) / (cpow (RtoC 2) n * h2 * slope x a))%C; [field; conj; assumption|]. rewrite E3. field. conj; assumption. }
  destruct (power_turn m _ _ 0 Nv Nq Pm) as (s & Es). rewrite Rplus_0_l in Es.
  assert (PI0 := PI_RGT_0). assert (Rg := carg_range (h1 / h2)%C). assert (M0 : 0 < INR m) by (apply lt_0_INR; lia).
  set (r := carg (h1 / h2)%C / (2 * PI)). exists s, r.
  assert (Er : carg (h1 / h2)%C = 2 * PI * r) by (unfold r; field; lra).
  assert (Rr : - / 2 < r <= / 2) by (rewrite Er in Rg; nra).
  assert (R0 : r <> 0).
  { intro R0. assert (Z0 := carg_polar (h1 / h2)%C). rewrite Er, R0, Rmult_0_r, cis_0, Cmult_1_r in Z0. rewrite Z0 in Hq.
    apply (ray_start x _ _ _ _ (vget_in x _ Hb) (vget_in x _ Hdd)) in Hq; auto. apply Cmod_gt_0. exact Nq. }
  split.
  - unfold se_intersection_number. rewrite end_points_less.
    2: { intro N. inversion N as [|? ? I _]. apply I. right. left. reflexivity. }
    rewrite !vread_ok by assumption. cbn [bind].
    destruct (Ceq_dec (vget x a) (vget x b)); [contradiction|]. destruct (Ceq_dec (vget x a) (vget x d)); [contradiction|].
    destruct (Ceq_dec (vget x a) (vget x a)) as [_|]; [|contradiction]. destruct (Ceq_dec (vget x b) (vget x d)); [contradiction|]. cbn [orb andb].
    rewrite R1, R2. cbn [bind]. unfold cdiv. destruct (Ceq_dec h2 (RtoC 0)); [contradiction|]. cbn [bind].
    rewrite (proj1 (V1 (-1) ltac:(lra))), (proj1 (V2 (-1) ltac:(lra))). cbn [bind]. destruct (Ceq_dec (f1 (-1)) (RtoC 0)); [contradiction|]. cbn [bind].
    rewrite (round_int _ s) by (rewrite Es; field; lra).
    destruct (Rlt_dec 0 (carg (h1 / h2)%C)) as [L|L]; destruct (Rlt_dec r 0) as [L'|L']; try reflexivity; exfalso; rewrite Er in L; nra.
  - split; [lra|]. split; [exact R0|]. split; [|exact Er]. apply offset_arg; [lia|assumption|assumption|]. rewrite <- INR_IZR_INZ.
    apply (Rmult_eq_reg_l (INR m)); [|lra]. transitivity (2 * PI * IZR s - carg (h1 / h2)%C); [lra|]. rewrite Er. field. lra.
Qed.

Lemma pair_end a b d e1 f1 e2 f2 : (a < n)%nat -> (b < n)%nat -> (d < n)%nat -> a <> b -> a <> d -> b <> d ->
  free_segment x (vget x a) (vget x b) -> free_segment x (vget x b) (vget x d) ->
  edge_values a b e1 f1 -> edge_values b d e2 f2 ->
  exists s r, se_intersection_number a b e1 b d e2 x m n (zetas m) = Done (- s, 1 - s)%Z /\
    0 < r < 1 /\ offset_by (Z.of_nat m) (f1 1) (f2 (-1)) s r /\
    carg ((vget x b - vget x a) / RtoC 2 / ((vget x d - vget x b) / RtoC 2))%C = 2 * PI * (r - / 2).
Proof using All.
  intros Ha Hb Hdd Hab Had Hbd F1 F2 (_ & _ & V1 & R1 & _ & P1 & _ & N1) (_ & _ & V2 & R2 & P2 & _ & N2 & _).
  assert (Dab := distinct_get x a b Hd Ha Hb Hab). assert (Dad := distinct_get x a d Hd Ha Hdd Had). assert (Dbd := distinct_get x b d Hd Hb Hdd Hbd).
  assert (Nh1 : ((vget x b - vget x a) / RtoC 2)%C <> RtoC 0) by (apply (h_neq x a b Dab)).
  assert (Nh2 : ((vget x d - vget x b) / RtoC 2)%C <> RtoC 0) by (apply (h_neq x b d Dbd)).
  assert (Hq := half_quot a b b d Dbd).
  set (h1 := ((vget x b - vget x a) / RtoC 2)%C) in *. set (h2 := ((vget x d - vget x b) / RtoC 2)%C) in *.
  assert (Nq : (h1 / h2)%C <> RtoC 0) by (apply quot_neq; assumption).
  assert (Nv : (f2 (-1) / f1 1)%C <> RtoC 0) by (apply quot_neq; assumption).
  assert (Pm : (cpow (f2 (-1) / f1 1) m * (h1 / h2))%C = cis (- PI)).
  { assert (C1 : cis (- PI) = (- RtoC 1)%C) by (unfold cis; rewrite cos_neg, sin_neg, cos_PI, sin_PI; unfold RtoC, Copp; cbn; f_equal; ring).
    rewrite C1. set (v1 := f1 1) in *. set (v2 := f2 (-1)) in *.
    assert (E : (cpow (v2 / v1) m * cpow v1 m)%C = cpow v2 m). { rewrite <- cpow_mul. f_equal. field. exact N1. }
    set (W := cpow (v2 / v1)%C m) in *.
    assert (S1 : slope x b <> RtoC 0) by (apply slope_neq; assumption). assert (H2 : cpow (RtoC 2) n <> RtoC 0) by (apply cpow_neq_0, two_neq).
    assert (E3 : (W * - (cpow (RtoC 2) n * h1 * slope x b))%C = (cpow (RtoC 2) n * h2 * slope x b)%C).
    { rewrite <- P1, <- P2, <- E. ring. }
    transitivity (- (W * - (cpow (RtoC 2) n * h1 * slope x b) / (cpow (RtoC 2) n * h2 * slope x b)))%C; [field; conj; assumption|]. rewrite E3. field. conj; assumption. }
  destruct (power_turn m _ _ _ Nv Nq Pm) as (s & Es).
  assert (PI0 := PI_RGT_0). assert (Rg := carg_range (h1 / h2)%C). assert (M0 : 0 < INR m) by (apply lt_0_INR; lia).
  set (r := carg (h1 / h2)%C / (2 * PI) + / 2). exists s, r.
  assert (Er : carg (h1 / h2)%C = 2 * PI * (r - / 2)) by (unfold r; field; lra).
  assert (Rr : 0 < r <= 1) by (rewrite Er in Rg; nra).
  assert (R0 : r <> 1).
  { intro R0. assert (Z0 := carg_polar (h1 / h2)%C). rewrite Er, R0 in Z0. replace (2 * PI * (1 - / 2)) with PI in Z0 by field. rewrite cis_PI in Z0. rewrite Z0 in Hq.
    assert (Q : 0 < Cmod (h1 / h2)%C) by (apply Cmod_gt_0; exact Nq). set (q := Cmod _) in *.
    apply (ray_start x (vget x b) (vget x a) (vget x d) q (vget_in x _ Ha) (vget_in x _ Hdd)); auto.
    - intros t T I. apply (F1 (- t) ltac:(lra)). rewrite point_back. exact I.
    - transitivity (- (vget x b - vget x a))%C; [ring|]. rewrite Hq. replace (RtoC (-1)) with (- RtoC 1)%C by (rewrite <- RtoC_opp; reflexivity). ring. }
  split.
  - unfold se_intersection_number. rewrite end_points_less.
    2: { intro N. inversion N as [|? ? _ N']. inversion N' as [|? ? I _]. apply I. left. reflexivity. }
    rewrite !vread_ok by assumption. cbn [bind].
    destruct (Ceq_dec (vget x a) (vget x b)); [contradiction|]. destruct (Ceq_dec (vget x b) (vget x d)); [contradiction|].
    destruct (Ceq_dec (vget x a) (vget x d)); [contradiction|]. destruct (Ceq_dec (vget x b) (vget x b)) as [_|]; [|contradiction]. cbn [orb andb].
    rewrite R1, R2. cbn [bind]. unfold cdiv. destruct (Ceq_dec h2 (RtoC 0)); [contradiction|]. cbn [bind].
    rewrite (proj1 (V1 1 ltac:(lra))), (proj1 (V2 (-1) ltac:(lra))). cbn [bind]. destruct (Ceq_dec (f1 1) (RtoC 0)); [contradiction|]. cbn [bind].
    rewrite (round_int _ s) by (rewrite Es; field; lra). reflexivity.
  - split; [lra|]. split; [|exact Er]. apply offset_arg; [lia|assumption|assumption|]. rewrite <- INR_IZR_INZ.
    apply (Rmult_eq_reg_l (INR m)); [|lra]. transitivity (- PI + 2 * PI * IZR s - carg (h1 / h2)%C); [lra|]. rewrite Er. field. lra.
Qed.

Lemma pair_apart a b c d e1 e2 : NoDup [a; b; c; d] -> se_intersection_number a b e1 c d e2 x m n (zetas m) = Done (0, 0)%Z.
Proof. intro H. unfold se_intersection_number. rewrite (proj2 (end_points_4 a b c d) H). reflexivity. Qed.
End Curve.
