(** Angles of the edges of a tree: a common sheet at each point and the order of the edges
    around it. *)
From Verif Require Import CArg ModelTree ModelInter SpecTree SpecInter ModelEdge ProofEdge ProofAngle ProofLat5 ProofLat6.
From Coq Require Import Lra.
Local Open Scope R_scope.

(** angle in turns *)
Definition turn (z : C) : R := carg z / (2 * PI).
Lemma turn_polar z : z = (RtoC (Cmod z) * cis (2 * PI * turn z))%C.
Proof. unfold turn. pose proof PI_RGT_0. replace (2 * PI * (carg z / (2 * PI))) with (carg z) by (field; lra). apply carg_polar. Qed.

Lemma Cmod_pos (z : C) : z <> RtoC 0 -> 0 < Cmod z.
Proof. apply Cmod_gt_0. Qed.

Lemma angle_turn a b th : a <> RtoC 0 -> b <> RtoC 0 -> angle a b = Done th ->
  - / 2 <= th < / 2 /\ (exists i : Z, th = turn a - turn b + IZR i) /\
  (a / b)%C = (RtoC (Cmod (a / b)%C) * cis (2 * PI * th))%C.
Proof.
  intros Ha Hb E. destruct (angle_spec a b Hb) as (th' & E' & Hr & Hp). rewrite E in E'. injection E' as <-.
  conj; [apply Hr|apply Hr| |exact Hp].
  pose proof (Cmod_pos a Ha) as Pa. pose proof (Cmod_pos b Hb) as Pb. pose proof PI_RGT_0 as Hpi.
  assert (Na : RtoC (Cmod a) <> RtoC 0) by (intros H; injection H; lra).
  assert (Nb : RtoC (Cmod b) <> RtoC 0) by (intros H; injection H; lra).
  assert (Eq : (a / b)%C = (RtoC (Cmod a) / RtoC (Cmod b) * cis (2 * PI * (turn a - turn b)))%C).
  { rewrite (turn_polar a) at 1. rewrite (turn_polar b) at 1.
    replace (2 * PI * (turn a - turn b)) with (2 * PI * turn a + - (2 * PI * turn b)) by ring. rewrite cis_add.
    assert (Hc : (cis (2 * PI * turn b) * cis (- (2 * PI * turn b)))%C = RtoC 1) by (rewrite <- cis_add, Rplus_opp_r; apply cis_0).
    pose proof (cis_neq_0 (2 * PI * turn b)) as Nc.
    replace (cis (- (2 * PI * turn b))) with (/ cis (2 * PI * turn b))%C.
    - field. auto.
    - apply (f_equal (fun z => / cis (2 * PI * turn b) * z)%C) in Hc. rewrite Cmult_assoc, Cinv_l, Cmult_1_l, Cmult_1_r in Hc by exact Nc.
      symmetry. exact Hc. }
  assert (Em : RtoC (Cmod (a / b)%C) = (RtoC (Cmod a) / RtoC (Cmod b))%C).
  { rewrite Cmod_div by exact Hb. apply RtoC_div. lra. }
  rewrite Eq in Hp at 1. rewrite Em in Hp.
  assert (Ec : cis (2 * PI * th) = cis (2 * PI * (turn a - turn b))).
  { apply (f_equal (fun z => RtoC (Cmod b) / RtoC (Cmod a) * z)%C) in Hp.
    replace (cis (2 * PI * th)) with (RtoC (Cmod b) / RtoC (Cmod a) * (RtoC (Cmod a) / RtoC (Cmod b) * cis (2 * PI * th)))%C by (field; auto).
    rewrite <- Hp. field. auto. }
  destruct (cis_eq _ _ Ec) as [k Hk]. exists k. apply (Rmult_eq_reg_l (2 * PI)); [|lra]. rewrite Hk. ring.
Qed.

Lemma sin_sign th : - / 2 <= th < / 2 -> (sin (2 * PI * th) <= 0 <-> th <= 0).
Proof.
  intros [H1 H2]. pose proof PI_RGT_0 as Hpi. split; intros H.
  - destruct (Rle_lt_dec th 0) as [|Hp]; [assumption|exfalso].
    assert (0 < sin (2 * PI * th)); [|lra]. apply sin_gt_0; nra.
  - replace (2 * PI * th) with (- (2 * PI * - th)) by ring. rewrite sin_neg.
    assert (0 <= sin (2 * PI * - th)); [|lra]. apply sin_ge_0; nra.
Qed.

Lemma shift_turn yk yl (m : nat) t s :
  let end_k := match t with ABAD => y_ya yk | ABBD => y_yb yk end in
  let e := match t with ABAD => 0 | ABBD => / 2 end in
  y_ba2 yk <> RtoC 0 -> y_ba2 yl <> RtoC 0 -> end_k <> RtoC 0 -> y_ya yl <> RtoC 0 ->
  shift_number yk yl (Z.of_nat m) t = Done s ->
  exists rho (i j : Z), - / 2 <= rho < / 2 /\ rho = turn (y_ba2 yk) - turn (y_ba2 yl) + IZR i /\
    IZR s = rho + e + IZR (Z.of_nat m) * (turn (y_ya yl) - turn end_k + IZR j) /\
    (is_neg_abad (y_ba2 yk) (y_ba2 yl) = true <-> rho <= 0).
Proof.
  intros end_k e Hk Hl He Hy E. unfold shift_number in E.
  destruct (angle (y_ba2 yk) (y_ba2 yl)) as [rho| | |] eqn:Er; cbn [bind] in E; try discriminate.
  fold end_k in E. destruct (angle (y_ya yl) end_k) as [psi| | |] eqn:Ep; cbn [bind] in E; try discriminate.
  destruct (angle_turn _ _ _ Hk Hl Er) as (Hr & (i & Ei) & Hp). destruct (angle_turn _ _ _ Hy He Ep) as (_ & (j & Ej) & _).
  exists rho, i, j. conj; [apply Hr|apply Hr|exact Ei| |split].
  - apply get_si_done in E. rewrite <- E, <- Ej. unfold e. destruct t; ring.
  - intros H. apply (sin_sign rho Hr). unfold is_neg_abad in H. destruct (Rle_dec _ 0) as [H0|]; [|discriminate].
    rewrite Hp in H0. unfold Cmult, RtoC, cis in H0. cbn [fst snd] in H0.
    assert (P : 0 < Cmod (y_ba2 yk / y_ba2 yl)%C). { rewrite Cmod_div by exact Hl. apply Rdiv_lt_0_compat; apply Cmod_pos; assumption. }
    nra.
  - intros H. apply (sin_sign rho Hr) in H. unfold is_neg_abad. destruct (Rle_dec _ 0) as [|H0]; [reflexivity|exfalso; apply H0].
    rewrite Hp. unfold Cmult, RtoC, cis. cbn [fst snd].
    assert (P : 0 <= Cmod (y_ba2 yk / y_ba2 yl)%C) by apply Cmod_ge_0. nra.
Qed.

Lemma int_close (a b : Z) : -1 < IZR a - IZR b < 1 -> a = b.
Proof. rewrite <- minus_IZR. intros [H1 H2]. apply lt_IZR in H1. apply lt_IZR in H2. lia. Qed.

Section Cut.
Context (par : nat -> nat) (theta : nat -> R).
(** the cut at a point: opposite to the incoming edge *)
Definition cut (v : nat) : R := match v with O => 0 | S p => theta p + / 2 end.
Definition lifted (l : nat) : R := theta l + IZR (Int_part (cut (par l) - theta l)).
Lemma lifted_range l : cut (par l) - 1 < lifted l <= cut (par l).
Proof. unfold lifted. pose proof (base_Int_part (cut (par l) - theta l)). lra. Qed.

Definition before (k l : nat) : bool :=
  if Rlt_dec (lifted k) (lifted l) then true
  else if Rlt_dec (lifted l) (lifted k) then false else (k <? l)%nat.
Lemma before_irr x : before x x = false.
Proof. unfold before. destruct (Rlt_dec _ _); [lra|]. apply Nat.ltb_irrefl. Qed.
Lemma before_trans x y z : before x y = true -> before y z = true -> before x z = true.
Proof.
  unfold before. repeat destruct (Rlt_dec _ _); try discriminate; try lra; try reflexivity; intros H1 H2;
    try apply Nat.ltb_lt in H1; try apply Nat.ltb_lt in H2; try (apply Nat.ltb_lt; lia); try lra.
Qed.
Lemma before_total x y : x <> y -> before x y = true \/ before y x = true.
Proof.
  intros H. unfold before. repeat destruct (Rlt_dec _ _); try lra; auto.
  destruct (Nat.lt_ge_cases x y); [left|right]; apply Nat.ltb_lt; lia.
Qed.

End Cut.

Section Gauge.
Context (m n : nat) (par : nat -> nat) (theta alpha beta : nat -> R) (s : nat -> nat -> Z) (neg : nat -> nat -> bool).
Notation zm := (Z.of_nat m).
Notation cut := (cut theta).
Notation lifted := (lifted par theta).
Notation lifted_range := (lifted_range par theta).
Notation before := (before par theta).
Notation before_irr := (before_irr par theta).
Notation before_trans := (before_trans par theta).
Notation before_total := (before_total par theta).
Hypothesis Hpar : forall k, (k < n)%nat -> (par k <= k)%nat.
Hypothesis Sib : forall k l, (k < l < n)%nat -> par k = par l ->
  exists rho (i j : Z), - / 2 <= rho < / 2 /\ rho = theta k - theta l + IZR i /\
    IZR (s k l) = rho + IZR zm * (alpha l - alpha k + IZR j) /\ (neg k l = true <-> rho <= 0).
Hypothesis Chi : forall k l, (k < l < n)%nat -> par l = S k ->
  exists rho (i j : Z), - / 2 <= rho < / 2 /\ rho = theta k - theta l + IZR i /\
    IZR (s k l) = rho + / 2 + IZR zm * (alpha l - beta k + IZR j).

(** turn to add to a difference of lifted angles *)
Definition wrap (d : R) : Z := if Rlt_dec d (- / 2) then 1%Z else if Rlt_dec d (/ 2) then 0%Z else (-1)%Z.
Lemma sib_spec k l : (k < l < n)%nat -> par k = par l ->
  exists j : Z, let d := lifted k - lifted l in let w := wrap d in
    -1 < d < 1 /\ - / 2 <= d + IZR w < / 2 /\ (neg k l = true <-> d + IZR w <= 0) /\
    IZR (s k l) = d + IZR w + IZR zm * (alpha l - alpha k) + IZR zm * IZR j.
Proof.
  intros Hkl Ep. destruct (Sib k l Hkl Ep) as (rho & i & j & Hr & Ei & Es & Hn). exists j. cbv zeta.
  pose proof (lifted_range k) as Lk. pose proof (lifted_range l) as Ll. rewrite Ep in Lk.
  set (d := lifted k - lifted l) in *.
  assert (Hd : -1 < d < 1) by (unfold d; lra).
  assert (Hw : - / 2 <= d + IZR (wrap d) < / 2).
  { unfold wrap. destruct (Rlt_dec d (- / 2)); [lra|]. destruct (Rlt_dec d (/ 2)); lra. }
  assert (Er : rho = d + IZR (wrap d)).
  { assert (Ed : exists q : Z, rho = d + IZR q).
    { exists (i + Int_part (cut (par l) - theta l) - Int_part (cut (par k) - theta k))%Z.
      unfold d, lifted. rewrite minus_IZR, plus_IZR. lra. }
    destruct Ed as [q Eq]. rewrite Eq. f_equal. f_equal. apply int_close. lra. }
  rewrite <- Er. conj; try apply Hd; try apply Hr; [exact Hn|]. rewrite Es. ring.
Qed.
Lemma chi_spec k l : (k < l < n)%nat -> par l = S k ->
  exists j : Z, IZR (s k l) = cut (S k) - lifted l + IZR zm * (alpha l - beta k) + IZR zm * IZR j.
Proof.
  intros Hkl Ep. destruct (Chi k l Hkl Ep) as (rho & i & j & Hr & Ei & Es). exists j.
  pose proof (lifted_range l) as Ll. rewrite Ep in Ll. cbn [cut] in *.
  assert (Er : rho = theta k - lifted l).
  { assert (Ed : exists q : Z, rho = theta k - lifted l + IZR q).
    { exists (i + Int_part (cut (par l) - theta l))%Z. unfold lifted. rewrite plus_IZR. lra. }
    destruct Ed as [q Eq]. assert (q = 0%Z) as ->; [|lra]. apply int_close. lra. }
  rewrite Es, Er. ring.
Qed.

(** sheet of an edge relative to the previous one *)
Definition step (l : nat) : Z :=
  match par l with
  | S p => s p l
  | O => if (l =? 0)%nat then 0%Z else (s 0%nat l - wrap (lifted 0 - lifted l))%Z
  end.
Definition ref (v : nat) : R :=
  match v with S p => IZR zm * beta p - cut (S p) | O => IZR zm * alpha 0%nat - lifted 0 end.
Lemma step_spec l : (l < n)%nat -> exists j : Z, IZR (step l) = IZR zm * alpha l - lifted l - ref (par l) + IZR zm * IZR j.
Proof.
  intros Hl. pose proof (Hpar l Hl) as Hp. unfold step. destruct (par l) as [|p] eqn:Ep; cbn [ref].
  - destruct (Nat.eqb_spec l 0) as [->|Hne]; [exists 0%Z; lra|].
    destruct (sib_spec 0 l) as (j & Hj); [lia|pose proof (Hpar 0%nat); lia|]. cbv zeta in Hj. destruct Hj as (_ & _ & _ & Hj).
    exists j. rewrite minus_IZR, Hj. ring.
  - destruct (chi_spec p l) as (j & Hj); [lia|exact Ep|]. exists j. rewrite Hj. ring.
Qed.

Definition level (v : nat) : Z := fold_right (fun k z => (step k + z)%Z) 0%Z (path par v).
Definition gauge (l : nat) : Z := level (S l).
Lemma gauge_step l : (l < n)%nat -> gauge l = (level (par l) + step l)%Z.
Proof.
  intros Hl. unfold gauge, level. rewrite (path_S before before_irr before_trans before_total n par Hpar l Hl).
  assert (H : forall p q, fold_right (fun k z => (step k + z)%Z) 0%Z (p ++ q) = (fold_right (fun k z => (step k + z)%Z) 0%Z p + fold_right (fun k z => (step k + z)%Z) 0%Z q)%Z).
  { induction p as [|x p IH]; intros q; [cbn; lia|]. cbn [fold_right app]. rewrite IH. lia. }
  rewrite H. cbn. lia.
Qed.
Lemma gauge_child k l : (k < l < n)%nat -> par l = S k -> (zm | s k l - (gauge l - gauge k))%Z.
Proof.
  intros Hkl Ep. rewrite (gauge_step l) by lia. rewrite Ep. unfold gauge, step. rewrite Ep. exists 0%Z. lia.
Qed.
Lemma gauge_siblings k l : (k < l < n)%nat -> par k = par l ->
  (before k l = true /\ ((neg k l = true /\ (zm | s k l - (gauge l - gauge k))%Z) \/ (neg k l = false /\ (zm | s k l - (gauge l - gauge k + 1))%Z))) \/
  (before l k = true /\ ((neg k l = false /\ (zm | s k l - (gauge l - gauge k))%Z) \/ (neg k l = true /\ (zm | s k l - (gauge l - gauge k - 1))%Z))).
Proof.
  intros Hkl Ep. destruct (sib_spec k l Hkl Ep) as (j & Hj). cbv zeta in Hj. destruct Hj as (Hd & Hr & Hn & Es).
  destruct (step_spec k ltac:(lia)) as (jk & Ek). destruct (step_spec l ltac:(lia)) as (jl & El). rewrite Ep in Ek.
  set (d := lifted k - lifted l) in *.
  assert (Hs : (zm | s k l - (gauge l - gauge k + wrap d))%Z).
  { exists (j + jk - jl)%Z. apply eq_IZR. rewrite mult_IZR, !minus_IZR, !plus_IZR, minus_IZR.
    rewrite !gauge_step by lia. rewrite !plus_IZR, Ep, Es, Ek, El. unfold d. ring. }
  assert (Hneg : forall b, (d + IZR (wrap d) <= 0 -> b = true) -> (~ d + IZR (wrap d) <= 0 -> b = false) -> neg k l = b).
  { intros b H1 H2. destruct (neg k l) eqn:E.
    - symmetry. apply H1. apply Hn. reflexivity.
    - symmetry. apply H2. intros H. apply Hn in H. discriminate. }
  assert (Hb : d <= 0 -> before k l = true).
  { intros H. unfold before. destruct (Rlt_dec _ _); [reflexivity|]. destruct (Rlt_dec _ _); [unfold d in H; lra|]. apply Nat.ltb_lt. lia. }
  assert (Ha : 0 < d -> before l k = true).
  { intros H. unfold before. destruct (Rlt_dec _ _) as [|H']; [reflexivity|]. exfalso. apply H'. unfold d in H. lra. }
  unfold wrap in *. destruct (Rlt_dec d (- / 2)) as [H1|H1].
  - left. split; [apply Hb; lra|]. right. split; [apply Hneg; intros; [lra|reflexivity]|exact Hs].
  - destruct (Rlt_dec d (/ 2)) as [H2|H2].
    + rewrite Z.add_0_r in Hs. destruct (Rle_lt_dec d 0) as [H3|H3].
      * left. split; [apply Hb; lra|]. left. split; [apply Hneg; intros; [reflexivity|lra]|exact Hs].
      * right. split; [apply Ha; lra|]. left. split; [apply Hneg; intros; [lra|reflexivity]|exact Hs].
    + right. split; [apply Ha; lra|]. right. split; [apply Hneg; intros; [reflexivity|lra]|]. 
      replace (gauge l - gauge k - 1)%Z with (gauge l - gauge k + -1)%Z by ring. exact Hs.
Qed.
End Gauge.
