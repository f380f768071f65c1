(** Intersection numbers of lifted loops at a common branch point. *)
From Coq Require Import Reals Lra Lia List ZArith.
From Coquelicot Require Import Coquelicot.
From Verif Require Import CArg ModelTree ModelPeriod SpecEdge SpecDeq SpecCross.
Import ListNotations.
Local Open Scope R_scope.

Lemma along_turn z t k : along z t -> along z (t + 2 * PI * IZR k).
Proof.
  intros [H1 H2]. split; [exact H1|]. rewrite H2 at 1. f_equal. apply (injective_projections _ _); cbn.
  - symmetry. destruct k as [|p|p].
    + f_equal. lra.
    + rewrite <- (Z2Nat.id (Z.pos p)) by lia. rewrite <- INR_IZR_INZ. replace (t + 2 * PI * INR (Z.to_nat (Z.pos p))) with (t + 2 * INR (Z.to_nat (Z.pos p)) * PI) by ring. apply cos_period.
    + replace t with (t + 2 * PI * IZR (Z.neg p) + 2 * INR (Z.to_nat (Z.pos p)) * PI) at 2; [symmetry; apply cos_period|].
      rewrite INR_IZR_INZ, Z2Nat.id by lia. change (Z.neg p) with (- Z.pos p)%Z. rewrite opp_IZR. ring.
  - symmetry. destruct k as [|p|p].
    + f_equal. lra.
    + rewrite <- (Z2Nat.id (Z.pos p)) by lia. rewrite <- INR_IZR_INZ. replace (t + 2 * PI * INR (Z.to_nat (Z.pos p))) with (t + 2 * INR (Z.to_nat (Z.pos p)) * PI) by ring. apply sin_period.
    + replace t with (t + 2 * PI * IZR (Z.neg p) + 2 * INR (Z.to_nat (Z.pos p)) * PI) at 2; [symmetry; apply sin_period|].
      rewrite INR_IZR_INZ, Z2Nat.id by lia. change (Z.neg p) with (- Z.pos p)%Z. rewrite opp_IZR. ring.
Qed.
Lemma cis_add a b : (cis a * cis b)%C = cis (a + b).
Proof. unfold cis, Cmult. cbn [fst snd]. rewrite cos_plus, sin_plus. f_equal; ring. Qed.
Lemma along_cis z t e : along z t -> along (z * cis e)%C (t + e).
Proof.
  intros [H1 H2]. split; [apply Cmult_neq_0'; [exact H1|apply cis_neq_0]|]. rewrite Cmod_mult, cis_mod, Rmult_1_r. rewrite H2 at 1. rewrite <- cis_add. ring.
Qed.
Lemma along_scal z t r : 0 < r -> along z t -> along (RtoC r * z)%C t.
Proof.
  intros Hr [H1 H2]. split; [apply Cmult_neq_0'; [intro E; injection E; lra|exact H1]|]. rewrite Cmod_mult, Cmod_R, Rabs_pos_eq by lra. rewrite H2 at 1. rewrite RtoC_mult. ring.
Qed.
Lemma along_eq z t t' : along z t -> t = t' -> along z t'.
Proof. now intros H <-. Qed.
Lemma along_exists z : z <> RtoC 0 -> exists t, along z t.
Proof. intro H. exists (carg z). split; [exact H|apply carg_polar]. Qed.

Section Slots.
Variables (th : R) (m : Z).
Hypothesis Hm : (2 <= m)%Z.
Definition at_pos (z : C) (a : R) : Prop := along z (th + 2 * PI * a / IZR m).
Let Hm0 : 0 < IZR m.
Proof. apply IZR_lt. lia. Qed.
Lemma pos_root z a k : at_pos z a -> at_pos (root m k * z)%C (a + IZR k).
Proof.
  unfold at_pos, root. intro H. rewrite Cmult_comm. eapply along_eq; [exact (along_cis _ _ _ H)|]. field. lra.
Qed.
Lemma pos_push z a e : at_pos z a -> at_pos (z * cis e)%C (a + e * IZR m / (2 * PI)).
Proof. unfold at_pos. intro H. assert (P := PI_RGT_0). eapply along_eq; [exact (along_cis _ _ _ H)|]. field. lra. Qed.
Lemma pos_turn z a k : at_pos z a -> at_pos z (a + IZR k * IZR m).
Proof. unfold at_pos. intro H. eapply along_eq; [exact (along_turn _ _ k H)|]. field. lra. Qed.
Lemma pos_eq z a b : at_pos z a -> a = b -> at_pos z b.
Proof. now intros H <-. Qed.
Lemma pos_ccw p q r a b c : at_pos p a -> at_pos q b -> at_pos r c -> a < b < c -> c < a + IZR m -> ccw p q r.
Proof.
  intros Hp Hq Hr H1 H2. assert (P := PI_RGT_0). exists (th + 2 * PI * a / IZR m), (th + 2 * PI * b / IZR m), (th + 2 * PI * c / IZR m).
  assert (K : forall u v, u < v -> 2 * PI * u / IZR m < 2 * PI * v / IZR m).
  { intros u v H. apply Rmult_lt_compat_r; [now apply Rinv_0_lt_compat|]. apply Rmult_lt_compat_l; lra. }
  split; [split; apply Rplus_lt_compat_l, K; lra|]. split; [|auto].
  replace (th + 2 * PI * a / IZR m + 2 * PI) with (th + 2 * PI * (a + IZR m) / IZR m) by (field; lra). apply Rplus_lt_compat_l, K. lra.
Qed.
(** strictly between two consecutive multiples of 2 pi/m *)
Definition slot (z : C) (j : Z) : Prop := exists b, IZR j < b < IZR j + 1 /\ at_pos z b.
Lemma slot_spec z j p1 p2 : slot z j -> at_pos p1 1 -> at_pos p2 0 -> if (j mod m =? 0)%Z then ccw p2 z p1 else ccw p1 z p2.
Proof.
  intros (b & Hb & H) H1 H2. assert (E := Z.div_mod j m ltac:(lia)). assert (B := Z.mod_pos_bound j m ltac:(lia)).
  set (r := (j mod m)%Z) in *. set (k := (j / m)%Z) in *. assert (H' := pos_turn z b (- k) H). rewrite opp_IZR in H'.
  assert (EJ : IZR j = IZR k * IZR m + IZR r) by (rewrite E, plus_IZR, mult_IZR; ring). assert (M2 : 2 <= IZR m) by (apply IZR_le; lia).
  destruct (Z.eqb_spec r 0) as [R0|R0].
  - rewrite R0 in EJ. apply (pos_ccw _ _ _ 0 (b + - IZR k * IZR m) 1); auto; lra.
  - assert (1 <= IZR r) by (apply IZR_le; lia). assert (IZR r + 1 <= IZR m) by (rewrite <- plus_IZR; apply IZR_le; lia).
    apply (pos_ccw _ _ _ 1 (b + - IZR k * IZR m) (0 + IZR 1 * IZR m)); auto; try lra. now apply pos_turn.
Qed.
Definition dlt0 (j : Z) : Z := if (j mod m =? 0)%Z then 1 else 0.
Lemma crossing_start p1 p2 q1 q2 j1 j2 : at_pos p1 1 -> at_pos p2 0 -> slot q1 j1 -> slot q2 j2 -> crossing (p1, p2) (q1, q2) (dlt0 j2 - dlt0 j1).
Proof.
  intros H1 H2 S1 S2. assert (K1 := slot_spec q1 j1 p1 p2 S1 H1 H2). assert (K2 := slot_spec q2 j2 p1 p2 S2 H1 H2). unfold crossing, dlt0. cbn [fst snd].
  destruct (j1 mod m =? 0)%Z, (j2 mod m =? 0)%Z; cbn; tauto.
Qed.
Lemma crossing_end p1 p2 q1 q2 j1 j2 : at_pos p1 0 -> at_pos p2 1 -> slot q1 j1 -> slot q2 j2 -> crossing (p1, p2) (q1, q2) (dlt0 j1 - dlt0 j2).
Proof.
  intros H1 H2 S1 S2. assert (K1 := slot_spec q1 j1 p2 p1 S1 H2 H1). assert (K2 := slot_spec q2 j2 p2 p1 S2 H2 H1). unfold crossing, dlt0. cbn [fst snd].
  destruct (j1 mod m =? 0)%Z, (j2 mod m =? 0)%Z; cbn; tauto.
Qed.
End Slots.

(** ** the three cases *)
Section Cases.
Variables (m u v : Z).
Hypothesis Hm : (2 <= m)%Z.
Let Hm0 : 0 < IZR m.
Proof. apply IZR_lt. lia. Qed.
Let small (r : R) := 2 * PI * r / IZR m.
Lemma small_pos r : 0 < r -> 0 < small r.
Proof. intro H. assert (P := PI_RGT_0). unfold small. apply Rdiv_lt_0_compat; [nra|lra]. Qed.
Lemma small_bound r e : 0 < e < small r -> 0 < e * IZR m / (2 * PI) < r.
Proof.
  intros [H1 H2]. assert (P := PI_RGT_0). unfold small in H2. split; [apply Rdiv_lt_0_compat; nra|].
  apply Rlt_div_l; [lra|]. apply Rlt_div_r in H2; lra.
Qed.
(** q is at angle s - r of p, in units of 2 pi/m *)
Definition offset_by (p q : C) (s : Z) (r : R) : Prop := exists t, along p t /\ along q (t + 2 * PI * (IZR s - r) / IZR m).

Lemma rays_start p q s r : offset_by p q s r -> exists th, at_pos th m (root m (u + 1) * p)%C 1 /\ at_pos th m (root m u * p)%C 0 /\
  forall e, at_pos th m (root m (v + 1) * q * cis (- e))%C (IZR (v + 1 + s - u) - r - e * IZR m / (2 * PI)) /\
            at_pos th m (root m v * q * cis e)%C (IZR (v + s - u) - r + e * IZR m / (2 * PI)).
Proof.
  intros (t & Hp & Hq). set (th := t + 2 * PI * IZR u / IZR m). exists th. assert (P := PI_RGT_0).
  assert (P0 : at_pos th m p (- IZR u)) by (eapply along_eq; [exact Hp|unfold th; field; lra]).
  assert (Q0 : at_pos th m q (IZR s - r - IZR u)) by (eapply along_eq; [exact Hq|unfold th; field; lra]).
  split; [eapply pos_eq; [exact (pos_root th m Hm _ _ (u + 1) P0)|rewrite plus_IZR; ring]|].
  split; [eapply pos_eq; [exact (pos_root th m Hm _ _ u P0)|ring]|]. intro e. split.
  - eapply pos_eq; [exact (pos_push th m Hm _ _ (- e) (pos_root th m Hm _ _ (v + 1) Q0))|]. rewrite minus_IZR, !plus_IZR. field. lra.
  - eapply pos_eq; [exact (pos_push th m Hm _ _ e (pos_root th m Hm _ _ v Q0))|]. rewrite minus_IZR, !plus_IZR. field. lra.
Qed.
Lemma rays_end p q s r : offset_by p q s r -> exists th, at_pos th m (root m u * p)%C 0 /\ at_pos th m (root m (u + 1) * p)%C 1 /\
  forall e, (at_pos th m (root m (v + 1) * q * cis (- e))%C (IZR (v + 1 + s - u) - r - e * IZR m / (2 * PI)) /\
             at_pos th m (root m v * q * cis e)%C (IZR (v + s - u) - r + e * IZR m / (2 * PI))) /\
            (at_pos th m (root m v * q * cis (- e))%C (IZR (v + s - u) - r - e * IZR m / (2 * PI)) /\
             at_pos th m (root m (v + 1) * q * cis e)%C (IZR (v + 1 + s - u) - r + e * IZR m / (2 * PI))).
Proof.
  intros (t & Hp & Hq). set (th := t + 2 * PI * IZR u / IZR m). exists th. assert (P := PI_RGT_0).
  assert (P0 : at_pos th m p (- IZR u)) by (eapply along_eq; [exact Hp|unfold th; field; lra]).
  assert (Q0 : at_pos th m q (IZR s - r - IZR u)) by (eapply along_eq; [exact Hq|unfold th; field; lra]).
  split; [eapply pos_eq; [exact (pos_root th m Hm _ _ u P0)|ring]|].
  split; [eapply pos_eq; [exact (pos_root th m Hm _ _ (u + 1) P0)|rewrite plus_IZR; ring]|]. intro e. split; split.
  - eapply pos_eq; [exact (pos_push th m Hm _ _ (- e) (pos_root th m Hm _ _ (v + 1) Q0))|]. rewrite minus_IZR, !plus_IZR. field. lra.
  - eapply pos_eq; [exact (pos_push th m Hm _ _ e (pos_root th m Hm _ _ v Q0))|]. rewrite minus_IZR, !plus_IZR. field. lra.
  - eapply pos_eq; [exact (pos_push th m Hm _ _ (- e) (pos_root th m Hm _ _ v Q0))|]. rewrite minus_IZR, !plus_IZR. field. lra.
  - eapply pos_eq; [exact (pos_push th m Hm _ _ e (pos_root th m Hm _ _ (v + 1) Q0))|]. rewrite minus_IZR, !plus_IZR. field. lra.
Qed.
Ltac at_slot H := eexists; split; [|exact H]; repeat (rewrite minus_IZR || rewrite plus_IZR); lra.
Lemma start_start p q s r : offset_by p q s r -> -1 < r < 1 -> r <> 0 -> exists e0, 0 < e0 /\ forall e, 0 < e < e0 ->
  crossing (root m (u + 1) * p, root m u * p)%C (root m (v + 1) * q * cis (- e), root m v * q * cis e)%C
    (if Rlt_dec r 0 then dlt0 m (v + s - u) - dlt0 m (v + 1 + s - u) else dlt0 m (v - 1 + s - u) - dlt0 m (v + s - u))%Z.
Proof.
  intros H H1 H0. destruct (rays_start p q s r H) as (th & P1 & P2 & Q). set (k := Rmin (Rabs r) (1 - Rabs r)).
  assert (K : 0 < k /\ k <= Rabs r /\ k <= 1 - Rabs r).
  { assert (Rabs r < 1) by (apply Rabs_def1; lra). assert (0 < Rabs r) by now apply Rabs_pos_lt. unfold k. split; [apply Rmin_glb_lt; lra|]. split; [apply Rmin_l|apply Rmin_r]. }
  destruct K as (K0 & K1 & K2). exists (small k). split; [now apply small_pos|]. intros e He. destruct (small_bound k e He) as [E1 E2]. destruct (Q e) as [Q1 Q2].
  unfold Rabs in K1, K2. destruct (Rcase_abs r) as [N|N]; destruct (Rlt_dec r 0) as [L|L]; try lra.
  - apply (crossing_start th m Hm); auto; [at_slot Q1|at_slot Q2].
  - apply (crossing_start th m Hm); auto; [at_slot Q1|at_slot Q2].
Qed.
Lemma end_start p q s r : offset_by p q s r -> 0 < r < 1 -> exists e0, 0 < e0 /\ forall e, 0 < e < e0 ->
  crossing (root m u * p, root m (u + 1) * p)%C (root m (v + 1) * q * cis (- e), root m v * q * cis e)%C (dlt0 m (v + s - u) - dlt0 m (v - 1 + s - u))%Z.
Proof.
  intros H H1. destruct (rays_end p q s r H) as (th & P1 & P2 & Q). set (k := Rmin r (1 - r)).
  assert (K : 0 < k /\ k <= r /\ k <= 1 - r).
  { unfold k. split; [apply Rmin_glb_lt; lra|]. split; [apply Rmin_l|apply Rmin_r]. }
  destruct K as (K0 & K1 & K2). exists (small k). split; [now apply small_pos|]. intros e He. destruct (small_bound k e He) as [E1 E2]. destruct (Q e) as [[Q1 Q2] _].
  apply (crossing_end th m Hm); auto; [at_slot Q1|at_slot Q2].
Qed.
Lemma self_start p : p <> RtoC 0 -> forall e, 0 < e < small 1 ->
  crossing (root m (u + 1) * p, root m u * p)%C (root m (v + 1) * p * cis (- e), root m v * p * cis e)%C 0.
Proof.
  intros Hp e He. destruct (along_exists p Hp) as [t Ht]. assert (H : offset_by p p 0 0).
  { exists t. split; [exact Ht|]. eapply along_eq; [exact Ht|]. field. lra. }
  destruct (rays_start p p 0 0 H) as (th & P1 & P2 & Q). destruct (small_bound 1 e He) as [E1 E2]. destruct (Q e) as [Q1 Q2].
  replace 0%Z with (dlt0 m (v - u) - dlt0 m (v - u))%Z by lia. apply (crossing_start th m Hm); auto; [at_slot Q1|at_slot Q2].
Qed.
Lemma self_end p : p <> RtoC 0 -> forall e, 0 < e < small 1 ->
  crossing (root m u * p, root m (u + 1) * p)%C (root m v * p * cis (- e), root m (v + 1) * p * cis e)%C (dlt0 m (v - 1 - u) - dlt0 m (v + 1 - u)).
Proof.
  intros Hp e He. destruct (along_exists p Hp) as [t Ht]. assert (H : offset_by p p 0 0).
  { exists t. split; [exact Ht|]. eapply along_eq; [exact Ht|]. field. lra. }
  destruct (rays_end p p 0 0 H) as (th & P1 & P2 & Q). destruct (small_bound 1 e He) as [E1 E2]. destruct (Q e) as [_ [Q1 Q2]].
  apply (crossing_end th m Hm); auto; [at_slot Q1|at_slot Q2].
Qed.
Lemma small1_pos : 0 < small 1.
Proof. apply small_pos. lra. Qed.
End Cases.
