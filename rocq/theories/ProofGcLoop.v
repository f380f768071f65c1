(** Points for which the search for the parameters of the Gauss-Chebyshev rule never ends. *)
From Coq Require Import Reals Ranalysis5 Lra Lia List ZArith Permutation.
From Coquelicot Require Import Coquelicot.
From Verif Require Import CArg ModelGc SpecGc ProofGc.
Import ListNotations.
Local Open Scope R_scope.

(** ** the order of the points does not matter *)
Lemma other_perm r rad l l' : Permutation l l' -> Permutation (other r rad l) (other r rad l').
Proof.
  induction 1 as [|x l l' P IH|x y l|l l' l'' P1 IH1 P2 IH2]; cbn; [constructor| | |eapply Permutation_trans; eassumption].
  - destruct (Rle_dec _ _); [exact IH|now constructor].
  - destruct (Rle_dec _ _), (Rle_dec _ _); try reflexivity. apply perm_swap.
Qed.
Lemma prodR_perm l l' : Permutation l l' -> prodR l = prodR l'.
Proof. induction 1; cbn; unfold prodR in *; try congruence. ring. Qed.
Lemma maj_yr_perm m0 r rad l l' : Permutation l l' -> maj_yr m0 r rad l = maj_yr m0 r rad l'.
Proof.
  intro P. unfold maj_yr. rewrite !maj_prod_spec. rewrite (Permutation_length P), (Permutation_length (other_perm r rad _ _ P)).
  now rewrite (prodR_perm _ _ (Permutation_map (fun x => x - r) (other_perm r rad _ _ P))).
Qed.
Lemma gc_loop_perm m0 r0 l l' : Permutation l l' -> forall fuel r rad, gc_loop fuel m0 r0 r rad l = gc_loop fuel m0 r0 r rad l'.
Proof.
  intro P. induction fuel as [|fuel IH]; intros r rad; cbn [gc_loop]; [reflexivity|]. rewrite (maj_yr_perm m0 r rad _ _ P).
  destruct (maj_yr m0 r rad l') as [[|K] m]; [reflexivity|]. destruct (choose_r r0 m (S K)); cbn [bind]; [apply IH|reflexivity..].
Qed.
Lemma min_perm a l b l' : Permutation (a :: l) (b :: l') -> min_r l a = min_r l' b.
Proof.
  intro P. destruct (min_r_spec l a) as (I1 & J1 & F1), (min_r_spec l' b) as (I2 & J2 & F2).
  assert (M1 : In (min_r l a) (a :: l)) by (destruct I1 as [->|I1]; [now left|now right]).
  assert (M2 : In (min_r l' b) (b :: l')) by (destruct I2 as [->|I2]; [now left|now right]).
  rewrite Forall_forall in F1, F2.
  apply (Permutation_in _ P) in M1. apply (Permutation_in _ (Permutation_sym P)) in M2.
  assert (min_r l' b <= min_r l a) by (destruct M1 as [<-|M1]; [exact J2|now apply F2]).
  assert (min_r l a <= min_r l' b) by (destruct M2 as [<-|M2]; [exact J1|now apply F1]). lra.
Qed.

(** ** the number V *)
Definition R2 : R := acosh 2.
Lemma R2_range : 1 < R2 < 2.
Proof.
  unfold R2, acosh. assert (S3 : 1 < sqrt (2 * 2 - 1) < 2).
  { replace (2 * 2 - 1) with 3 by ring. split; [rewrite <- sqrt_1; apply sqrt_lt_1_alt; lra|].
    replace 2 with (sqrt (2 * 2)) at 1 by (apply sqrt_square; lra). apply sqrt_lt_1_alt. lra. }
  assert (E1 : exp 1 < 3 \/ exp 1 <= 3) by (right; apply exp_le_3).
  assert (E2 : 4 < exp 2).
  { assert (H := exp_ineq1 (1 / 2) ltac:(lra)). replace 2 with (1 / 2 + 1 / 2 + (1 / 2 + 1 / 2)) by field. rewrite !exp_plus.
    assert (G : 3 / 2 * (3 / 2) < exp (1 / 2) * exp (1 / 2)) by (apply Rmult_le_0_lt_compat; lra).
    assert (9 / 4 * (9 / 4) < exp (1 / 2) * exp (1 / 2) * (exp (1 / 2) * exp (1 / 2))) by (apply Rmult_le_0_lt_compat; lra). lra. }
  split.
  - apply exp_lt_inv. rewrite exp_ln by lra. lra.
  - apply exp_lt_inv. rewrite exp_ln by lra. lra.
Qed.
Section Fixed.
Context (m0 : R).
Hypothesis Hm : 6 <= m0.
Definition far (A : R) : R := 2 + exp (m0 + ln 2 / 2 + (1 - A) / 2).
Definition gap (A : R) : R := (ln (R2 / A) - A) * (acosh (far A) - R2) - R2 * R2.
Lemma far_big A : A <= 2 -> 3 < far A /\ 5 < acosh (far A).
Proof.
  intro HA. assert (L := ln_lt_2). assert (E : 5 < m0 + ln 2 / 2 + (1 - A) / 2) by lra. unfold far. set (t := m0 + ln 2 / 2 + (1 - A) / 2) in *.
  assert (T := exp_ineq1 t ltac:(lra)). split; [lra|]. unfold acosh. apply Rlt_trans with (1 := E). rewrite <- (ln_exp t) at 1. apply ln_increasing; [apply exp_pos|].
  assert (S := sqrt_pos ((2 + exp t) * (2 + exp t) - 1)). lra.
Qed.
Lemma gap_cont A : 0 < A <= 2 -> continuity_pt gap A.
Proof.
  intro HA. destruct (far_big A ltac:(lra)) as [F1 F2]. apply continuity_pt_filterlim. apply (ex_derive_continuous gap A).
  unfold gap, acosh, far in *. set (m1 := m0 + ln 2 / 2) in *. assert (R := R2_range). auto_derive.
  assert (S := sqrt_pos ((2 + exp (m1 + (1 - A) / 2)) * (2 + exp (m1 + (1 - A) / 2)) - 1)).
  assert (Q : 0 < (2 + exp (m1 + (1 - A) / 2)) * (2 + exp (m1 + (1 - A) / 2)) - 1).
  { assert (3 * 3 < (2 + exp (m1 + (1 - A) / 2)) * (2 + exp (m1 + (1 - A) / 2))) by (apply Rmult_le_0_lt_compat; lra). lra. }
  unfold Rminus, Rdiv in *. repeat split; try lra; try exact Q.
  apply Rmult_lt_0_compat; [lra|apply Rinv_0_lt_compat; lra].
Qed.
Lemma fixed : exists A, 0 < A < 2 /\ gap A = 0.
Proof.
  assert (R := R2_range). set (A1 := R2 * exp (-4)).
  assert (E4 : 0 < exp (-4) < 1 / 16).
  { split; [apply exp_pos|]. replace (-4) with (- (4)) by ring. rewrite exp_Ropp. assert (16 < exp 4).
    { assert (H := exp_ineq1 1 ltac:(lra)). replace 4 with (1 + 1 + (1 + 1)) by ring. rewrite !exp_plus.
      assert (2 * 2 < exp 1 * exp 1) by (apply Rmult_le_0_lt_compat; lra).
      assert (4 * 4 < exp 1 * exp 1 * (exp 1 * exp 1)) by (apply Rmult_le_0_lt_compat; lra). lra. }
    unfold Rdiv. rewrite Rmult_1_l. apply Rinv_lt_contravar; [apply Rmult_lt_0_compat|]; lra. }
  assert (HA1 : 0 < A1 < 1 / 8).
  { unfold A1. split; [apply Rmult_lt_0_compat; lra|]. apply Rlt_trans with (2 * exp (-4)); [apply Rmult_lt_compat_r; lra|lra]. }
  destruct (IVT_interv (fun A => - gap A) A1 R2) as (A & HA & E).
  - intros a Ha. apply continuity_pt_opp, gap_cont. lra.
  - lra.
  - destruct (far_big A1 ltac:(lra)) as [F1 F2]. unfold gap.
    replace (R2 / A1) with (exp 4).
    2:{ unfold A1. assert (X := exp_plus (-4) 4). replace (-4 + 4) with 0 in X by ring. rewrite exp_0 in X. apply (Rmult_eq_reg_r (exp (-4))); [|lra]. rewrite (Rmult_comm (exp 4)), <- X. field. split; lra. }
    rewrite ln_exp. assert (3 * 3 < (4 - A1) * (acosh (far A1) - R2)) by (apply Rmult_le_0_lt_compat; lra).
    assert (R2 * R2 < 2 * 2) by (apply Rmult_le_0_lt_compat; lra). lra.
  - destruct (far_big R2 ltac:(lra)) as [F1 F2]. unfold gap. replace (R2 / R2) with 1 by (field; lra). rewrite ln_1.
    assert (0 < R2 * (acosh (far R2) - R2)) by (apply Rmult_lt_0_compat; lra). assert (0 < R2 * R2) by (apply Rmult_lt_0_compat; lra).
    replace ((0 - R2) * (acosh (far R2) - R2)) with (- (R2 * (acosh (far R2) - R2))) by ring. lra.
  - exists A. split; [lra|]. lra.
Qed.
(** a radius to which the choice comes back *)
Lemma endless_radius : exists V, 3 < V /\ choose_r 2 (Some (m0 - ln ((V - 2) * ((V - 2) / 2)) / 2)) 1 = Done V.
Proof.
  assert (R := R2_range). destruct fixed as (A & HA & E). destruct (far_big A ltac:(lra)) as [F1 F2]. exists (far A). split; [exact F1|].
  assert (EA : 1 + 2 * (m0 - ln ((far A - 2) * ((far A - 2) / 2)) / 2) / INR 1 = A).
  { unfold far. replace (2 + exp (m0 + ln 2 / 2 + (1 - A) / 2) - 2) with (exp (m0 + ln 2 / 2 + (1 - A) / 2)) by ring.
    set (t := m0 + ln 2 / 2 + (1 - A) / 2). assert (P := exp_pos t).
    assert (El : ln (exp t * (exp t / 2)) = t + (t - ln 2)).
    { unfold Rdiv. rewrite !ln_mult, ln_Rinv, !ln_exp by (try apply Rmult_lt_0_compat; lra). ring. }
    rewrite El. unfold t.
    cbn [INR]. field. }
  unfold choose_r. rewrite EA. fold R2. destruct (Rlt_dec A 0); [lra|]. destruct (Req_EM_T A 0); [lra|].
  unfold gap in E. assert (EL : ln (A / R2) = - ln (R2 / A)).
  { rewrite <- ln_Rinv by (apply Rdiv_lt_0_compat; lra). f_equal. field. split; lra. }
  rewrite EL. set (q := ln (R2 / A)) in *. assert (RR : 0 < R2 * R2) by (apply Rmult_lt_0_compat; lra).
  assert (Dn : A + - q <> 0). { intro X. replace (q - A) with 0 in E by lra. lra. }
  destruct (Req_EM_T (A + - q) 0); [contradiction|]. f_equal.
  replace (R2 * (1 - R2 / (A + - q))) with (acosh (far A)); [apply cosh_acosh; lra|].
  apply (Rmult_eq_reg_r (A + - q)); [|exact Dn]. transitivity (R2 * (A + - q) - R2 * R2); [lra|field; exact Dn].
Qed.
Lemma loop_endless V vr : 3 < V -> choose_r 2 (Some (m0 - ln ((V - 2) * ((V - 2) / 2)) / 2)) 1 = Done V ->
  Permutation vr [2; 1 + V / 2; V] -> forall rad, 0 <= rad <= 1 / 4 -> forall fuel, gc_loop fuel m0 2 2 rad vr = OutOfFuel.
Proof.
  intros HV Hc P rad Hr. assert (HP : 0 < (V - 2) * ((V - 2) / 2)) by (apply Rmult_lt_0_compat; lra).
  assert (L : forall fuel, gc_loop fuel m0 2 V 0 vr = OutOfFuel).
  { induction fuel as [|fuel IH]; [reflexivity|]. cbn [gc_loop]. rewrite (maj_yr_perm _ _ _ _ _ P). unfold maj_yr. cbn [maj_prod].
    destruct (Rle_dec (Rabs (2 - V)) 0) as [X|_]; [exfalso; rewrite Rabs_left in X; lra|].
    destruct (Rle_dec (Rabs (1 + V / 2 - V)) 0) as [X|_]; [exfalso; rewrite Rabs_left in X; lra|].
    destruct (Rle_dec (Rabs (V - V)) 0) as [_|X]; [|exfalso; apply X; unfold Rminus; rewrite Rplus_opp_r, Rabs_R0; lra].
    replace (1 * (2 - V) * (1 + V / 2 - V)) with ((V - 2) * ((V - 2) / 2)) by field.
    destruct (Rlt_dec 0 ((V - 2) * ((V - 2) / 2))); [|contradiction]. rewrite Hc. cbn [bind]. exact IH. }
  intros [|fuel]; [reflexivity|]. cbn [gc_loop]. rewrite (maj_yr_perm _ _ _ _ _ P). unfold maj_yr. cbn [maj_prod].
  destruct (Rle_dec (Rabs (2 - 2)) rad) as [_|X]; [|exfalso; apply X; unfold Rminus; rewrite Rplus_opp_r, Rabs_R0; lra].
  destruct (Rle_dec (Rabs (1 + V / 2 - 2)) rad) as [X|_]; [exfalso; rewrite Rabs_pos_eq in X; lra|].
  destruct (Rle_dec (Rabs (V - 2)) rad) as [X|_]; [exfalso; rewrite Rabs_pos_eq in X; lra|].
  replace (1 * (1 + V / 2 - 2) * (V - 2)) with ((V - 2) * ((V - 2) / 2)) by field.
  destruct (Rlt_dec 0 ((V - 2) * ((V - 2) / 2))); [|contradiction]. rewrite Hc. cbn [bind]. apply L.
Qed.
End Fixed.

(** ** the search *)
Theorem params_endless prec : (8 <= prec)%Z -> exists V, 3 < V /\ forall u, Permutation (map half_sum u) [2; 1 + V / 2; V] ->
  forall fuel, gc_params fuel u 2 prec = OutOfFuel.
Proof.
  intro Hp. assert (Hp' : 8 <= IZR prec) by (apply IZR_le; exact Hp). set (m0 := 2 * ln (sqrt (2 * PI)) + INR 2 * ln 2 + IZR prec * ln 2).
  assert (Hm : 6 <= m0).
  { unfold m0. rewrite ln_2pi. assert (L := ln_2pi_ge_1). assert (L2 := ln_lt_2). cbn [INR]. assert (8 * (/ 2) <= IZR prec * ln 2) by (apply Rmult_le_compat; lra). lra. }
  destruct (endless_radius m0 Hm) as (V & HV & Hc). exists V. split; [exact HV|]. intros u P fuel.
  assert (F : Forall (fun z => 1 < half_sum z) u).
  { apply Forall_forall. intros z Hz. assert (I : In (half_sum z) [2; 1 + V / 2; V]) by (apply (Permutation_in _ P), in_map, Hz). cbn [In] in I. lra. }
  unfold gc_params. rewrite (vec_r_done _ F). cbn [bind]. destruct (map half_sum u) as [|r1 vr'] eqn:Em.
  { apply Permutation_nil_cons in P. contradiction. }
  rewrite (min_perm _ _ _ _ P). assert (E2 : min_r [1 + V / 2; V] 2 = 2).
  { cbn [min_r]. destruct (Rlt_dec (1 + V / 2) 2); [lra|]. destruct (Rlt_dec V 2); [lra|]. reflexivity. }
  rewrite E2. destruct (Z.eqb_spec prec 0); [lia|]. fold m0. rewrite (loop_endless m0 V _ HV Hc P); [reflexivity|].
  assert (I : 0 < / IZR prec <= / 8) by (split; [apply Rinv_0_lt_compat|apply Rinv_le_contravar]; lra).
  unfold Rdiv. rewrite Rabs_pos_eq; lra.
Qed.
