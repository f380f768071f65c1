(** The integral of (1 - t^2)^(s-1) in terms of the Gamma function, and existence of the latter. *)
From Coq Require Import Reals Lra Lia.
From Coquelicot Require Import Coquelicot.
From Verif Require Import SpecGamma ProofBeta.
Local Open Scope R_scope.

Section Values.
  Variable G : R -> R.
  Hypothesis HG : is_gamma G.
  Local Definition quo (s : R) : R := G (s + / 2) / G s.

  Lemma quo_pos s : 0 < s -> 0 < quo s.
  Proof. intros H. destruct HG as (P & _). apply Rdiv_lt_0_compat; apply P; lra. Qed.
  Lemma quo_step s : 0 < s -> quo (s + 1) = (s + / 2) / s * quo s.
  Proof.
    intros H. destruct HG as (P & _ & S & _). unfold quo. replace (s + 1 + / 2) with (s + / 2 + 1) by ring.
    rewrite !S by lra. field. split; [apply Rgt_not_eq, P; lra|lra].
  Qed.
  Lemma quo_mono s t : 0 < s -> s <= t -> quo s <= quo t.
  Proof.
    intros Hs Hst. destruct HG as (P & _ & _ & V).
    set (l := (t - s) / (t + / 2 - s)).
    assert (D : 0 < t + / 2 - s) by lra.
    assert (Hl : 0 <= l <= 1).
    { unfold l. split; [apply Rdiv_le_0_compat; lra|]. apply (Rmult_le_reg_r (t + / 2 - s)); [exact D|]. unfold Rdiv. rewrite Rmult_assoc, Rinv_l by lra. lra. }
    assert (El : l * (t + / 2 - s) = t - s) by (unfold l; field; lra).
    assert (A1 := V s (t + / 2) l Hs ltac:(lra) Hl). assert (A2 := V s (t + / 2) (1 - l) Hs ltac:(lra) ltac:(lra)).
    replace (l * s + (1 - l) * (t + / 2)) with (s + / 2) in A1 by lra.
    replace ((1 - l) * s + (1 - (1 - l)) * (t + / 2)) with t in A2 by lra.
    assert (A : ln (G (s + / 2)) - ln (G s) <= ln (G (t + / 2)) - ln (G t)) by nra.
    unfold quo, Rdiv. assert (Q1 := P s ltac:(lra)). assert (Q2 := P t ltac:(lra)). assert (Q3 := P (s + / 2) ltac:(lra)). assert (Q4 := P (t + / 2) ltac:(lra)).
    rewrite <- (exp_ln (G (s + / 2) * / G s)), <- (exp_ln (G (t + / 2) * / G t)).
    - assert (B : ln (G (s + / 2) * / G s) <= ln (G (t + / 2) * / G t)).
      { rewrite !ln_mult, !ln_Rinv by (assumption || (apply Rinv_0_lt_compat; assumption)). lra. }
      destruct B as [B|B]; [left; now apply exp_increasing|right; now rewrite B].
    - apply Rmult_lt_0_compat; [assumption|now apply Rinv_0_lt_compat].
    - apply Rmult_lt_0_compat; [assumption|now apply Rinv_0_lt_compat].
  Qed.

  (** the product of the integral by this quotient has period 1 and varies slowly *)
  Lemma prod_period s I J : 0 < s -> bint s I -> bint (s + 1) J -> J * quo (s + 1) = I * quo s.
  Proof.
    intros Hs HI HJ. rewrite quo_step by exact Hs. assert (E := bint_step s I J Hs HI HJ).
    replace J with (2 * s * I / (1 + 2 * s)) by (rewrite <- E; field; lra). field. lra.
  Qed.
  Lemma prod_period_n n : forall s I J, 0 < s -> bint s I -> bint (s + INR n) J -> J * quo (s + INR n) = I * quo s.
  Proof.
    induction n as [|n IH]; intros s I J Hs HI HJ.
    - cbn [INR] in *. replace (s + 0) with s in * by ring. now rewrite (bint_unique s J I HJ HI).
    - rewrite S_INR in *. assert (Pn := pos_INR n). destruct (bint_ex (s + INR n) ltac:(lra)) as (K & HK).
      replace (s + (INR n + 1)) with (s + INR n + 1) in * by ring.
      rewrite (prod_period (s + INR n) K J ltac:(lra) HK HJ). now apply IH.
  Qed.
  Lemma prod_near u v I J : 0 < u -> u <= v <= u + 1 -> bint u I -> bint v J ->
    u / (u + / 2) * (I * quo u) <= J * quo v <= (u + / 2) / u * (I * quo u).
  Proof.
    intros Hu Hv HI HJ. destruct (bint_ex (u + 1) ltac:(lra)) as (K & HK).
    destruct (bint_mono u v I J Hu ltac:(lra) HI HJ) as [J0 JI]. destruct (bint_mono v (u + 1) J K ltac:(lra) ltac:(lra) HJ HK) as [K0 KJ].
    assert (Q := quo_pos u Hu). assert (Q1 := quo_mono u v Hu ltac:(lra)). assert (Q2 := quo_mono v (u + 1) ltac:(lra) ltac:(lra)).
    rewrite quo_step in Q2 by exact Hu.
    assert (E : K = u / (u + / 2) * I).
    { assert (E := bint_step u I K Hu HI HK). replace K with ((1 + 2 * u) * K / (1 + 2 * u)) by (field; lra). rewrite E. field. lra. }
    split.
    - replace (u / (u + / 2) * (I * quo u)) with (K * quo u) by (rewrite E; ring). apply Rmult_le_compat; lra.
    - replace ((u + / 2) / u * (I * quo u)) with (I * ((u + / 2) / u * quo u)) by ring. apply Rmult_le_compat; lra.
  Qed.
  (** a number below every a + b / n *)
  Lemma squeeze a b : (forall n : nat, a * INR n <= b) -> a <= 0.
  Proof.
    intros H. destruct (Rle_lt_dec a 0) as [L|L]; [exact L|exfalso].
    destruct (nfloor_ex (Rabs b / a)) as (n & _ & Hn); [apply Rdiv_le_0_compat; [apply Rabs_pos|exact L]|].
    specialize (H (S n)). rewrite S_INR in H. assert (b <= Rabs b) by apply Rle_abs.
    assert (Rabs b < a * (INR n + 1)).
    { replace (Rabs b) with (a * (Rabs b / a)) by (field; lra). now apply Rmult_lt_compat_l. }
    lra.
  Qed.
  Lemma prod_const1 u v I J : 0 < u -> u <= v <= u + 1 -> bint u I -> bint v J -> J * quo v = I * quo u.
  Proof.
    intros Hu Hv HI HJ.
    assert (N : forall n : nat, (INR n + u) / (INR n + u + / 2) * (I * quo u) <= J * quo v <= (INR n + u + / 2) / (INR n + u) * (I * quo u)).
    { intro n. assert (Pn := pos_INR n). destruct (bint_ex (u + INR n) ltac:(lra)) as (I' & HI'). destruct (bint_ex (v + INR n) ltac:(lra)) as (J' & HJ').
      rewrite <- (prod_period_n n u I I' Hu HI HI'), <- (prod_period_n n v J J' ltac:(lra) HJ HJ').
      rewrite (Rplus_comm (INR n) u). apply prod_near; try assumption; lra. }
    set (A := I * quo u) in *. set (B := J * quo v) in *.
    assert (N' : forall n : nat, (INR n + u) * A <= (INR n + u + / 2) * B /\ (INR n + u) * B <= (INR n + u + / 2) * A).
    { intro n. assert (Pn := pos_INR n). destruct (N n) as [L U]. split.
      - replace ((INR n + u) * A) with ((INR n + u + / 2) * ((INR n + u) / (INR n + u + / 2) * A)) by (field; lra). apply Rmult_le_compat_l; lra.
      - replace ((INR n + u + / 2) * A) with ((INR n + u) * ((INR n + u + / 2) / (INR n + u) * A)) by (field; lra). apply Rmult_le_compat_l; lra. }
    apply Rle_antisym.
    - assert (B - A <= 0); [|lra]. apply (squeeze _ ((u + / 2) * A - u * B)). intro n. destruct (N' n). nra.
    - assert (A - B <= 0); [|lra]. apply (squeeze _ ((u + / 2) * B - u * A)). intro n. destruct (N' n). nra.
  Qed.
  Lemma prod_const_n n : forall u v I J, 0 < u -> u <= v <= u + INR n -> bint u I -> bint v J -> J * quo v = I * quo u.
  Proof.
    induction n as [|n IH]; intros u v I J Hu Hv HI HJ.
    - cbn [INR] in Hv. assert (v = u) by lra. subst v. now rewrite (bint_unique u J I HJ HI).
    - rewrite S_INR in Hv. destruct (Rle_dec v (u + 1)) as [L|L]; [now apply prod_const1|].
      destruct (bint_ex (u + 1) ltac:(lra)) as (K & HK). rewrite (IH (u + 1) v K J ltac:(lra) ltac:(lra) HK HJ). now apply prod_period.
  Qed.
  Lemma prod_const u v I J : 0 < u -> 0 < v -> bint u I -> bint v J -> J * quo v = I * quo u.
  Proof.
    assert (H : forall u v I J, 0 < u -> u <= v -> bint u I -> bint v J -> J * quo v = I * quo u).
    { clear u v I J. intros u v I J Hu Huv HI HJ. destruct (nfloor_ex (v - u) ltac:(lra)) as (n & _ & Hn).
      apply (prod_const_n (S n)); try assumption. rewrite S_INR. lra. }
    intros Hu Hv HI HJ. destruct (Rle_dec u v); [now apply H|]. symmetry. apply H; try assumption. lra.
  Qed.

  Lemma gamma_half : G (/ 2) * G (/ 2) = PI.
  Proof.
    destruct HG as (P & G1 & S & _). assert (E := prod_const (/ 2) 1 PI 2 ltac:(lra) ltac:(lra) bint_half bint_one).
    unfold quo in E. replace (1 + / 2) with (/ 2 + 1) in E by ring. replace (/ 2 + / 2) with 1 in E by field. rewrite S, G1 in E by lra.
    assert (Q := P (/ 2) ltac:(lra)).
    assert (E2 : G (/ 2) = PI / G (/ 2)) by lra. transitivity (PI / G (/ 2) * G (/ 2)); [now rewrite <- E2|]. field. lra.
  Qed.
  Lemma gamma_half_sqrt : G (/ 2) = sqrt PI.
  Proof. destruct HG as (P & _). rewrite <- gamma_half, sqrt_square; [reflexivity|]. left. apply P. lra. Qed.

  (** the integral *)
  Theorem bint_gamma s : 0 < s -> bint s (sqrt PI * G s / G (s + / 2)).
  Proof.
    intros Hs. destruct (bint_ex s Hs) as (I & HI). assert (E := prod_const (/ 2) s PI I ltac:(lra) Hs bint_half HI).
    assert (HG' := HG). destruct HG' as (P & G1 & _).
    assert (Q1 := P s Hs). assert (Q2 := P (s + / 2) ltac:(lra)). assert (Q3 := P (/ 2) ltac:(lra)).
    replace (sqrt PI * G s / G (s + / 2)) with I; [exact HI|].
    replace I with (I * quo s * (G s / G (s + / 2))) by (unfold quo; field; lra). rewrite E. unfold quo. replace (/ 2 + / 2) with 1 by field. rewrite G1.
    rewrite <- gamma_half_sqrt, <- gamma_half. field. lra.
  Qed.
End Values.

(** ** Existence *)
(** Gauss: the limit of n^s n! / (s (s+1) ... (s+n)), here its logarithm *)
Fixpoint lsum (s : R) (n : nat) : R := match n with O => ln s | S k => lsum s k + ln (s + INR (S k)) end.
Fixpoint lfac (n : nat) : R := match n with O => 0 | S k => lfac k + ln (INR (S k)) end.
Definition lgauss (s : R) (n : nat) : R := s * ln (INR (S n)) + lfac (S n) - lsum s (S n).
Definition lgam (s : R) : R := real (Lim_seq (lgauss s)).
Definition gam (s : R) : R := exp (lgam s).

Lemma ln_le_sub x : 0 < x -> ln x <= x - 1.
Proof. intros H. destruct (Req_dec x 1) as [->|N]; [rewrite ln_1; lra|]. 
  assert (E := exp_ineq1_le (ln x)). rewrite exp_ln in E by exact H. lra. Qed.
Lemma ln_ge_frac x : 0 < x -> 1 - / x <= ln x.
Proof. intros H. assert (L := ln_le_sub (/ x) (Rinv_0_lt_compat _ H)). rewrite ln_Rinv in L by exact H. lra. Qed.

Lemma incr_lgauss s n : 0 < s -> 0 <= lgauss s (S n) - lgauss s n <= s * (1 + s) * (/ INR (S n) - / INR (S (S n))).
Proof.
  intros Hs. set (N := INR (S n)). assert (HN : 1 <= N) by (unfold N; rewrite S_INR; assert (H := pos_INR n); lra).
  assert (E : lgauss s (S n) - lgauss s n = s * (ln (N + 1) - ln N) + ln (N + 1) - ln (s + (N + 1))).
  { unfold lgauss. cbn [lfac lsum]. rewrite (S_INR (S n)). fold N. ring. }
  rewrite E. rewrite (S_INR (S n)). fold N.
  assert (L1 := ln_le_sub ((N + 1) / N) ltac:(apply Rdiv_lt_0_compat; lra)). assert (L2 := ln_ge_frac ((N + 1) / N) ltac:(apply Rdiv_lt_0_compat; lra)).
  assert (L3 := ln_le_sub ((s + (N + 1)) / (N + 1)) ltac:(apply Rdiv_lt_0_compat; lra)). assert (L4 := ln_ge_frac ((s + (N + 1)) / (N + 1)) ltac:(apply Rdiv_lt_0_compat; lra)).
  unfold Rdiv in L1, L2, L3, L4. rewrite ln_mult, ln_Rinv in L1, L2, L3, L4; try (apply Rinv_0_lt_compat); try lra.
  assert (E1 : (N + 1) * / N - 1 = / N) by (field; lra). rewrite E1 in L1.
  assert (E2 : 1 - / ((N + 1) * / N) = / (N + 1)) by (field; lra). rewrite E2 in L2.
  assert (E3 : (s + (N + 1)) * / (N + 1) - 1 = s * / (N + 1)) by (field; lra). rewrite E3 in L3.
  assert (E4 : 1 - / ((s + (N + 1)) * / (N + 1)) = s * / (s + (N + 1))) by (field; lra). rewrite E4 in L4.
  split; [nra|].
  assert (Q : s * / N - s * / (s + (N + 1)) <= s * (1 + s) * (/ N - / (N + 1))).
  { replace (s * / N - s * / (s + (N + 1))) with (s * (1 + s) * / N * / (s + (N + 1))) by (field; lra).
    replace (s * (1 + s) * (/ N - / (N + 1))) with (s * (1 + s) * / N * / (N + 1)) by (field; lra).
    apply Rmult_le_compat_l; [apply Rmult_le_pos; [apply Rmult_le_pos; lra|left; apply Rinv_0_lt_compat; lra]|]. apply Rinv_le_contravar; lra. }
  nra.
Qed.
Lemma lgauss_lim s : 0 < s -> is_lim_seq (lgauss s) (lgam s).
Proof.
  intros Hs. apply Lim_seq_correct'. apply (ex_finite_lim_seq_incr _ (lgauss s 0 + s * (1 + s))).
  - intro n. assert (H := incr_lgauss s n Hs). lra.
  - intro n. assert (B : lgauss s n <= lgauss s 0 + s * (1 + s) * (1 - / INR (S n))).
    { induction n as [|n IH]; [cbn [INR]; rewrite Rinv_1; lra|]. assert (H := incr_lgauss s n Hs). lra. }
    assert (0 < / INR (S n)) by (apply Rinv_0_lt_compat, lt_0_INR; lia). assert (0 < s * (1 + s)) by nra. nra.
Qed.

Lemma lsum_one n : lsum 1 n = lfac (S n).
Proof. induction n as [|n IH]; [cbn; now rewrite ln_1, Rplus_0_l|]. cbn [lsum]. rewrite IH. cbn [lfac]. f_equal. f_equal. rewrite (S_INR (S n)). ring. Qed.
Lemma lsum_shift s n : lsum (s + 1) n = lsum s (S n) - ln s.
Proof.
  induction n as [|n IH]; [cbn; ring_simplify; f_equal; ring|]. cbn [lsum] in *. rewrite IH. rewrite (S_INR (S n)).
  replace (s + 1 + INR (S n)) with (s + (INR (S n) + 1)) by ring. ring.
Qed.
Lemma ln_quot_lim a : 0 <= a -> is_lim_seq (fun n => ln (INR (S n)) - ln (INR (S n) + a)) 0.
Proof.
  intros Ha. apply (is_lim_seq_le_le (fun n => - (a * / INR (S n))) _ (fun _ => 0)).
  - intro n. set (N := INR (S n)). assert (HN : 1 <= N) by (unfold N; rewrite S_INR; assert (H := pos_INR n); lra).
    assert (L := ln_le_sub ((N + a) * / N) ltac:(apply Rmult_lt_0_compat; [lra|apply Rinv_0_lt_compat; lra])).
    assert (L' := ln_ge_frac ((N + a) * / N) ltac:(apply Rmult_lt_0_compat; [lra|apply Rinv_0_lt_compat; lra])).
    rewrite ln_mult, ln_Rinv in L, L' by (try (apply Rinv_0_lt_compat); lra).
    replace ((N + a) * / N - 1) with (a * / N) in L by (field; lra). replace (1 - / ((N + a) * / N)) with (a * / (N + a)) in L' by (field; lra).
    assert (0 <= a * / (N + a)) by (apply Rmult_le_pos; [lra|left; apply Rinv_0_lt_compat; lra]). lra.
  - apply (is_lim_seq_ext (fun n => (- a) * / INR (S n))); [intro; ring|].
    replace (Finite 0) with (Rbar_mult (- a) 0) by (cbn; f_equal; ring).
    apply is_lim_seq_scal_l. apply (is_lim_seq_incr_1 (fun n => / INR n)).
    replace (Finite 0) with (Rbar_inv p_infty) by reflexivity. apply is_lim_seq_inv; [apply is_lim_seq_INR|discriminate].
  - apply is_lim_seq_const.
Qed.

Lemma ln_concave a b l : 0 < a -> 0 < b -> 0 <= l <= 1 -> l * ln a + (1 - l) * ln b <= ln (l * a + (1 - l) * b).
Proof.
  intros Ha Hb Hl. set (m := l * a + (1 - l) * b).
  assert (Hm : 0 < m) by (unfold m; destruct (Req_dec l 0) as [->|N]; [lra|]; assert (0 < l * a) by (apply Rmult_lt_0_compat; lra); assert (0 <= (1 - l) * b) by (apply Rmult_le_pos; lra); lra).
  assert (La := ln_le_sub (a * / m) ltac:(apply Rmult_lt_0_compat; [lra|now apply Rinv_0_lt_compat])).
  assert (Lb := ln_le_sub (b * / m) ltac:(apply Rmult_lt_0_compat; [lra|now apply Rinv_0_lt_compat])).
  rewrite ln_mult, ln_Rinv in La, Lb by (try (now apply Rinv_0_lt_compat); assumption).
  assert (E : l * (a * / m) + (1 - l) * (b * / m) = 1) by (transitivity (m * / m); [unfold m; ring|apply Rinv_r; lra]).
  nra.
Qed.
Lemma lsum_concave s t l n : 0 < s -> 0 < t -> 0 <= l <= 1 -> l * lsum s n + (1 - l) * lsum t n <= lsum (l * s + (1 - l) * t) n.
Proof.
  intros Hs Ht Hl. induction n as [|n IH]; cbn [lsum]; [now apply ln_concave|].
  assert (Pn := pos_INR (S n)). assert (C := ln_concave (s + INR (S n)) (t + INR (S n)) l ltac:(lra) ltac:(lra) Hl).
  replace (l * (s + INR (S n)) + (1 - l) * (t + INR (S n))) with (l * s + (1 - l) * t + INR (S n)) in C by ring. lra.
Qed.

Theorem gam_is_gamma : is_gamma gam.
Proof.
  split; [|split; [|split]].
  - intros. apply exp_pos.
  - unfold gam. replace (lgam 1) with 0; [apply exp_0|].
    assert (L := lgauss_lim 1 ltac:(lra)). assert (L' : is_lim_seq (lgauss 1) 0).
    { apply (is_lim_seq_ext (fun n => ln (INR (S n)) - ln (INR (S n) + 1))); [|apply ln_quot_lim; lra].
      intro n. unfold lgauss. rewrite lsum_one. cbn [lfac]. rewrite (S_INR (S n)). ring. }
    assert (E := is_lim_seq_unique _ _ L). rewrite (is_lim_seq_unique _ _ L') in E. now injection E.
  - intros s Hs. unfold gam. rewrite <- (exp_ln s) at 2 by exact Hs. rewrite <- exp_plus. f_equal.
    assert (L := lgauss_lim s Hs). assert (L1 := lgauss_lim (s + 1) ltac:(lra)).
    assert (L' : is_lim_seq (lgauss (s + 1)) (ln s + (lgam s + 0))).
    { apply (is_lim_seq_ext (fun n => ln s + (lgauss s n + (ln (INR (S n)) - ln (INR (S n) + (s + 1)))))).
      - intro n. unfold lgauss. rewrite lsum_shift. change (lsum s (S (S n))) with (lsum s (S n) + ln (s + INR (S (S n)))).
        rewrite (S_INR (S n)). replace (s + (INR (S n) + 1)) with (INR (S n) + (s + 1)) by ring. ring.
      - apply is_lim_seq_plus'; [apply is_lim_seq_const|]. apply is_lim_seq_plus'; [exact L|]. apply ln_quot_lim. lra. }
    assert (E := is_lim_seq_unique _ _ L1). rewrite (is_lim_seq_unique _ _ L') in E. injection E as E. lra.
  - intros s t l Hs Ht Hl. unfold gam. rewrite !ln_exp.
    assert (Hst : 0 < l * s + (1 - l) * t) by (destruct (Req_dec l 0) as [->|N]; [lra|]; assert (0 < l * s) by (apply Rmult_lt_0_compat; lra); assert (0 <= (1 - l) * t) by (apply Rmult_le_pos; lra); lra).
    assert (L1 := lgauss_lim _ Hst). assert (L2 := lgauss_lim s Hs). assert (L3 := lgauss_lim t Ht).
    assert (L4 : is_lim_seq (fun n => l * lgauss s n + (1 - l) * lgauss t n) (l * lgam s + (1 - l) * lgam t)).
    { apply is_lim_seq_plus'; apply (is_lim_seq_scal_l _ _ (Finite _)); assumption. }
    refine (is_lim_seq_le _ _ _ _ _ L1 L4). intro n. unfold lgauss. assert (C := lsum_concave s t l (S n) Hs Ht Hl). lra.
Qed.
