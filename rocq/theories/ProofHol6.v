(** The double exponential rule for functions holomorphic in a strip: the error bound. *)
From Coq Require Import Reals Lra Lia.
From Coquelicot Require Import Coquelicot.
From Verif Require Import CArg SpecDe ProofDe ProofDe2 ProofDe3 ProofErr3 ProofErr4 ProofErr5 ProofHol1 ProofHol2 ProofHol4 ProofHol5.
Local Open Scope R_scope.

Lemma Cmod_sub_le a b : Cmod (a - b)%C <= Cmod a + Cmod b.
Proof. unfold Cminus. eapply Rle_trans; [apply Cmod_triangle|]. rewrite Cmod_opp. lra. Qed.
Lemma ccont_mod f t : ccont f t -> continuous (fun t => Cmod (f t)) t.
Proof.
  intros [H1 H2]. unfold Cmod. apply continuity_pt_filterlim.
  apply (continuity_pt_comp (fun t => fst (f t) ^ 2 + snd (f t) ^ 2) sqrt).
  - apply continuity_pt_filterlim. apply (continuous_plus (V := R_NormedModule) (fun t => fst (f t) ^ 2) (fun t => snd (f t) ^ 2)).
    + apply (continuous_comp (fun t => fst (f t)) (fun x => x ^ 2)); [exact H1|]. apply (ex_derive_continuous (V := R_NormedModule)). auto_derive. trivial.
    + apply (continuous_comp (fun t => snd (f t)) (fun x => x ^ 2)); [exact H2|]. apply (ex_derive_continuous (V := R_NormedModule)). auto_derive. trivial.
  - apply continuity_pt_sqrt. assert (H := pow2_ge_0 (fst (f t))). assert (H' := pow2_ge_0 (snd (f t))). lra.
Qed.
Lemma is_RInt_mirror (b : R -> R) L I : is_RInt b (- L) 0 I -> is_RInt (fun t => b (- t)) 0 L I.
Proof.
  intro H. replace 0 with (- 0) in H at 1 by ring. apply (is_RInt_comp_opp (V := R_NormedModule)) in H.
  apply (is_RInt_swap (V := R_NormedModule)), (is_RInt_opp (V := R_NormedModule)) in H.
  change (is_RInt (fun x => - - b (- x)) 0 L (- - I)) in H. rewrite Ropp_involutive in H.
  revert H. apply is_RInt_ext. intros t _. apply Ropp_involutive.
Qed.
Lemma RInt_sym_bound (b : R -> R) L K : (forall t, continuous b t) -> RInt b 0 L <= K -> RInt (fun t => b (- t)) 0 L <= K -> RInt b (- L) L <= 2 * K.
Proof.
  intros Hc H1 H2.
  assert (Hex : forall u v, ex_RInt b u v) by (intros; apply (ex_RInt_continuous (V := R_CompleteNormedModule)); intros; apply Hc).
  assert (C1 : RInt b (- L) L = RInt b (- L) 0 + RInt b 0 L) by (rewrite <- (RInt_Chasles (V := R_CompleteNormedModule) b (- L) 0 L) by apply Hex; reflexivity).
  assert (E : RInt (fun t => b (- t)) 0 L = RInt b (- L) 0).
  { apply is_RInt_unique, is_RInt_mirror, (RInt_correct (V := R_CompleteNormedModule)), Hex. }
  rewrite E in H2. lra.
Qed.
(** sums over the nodes k h, |k| <= n *)
Definition rule (h : R) (n : nat) (f : R -> C) : C := (RtoC h * csum (2 * n + 1) (fun k => f (node h n k)))%C.
Lemma rule_S h n f : rule h (S n) f = (rule h n f + RtoC h * (f (INR (S n) * h)%R + f (- (INR (S n) * h))%R))%C.
Proof.
  unfold rule. replace (2 * S n + 1)%nat with (S (S (2 * n + 1))) by lia. rewrite csum_S_l. cbn [csum].
  rewrite (csum_ext _ (fun k => f (node h (S n) (S k))) (fun k => f (node h n k))).
  2:{ intros k _. f_equal. unfold node. do 2 f_equal. lia. }
  replace (node h (S n) 0) with (- (INR (S n) * h)) by (unfold node; rewrite minus_IZR, <- !INR_IZR_INZ; cbn [INR]; ring).
  replace (node h (S n) (S (2 * n + 1))) with (INR (S n) * h).
  - ring.
  - unfold node. rewrite minus_IZR, <- !INR_IZR_INZ, !S_INR, plus_INR, mult_INR. cbn [INR]. ring.
Qed.
Definition tail_bound (l a t : R) : R := Rpower 2 (2 * a) / (2 * a) * exp (- (2 * a * l * sinh t)).
Section Rule.
Variables l r a h r2 m1 m2 : R.
Variable F : C -> C.
Hypothesis Hl : 1 <= l.
Hypothesis Hr : 0 < r < PI / 2.
Hypothesis Hs : l * sin r < PI / 2.
Hypothesis Ha : 0 < a.
Hypothesis Hh : 0 < h.
Hypothesis HF : analytic (strip r2) F.
Hypothesis Hr2 : r < r2.
Hypothesis Hm1 : forall t, Cmod (F (t, 0)) <= m1.
Hypothesis Hm2 : forall z, Rabs (snd z) <= r -> Cmod (F z) <= m2.
Definition wf (t : R) : C := (RtoC (SpecDe.weight l a t) * F (t, 0)%R)%C.
Lemma r_m1 : 0 <= m1.
Proof using Hm1. eapply Rle_trans; [apply Cmod_ge_0|apply (Hm1 0)]. Qed.
Lemma r_m2 : 0 <= m2.
Proof using Hm2 Hr. eapply Rle_trans; [apply Cmod_ge_0|apply (Hm2 (0, 0))]. cbn [snd]. rewrite Rabs_R0. lra. Qed.
Lemma rule_tail N K : Cmod (rule h (N + K) wf - rule h N wf)%C <= 2 * m1 * tail h l a N K.
Proof using Hl Hh Hm1.
  induction K as [|K IH]; cbn [tail].
  - rewrite Nat.add_0_r. replace (rule h N wf - rule h N wf)%C with (RtoC 0) by ring. rewrite Cmod_0. lra.
  - rewrite Nat.add_succ_r, rule_S. set (t := INR (S (N + K)) * h).
    match goal with |- Cmod ((?p + ?q) - ?s)%C <= _ => replace ((p + q) - s)%C with ((p - s) + q)%C by ring end.
    eapply Rle_trans; [apply Cmod_triangle|]. rewrite Rmult_plus_distr_l. apply Rplus_le_compat; [exact IH|].
    rewrite Cmod_mult, Cmod_R, Rabs_pos_eq by lra.
    assert (Hw : forall s, SpecDe.weight l a s = SpecDe.weight l a t -> Cmod (wf s) <= SpecDe.weight l a t * m1).
    { intros s E. unfold wf. rewrite Cmod_mult, Cmod_R, E. assert (H := weight_pos l a ltac:(lra) t). rewrite Rabs_pos_eq by lra. apply Rmult_le_compat_l; [lra|apply Hm1]. }
    assert (H1 := Hw t eq_refl). assert (H2 : Cmod (wf (- t)) <= SpecDe.weight l a t * m1).
    { apply Hw. unfold SpecDe.weight. rewrite cosh_Ropp, sinh_Ropp. replace (l * - sinh t) with (- (l * sinh t)) by ring. now rewrite cosh_Ropp. }
    assert (H3 := Cmod_triangle (wf t) (wf (- t))).
    replace (2 * m1 * (h * SpecDe.weight l a t)) with (h * (2 * (SpecDe.weight l a t * m1))) by ring. apply Rmult_le_compat_l; lra.
Qed.
Lemma wf_cont t : ccont wf t.
Proof using HF Hr Hr2.
  unfold wf. apply ccont_mult.
  - apply ccont_R. apply (ex_derive_continuous (V := R_NormedModule)). unfold SpecDe.weight, Rpower.
    assert (Hp := ProofDe2.cosh_pos (l * sinh t)). unfold cosh, sinh in *. auto_derive. split; [exact Hp|]. split; [apply Rgt_not_eq, exp_pos|easy].
  - destruct HF as (F' & H). apply (holo_x F F'), H. unfold strip. cbn [snd]. rewrite Rabs_R0. lra.
Qed.
Lemma wf_int u v : cint wf u v (CInt wf u v).
Proof using HF Hr Hr2. apply cint_ex. intros. apply wf_cont. Qed.
Lemma wf_mod t : Cmod (wf t) <= SpecDe.weight l a t * m1.
Proof using Hl Hm1. unfold wf. rewrite Cmod_mult, Cmod_R. assert (H := weight_pos l a ltac:(lra) t). rewrite Rabs_pos_eq by lra. apply Rmult_le_compat_l; [lra|apply Hm1]. Qed.
Lemma tb_pos t : 0 < tail_bound l a t.
Proof using Ha. unfold tail_bound. apply Rmult_lt_0_compat; [|apply exp_pos]. apply Rdiv_lt_0_compat; [apply Rpower_pos|lra]. Qed.
Lemma maj_int u v : is_RInt (fun t => m1 * (Rpower 2 (2 * a) * l * cosh t * exp (- (2 * a * l * sinh t)))) u v (m1 * (tail_bound l a u - tail_bound l a v)).
Proof using Hl Ha.
  apply (is_RInt_scal (V := R_NormedModule)).
  assert (H := is_RInt_derive (V := R_CompleteNormedModule) (fun t => - tail_bound l a t) (fun t => Rpower 2 (2 * a) * l * cosh t * exp (- (2 * a * l * sinh t))) u v).
  assert (H' : is_RInt (fun t => Rpower 2 (2 * a) * l * cosh t * exp (- (2 * a * l * sinh t))) u v (- tail_bound l a v - - tail_bound l a u)).
  { apply H.
    - intros t _. assert (D := G_derive l a Ha t). apply is_derive_Reals in D. apply der_opp in D. rewrite Ropp_involutive in D. exact D.
    - intros t _. apply (ex_derive_continuous (V := R_NormedModule)). unfold cosh, sinh. auto_derive. trivial. }
  replace (- tail_bound l a v - - tail_bound l a u) with (tail_bound l a u - tail_bound l a v) in H' by ring. exact H'.
Qed.
Lemma wf_tail u v : 0 <= u <= v -> Cmod (CInt wf u v) <= m1 * tail_bound l a u.
Proof using Hl Ha Hm1 HF Hr Hr2.
  intro H. assert (Huv : u <= v) by lra. apply Rle_trans with (m1 * (tail_bound l a u - tail_bound l a v)).
  - apply (cint_bound _ _ _ _ _ _ Huv (wf_int u v) (maj_int u v)). intros t Ht. eapply Rle_trans; [apply wf_mod|]. rewrite Rmult_comm.
    apply Rmult_le_compat_l; [apply r_m1|]. apply (weight_le l a ltac:(lra) Ha).
  - apply Rmult_le_compat_l; [apply r_m1|]. assert (P := tb_pos v). lra.
Qed.
Lemma wf_tail_neg u v : 0 <= u <= v -> Cmod (CInt wf (- v) (- u)) <= m1 * tail_bound l a u.
Proof using Hl Ha Hm1 HF Hr Hr2.
  intro H. assert (Huv : u <= v) by lra.
  assert (HI : cint (fun t => wf (- t)) u v (CInt wf (- v) (- u))).
  { destruct (wf_int (- v) (- u)) as [I1 I2].
    assert (aux : forall (b : R -> R) I, is_RInt b (- v) (- u) I -> is_RInt (fun t => b (- t)) u v I).
    { intros b I Hb. apply (is_RInt_comp_opp (V := R_NormedModule)) in Hb.
      apply (is_RInt_swap (V := R_NormedModule)), (is_RInt_opp (V := R_NormedModule)) in Hb.
      change (is_RInt (fun x => - - b (- x)) u v (- - I)) in Hb. rewrite Ropp_involutive in Hb.
      revert Hb. apply is_RInt_ext. intros t _. apply Ropp_involutive. }
    split; [exact (aux (fun t => fst (wf t)) _ I1)|exact (aux (fun t => snd (wf t)) _ I2)]. }
  apply Rle_trans with (m1 * (tail_bound l a u - tail_bound l a v)).
  - apply (cint_bound _ _ _ _ _ _ Huv HI (maj_int u v)). intros t Ht. eapply Rle_trans; [apply wf_mod|]. rewrite Rmult_comm.
    apply Rmult_le_compat_l; [apply r_m1|]. eapply Rle_trans; [|apply (weight_le l a ltac:(lra) Ha)]. right.
    unfold SpecDe.weight. rewrite cosh_Ropp, sinh_Ropp. replace (l * - sinh t) with (- (l * sinh t)) by ring. now rewrite cosh_Ropp.
  - apply Rmult_le_compat_l; [apply r_m1|]. assert (P := tb_pos v). lra.
Qed.
Lemma tb_le u v : u <= v -> tail_bound l a v <= tail_bound l a u.
Proof using Hl Ha.
  intro H. unfold tail_bound. apply Rmult_le_compat_l; [apply Rdiv_le_0_compat; [left; apply Rpower_pos|lra]|]. apply ProofDe2.exp_le. assert (H1 := sinh_le u v H). assert (0 <= 2 * a * l) by nra. nra.
Qed.
Lemma tb_small e : 0 < e -> exists T0, 0 <= T0 /\ forall t, T0 <= t -> m1 * tail_bound l a t <= e.
Proof using Hl Ha Hm1.
  intro He. assert (P1 := r_m1). set (K := m1 * (Rpower 2 (2 * a) / (2 * a))).
  assert (HK : 0 <= K). { unfold K. apply Rmult_le_pos; [exact P1|]. apply Rdiv_le_0_compat; [left; apply Rpower_pos|lra]. }
  exists (K / (2 * a * e)). split; [apply Rdiv_le_0_compat; [exact HK|nra]|]. intros t Ht.
  assert (Ht0 : 0 <= t) by (eapply Rle_trans; [|exact Ht]; apply Rdiv_le_0_compat; [exact HK|nra]).
  apply Rle_div_l in Ht; [|nra].
  unfold tail_bound. rewrite <- Rmult_assoc. fold K. rewrite exp_Ropp.
  assert (H1 := sinh_ge_id t Ht0). set (y := 2 * a * l * sinh t).
  assert (Hy : 2 * a * t <= y). { unfold y. assert (0 <= 2 * a) by lra. assert (t <= l * sinh t) by nra. nra. }
  assert (He2 : 1 + y <= exp y). { destruct (Req_dec y 0) as [->|Hn]; [rewrite exp_0; lra|left; now apply exp_ineq1]. }
  change (K / exp y <= e). apply Rle_div_l; [apply exp_pos|]. nra.
Qed.
Lemma wf_split u v s t : 0 <= u <= s -> 0 <= v <= t -> Cmod (CInt wf (- s) t - CInt wf (- u) v)%C <= m1 * tail_bound l a u + m1 * tail_bound l a v.
Proof using Hl Ha Hm1 HF Hr Hr2.
  intros H1 H2.
  assert (E : CInt wf (- s) t = (CInt wf (- s) (- u) + CInt wf (- u) v + CInt wf v t)%C).
  { apply cint_unique. apply cint_chasles with v; [apply cint_chasles with (- u)|]; apply wf_int. }
  rewrite E. match goal with |- Cmod ((?p + ?q + ?w) - ?q)%C <= _ => replace ((p + q + w) - q)%C with (p + w)%C by ring end.
  eapply Rle_trans; [apply Cmod_triangle|]. assert (A := wf_tail_neg u s H1). assert (B := wf_tail v t H2). lra.
Qed.
Lemma limit_exists : exists I, forall u v, 0 <= u -> 0 <= v -> Cmod (CInt wf (- u) v - I)%C <= m1 * tail_bound l a u + m1 * tail_bound l a v.
Proof using Hl Ha Hm1 HF Hr Hr2.
  set (un := fun n : nat => CInt wf (- INR n) (INR n)).
  assert (cau : forall e, 0 < e -> exists n0, forall n p, (n0 <= n)%nat -> (n0 <= p)%nat -> Cmod (un n - un p)%C < e).
  { intros e He. destruct (tb_small (e / 5) ltac:(lra)) as (T0 & P0 & H0).
    destruct (nfloor_ex T0 P0) as (n0 & Hn0). exists (S n0).
    assert (aux : forall n p, (S n0 <= p <= n)%nat -> Cmod (un n - un p)%C < e).
    { intros n p [Hp Hnp]. assert (A1 : INR (S n0) <= INR p) by now apply le_INR. assert (A2 : INR p <= INR n) by now apply le_INR. rewrite S_INR in A1.
      assert (H := wf_split (INR p) (INR p) (INR n) (INR n) ltac:(lra) ltac:(lra)). assert (B := H0 (INR p) ltac:(lra)). unfold un. lra. }
    intros n p Hn Hp. destruct (le_lt_dec p n) as [H|H]; [apply aux; lia|]. rewrite <- Cmod_opp. replace (- (un n - un p))%C with (un p - un n)%C by ring. apply aux. lia. }
  assert (comp : forall pr : C -> R, (forall z w, Rabs (pr z - pr w) <= Cmod (z - w)%C) -> exists x : R, is_lim_seq (fun n => pr (un n)) (Finite x) /\ True).
  { intros pr Hpr. assert (Hex : ex_finite_lim_seq (fun n => pr (un n))).
    { apply ex_lim_seq_cauchy_corr. intros e. destruct (cau e (cond_pos e)) as (n0 & H). exists n0. intros n p Hn Hp. eapply Rle_lt_trans; [apply Hpr|]. now apply H. }
    destruct Hex as (x & Hx). exists x. now split. }
  assert (P1 : forall z w : C, Rabs (fst z - fst w) <= Cmod (z - w)%C).
  { intros z w. assert (H := Rmax_Cmod (z - w)%C). cbn [fst snd Cminus Cplus Copp] in H. eapply Rle_trans; [apply Rmax_l|exact H]. }
  assert (P2 : forall z w : C, Rabs (snd z - snd w) <= Cmod (z - w)%C).
  { intros z w. assert (H := Rmax_Cmod (z - w)%C). cbn [fst snd Cminus Cplus Copp] in H. eapply Rle_trans; [apply Rmax_r|exact H]. }
  destruct (comp fst P1) as (x & Hx & _). destruct (comp snd P2) as (y & Hy & _). exists (x, y). intros u v Hu Hv.
  apply le_epsilon. intros e He.
  assert (N1 : exists n1, forall n, (n1 <= n)%nat -> Rabs (fst (un n) - x) < e / 2).
  { assert (He2 : 0 < e / 2) by lra. apply is_lim_seq_spec in Hx. exact (Hx (mkposreal _ He2)). }
  assert (N2 : exists n2, forall n, (n2 <= n)%nat -> Rabs (snd (un n) - y) < e / 2).
  { assert (He2 : 0 < e / 2) by lra. apply is_lim_seq_spec in Hy. exact (Hy (mkposreal _ He2)). }
  destruct N1 as (n1 & N1). destruct N2 as (n2 & N2). destruct (nfloor_ex (u + v) ltac:(lra)) as (n3 & Hn3).
  set (n := (n1 + n2 + S n3)%nat). specialize (N1 n ltac:(unfold n; lia)). specialize (N2 n ltac:(unfold n; lia)).
  assert (Hn : u + v <= INR n). { assert (H := le_INR (S n3) n ltac:(unfold n; lia)). rewrite S_INR in H. lra. }
  assert (D : Cmod (un n - (x, y))%C <= e).
  { eapply Rle_trans; [apply Cmod_le_sum|]. cbn [fst snd Cminus Cplus Copp]. unfold Rminus in N1, N2. lra. }
  assert (S1 := wf_split u v (INR n) (INR n) ltac:(lra) ltac:(lra)). fold (un n) in S1.
  replace (CInt wf (- u) v - (x, y))%C with ((un n - (x, y)) - (un n - CInt wf (- u) v))%C by ring.
  eapply Rle_trans; [apply Cmod_sub_le|]. lra.
Qed.
Lemma side_small e : 0 < e -> exists T0, 0 <= T0 /\ forall t, T0 <= t -> X_r l r <= big_x l r t /\ m2 * (l * cosh t * phi2 l r a (big_x l r t)) <= e.
Proof using Hl Hr Hs Ha Hm2.
  intro He. assert (P2 := r_m2). assert (Px := l_x l r Hl Hr Hs). assert (Pr := l_cr r Hr). set (x := X_r l r) in *.
  set (K := Rpower (sinh x) (- (2 * a)) * exp (2 * a * x)).
  assert (PK : 0 < K) by (apply Rmult_lt_0_compat; [apply Rpower_pos|apply exp_pos]).
  set (A := m2 * ((/ cos r + l) * K / (a * a))).
  assert (Pi : 0 < / cos r) by now apply Rinv_0_lt_compat.
  assert (PA : 0 <= A). { unfold A. apply Rmult_le_pos; [exact P2|]. apply Rdiv_le_0_compat; [|nra]. apply Rmult_le_pos; lra. }
  set (X0 := x + 1 + A / e). assert (PX0 : 0 <= A / e) by (apply Rdiv_le_0_compat; lra).
  exists (X0 / cos r). split; [apply Rdiv_le_0_compat; unfold X0; lra|]. intros t Ht.
  assert (Ht0 : 0 <= t) by (eapply Rle_trans; [|exact Ht]; apply Rdiv_le_0_compat; unfold X0; lra).
  apply Rle_div_l in Ht; [|lra]. assert (H1 := sinh_ge_id t Ht0).
  assert (HX : X0 <= big_x l r t). { eapply Rle_trans; [exact Ht|]. unfold big_x. assert (t <= l * sinh t) by nra. nra. }
  set (X := big_x l r t) in *. split; [unfold X0 in HX; lra|].
  assert (HX1 : 1 <= X) by (unfold X0 in HX; lra).
  assert (Hc : l * cosh t <= (/ cos r + l) * X).
  { assert (H2 := cosh_le_sinh t Ht0). assert (E : l * sinh t = / cos r * X) by (unfold X, big_x; field; lra).
    assert (l * cosh t <= l * sinh t + l) by nra. assert (l <= l * X) by nra. lra. }
  assert (He2 : phi2 l r a X <= K / (a * a * (X * X))).
  { unfold phi2. fold x. replace (- (2 * a * (X - x))) with (2 * a * x + - (2 * a * X)) by ring. rewrite exp_plus, <- Rmult_assoc. fold K. rewrite exp_Ropp.
    apply Rmult_le_compat_l; [lra|]. apply Rinv_le_contravar; [apply Rmult_lt_0_compat; nra|].
    assert (H := exp_quarter (2 * a * X) ltac:(nra)). eapply Rle_trans; [|exact H]. right. field. }
  apply Rle_trans with (A / X).
  - unfold A. replace (m2 * ((/ cos r + l) * K / (a * a)) / X) with (m2 * ((/ cos r + l) * X * (K / (a * a * (X * X))))) by (field; repeat split; lra).
    apply Rmult_le_compat_l; [exact P2|]. apply Rmult_le_compat; [|left; apply Rmult_lt_0_compat; [apply Rpower_pos|apply exp_pos]|exact Hc|exact He2].
    assert (H := ProofDe2.cosh_pos t). nra.
  - apply Rle_div_l; [lra|]. apply Rle_trans with (e * X0); [|nra]. unfold X0. replace (e * (x + 1 + A / e)) with (e * (x + 1) + A) by (field; lra). nra.
Qed.
Theorem de_line : exists I, (forall u v, 0 <= u -> 0 <= v -> Cmod (CInt wf (- u) v - I)%C <= m1 * tail_bound l a u + m1 * tail_bound l a v) /\
  forall N, 1 <= 2 * a * l * cosh (INR N * h) -> Cmod (rule h N wf - I)%C <= e_T h l N m1 a + 4 / 3 * e_Q h l r m2 a.
Proof using Hl Hr Hs Ha Hh HF Hr2 Hm1 Hm2.
  destruct limit_exists as (I & HI). exists I. split; [exact HI|]. intros N HN.
  destruct (wider l r Hl Hr Hs) as (r1 & Hr1 & Hs1). set (r0 := Rmin r1 r2).
  assert (Hr0 : r < r0) by (apply Rmin_glb_lt; lra). assert (H01 : r0 <= r1) by apply Rmin_l. assert (H02 : r0 <= r2) by apply Rmin_r.
  assert (Hsub : forall q, r0 <= q -> forall z, strip r0 z -> strip q z) by (intros q Hq z Hz; unfold strip in *; lra).
  assert (Hs0 : l * sin r0 <= PI / 2).
  { assert (sin r0 <= sin r1) by (apply sin_incr_1; lra). nra. }
  destruct (weight_holo l r0 a ltac:(lra) ltac:(lra) Hs0) as (W & HW & EW & RW).
  assert (HF0 : analytic (strip r0) F) by (destruct HF as (F' & H); exists F'; intros z Hz; apply H; now apply (Hsub r2)).
  assert (Hg : analytic (strip r0) (fun z => W z * F z)%C) by (apply analytic_mult; assumption).
  assert (Eg : forall t, (W (t, 0)%R * F (t, 0)%R)%C = wf t) by (intro t; unfold wf; now rewrite RW).
  assert (Hin : forall t u, Rabs u <= r -> strip r0 (t, u)) by (intros t u Hu; unfold strip; cbn [snd]; lra).
  assert (Hrr : Rabs r <= r) by (rewrite Rabs_pos_eq; lra). assert (Hrm : Rabs (- r) <= r) by (rewrite Rabs_Ropp; exact Hrr).
  assert (P2 := r_m2). assert (Px := l_x l r Hl Hr Hs).
  assert (cW : forall v, Rabs v <= r -> forall t, continuous (fun t => Cmod (W (t, v))) t).
  { intros v Hv t. apply ccont_mod. destruct HW as (W' & H). apply (holo_x W W'), H, Hin, Hv. }
  assert (hb : forall v L, v = r \/ v = - r -> 0 <= L -> RInt (fun t => Cmod (W (t, v))) (- L) L <= 2 * half_bound l r a).
  { intros v L Hv HL. assert (Hv' : Rabs v <= r) by (destruct Hv as [->| ->]; assumption).
    assert (bnd : forall t, 0 <= t -> forall s, Rabs s = t -> (big_x l r t <= X_r l r -> Cmod (W (s, v)) <= l * cosh t * phi1 l r a (big_x l r t)) /\
        (X_r l r <= big_x l r t -> Cmod (W (s, v)) <= l * cosh t * phi2 l r a (big_x l r t))).
    { intros t Ht s Es. rewrite EW by now apply Hin. rewrite <- Es. split; intro HX.
      - now apply wmod_near. - exact (wmod_far l r a Hl Hr Hs Ha (s, v) Hv' HX). }
    apply RInt_sym_bound; [now apply cW| |].
    - apply half_int; try assumption; [now apply cW|intros; apply Cmod_ge_0| |]; intros t Ht; apply (bnd t Ht t); now apply Rabs_pos_eq.
    - apply (half_int l r a Hl Hr Hs Ha (fun t => Cmod (W (- t, v)))); try assumption; [|intros; apply Cmod_ge_0| |].
      + intro t. apply (continuous_comp (fun t => - t) (fun t => Cmod (W (t, v)))); [|now apply cW].
        apply (ex_derive_continuous (V := R_NormedModule)). auto_derive. trivial.
      + intros t Ht. apply (bnd t Ht (- t)). rewrite Rabs_Ropp. now apply Rabs_pos_eq.
      + intros t Ht. apply (bnd t Ht (- t)). rewrite Rabs_Ropp. now apply Rabs_pos_eq. }
  assert (Hexp : 0 < exp (2 * PI * r / h) - 1).
  { assert (0 < 2 * PI * r / h) by (apply Rdiv_lt_0_compat; [|lra]; assert (H := PI_RGT_0); nra). assert (1 < exp (2 * PI * r / h)) by (rewrite <- exp_0; now apply exp_increasing). lra. }
  apply le_epsilon. intros e He.
  set (e1 := e / (4 * r + 2)). assert (Pe1 : 0 < e1) by (apply Rdiv_lt_0_compat; lra).
  destruct (side_small e1 Pe1) as (T1 & PT1 & HT1). destruct (tb_small e1 Pe1) as (T2 & PT2 & HT2).
  destruct (nfloor_ex ((T1 + T2) / h)) as (k0 & Hk0). { apply Rdiv_le_0_compat; lra. }
  set (n := (N + S k0)%nat). set (L := (INR n + / 2) * h).
  assert (HLT : T1 + T2 <= L).
  { assert (H := le_INR (S k0) n ltac:(unfold n; lia)). rewrite S_INR in H. assert (Hq : (T1 + T2) / h <= INR n) by lra. apply Rle_div_l in Hq; [|lra]. unfold L. nra. }
  assert (Jc : forall v, Rabs v <= r -> is_RInt (fun t => m2 * Cmod (W (t, v))) (- L) L (m2 * RInt (fun t => Cmod (W (t, v))) (- L) L)).
  { intros v Hv. apply (is_RInt_scal (V := R_NormedModule)). apply (RInt_correct (V := R_CompleteNormedModule)), (ex_RInt_continuous (V := R_CompleteNormedModule)). intros. now apply cW. }
  assert (G : forall v, Rabs v <= r -> forall t, - L < t < L -> Cmod (W (t, v) * F (t, v))%C <= m2 * Cmod (W (t, v))).
  { intros v Hv t _. rewrite Cmod_mult, Rmult_comm. apply Rmult_le_compat_r; [apply Cmod_ge_0|now apply Hm2]. }
  assert (side : forall s u, Rabs s = L -> Rabs u <= r -> Cmod (W (s, u) * F (s, u))%C <= e1).
  { intros s u Es Hu. destruct (HT1 L ltac:(lra)) as (A1 & A2). rewrite Cmod_mult, EW by now apply Hin.
    assert (B := wmod_far l r a Hl Hr Hs Ha (s, u) Hu). cbn [fst] in B. rewrite Es in B. specialize (B A1).
    assert (C1 := Hm2 (s, u) Hu). assert (C2 := Cmod_ge_0 (F (s, u))).
    assert (Pw : 0 <= wmod l a (s, u)). { rewrite <- EW by now apply Hin. apply Cmod_ge_0. }
    eapply Rle_trans; [|exact A2]. rewrite Rmult_comm. apply Rmult_le_compat; assumption. }
  assert (PL : 0 <= L) by lra.
  assert (G3 : forall u, Rabs u <= r -> Cmod (W (L, u) * F (L, u))%C <= e1 /\ Cmod (W (- L, u)%R * F (- L, u)%R)%C <= e1).
  { intros u Hu. split; apply side; try assumption; [now apply Rabs_pos_eq|rewrite Rabs_Ropp; now apply Rabs_pos_eq]. }
  assert (Hr00 : 0 < r < r0) by lra.
  assert (TR := trapezoid (fun z => W z * F z)%C r0 r h n _ _ _ _ e1 Hg Hr00 Hh (Jc r Hrr) (G r Hrr) (Jc (- r) Hrm) (G (- r) Hrm) G3). fold L in TR. cbv beta in TR.
  assert (ER : (RtoC h * csum (2 * n + 1) (fun k => W (node h n k, 0%R) * F (node h n k, 0%R)))%C = rule h n wf).
  { unfold rule. f_equal. apply csum_ext. intros k _. apply Eg. }
  rewrite ER in TR.
  assert (EI : CInt (fun t => W (t, 0)%R * F (t, 0)%R)%C (- L) L = CInt wf (- L) L).
  { apply cint_unique. apply (cint_ext wf); [|apply wf_int]. intros t _. symmetry. apply Eg. }
  rewrite EI in TR.
  assert (BJ : m2 * RInt (fun t => Cmod (W (t, r))) (- L) L + m2 * RInt (fun t => Cmod (W (t, - r))) (- L) L <= 4 / 3 * (2 * m2 * B_r l r a)).
  { assert (B1 := hb r L (or_introl eq_refl) PL). assert (B2 := hb (- r) L (or_intror eq_refl) PL). assert (B3 := half_published l r a Hl Hr Hs Ha). nra. }
  assert (BQ : (m2 * RInt (fun t => Cmod (W (t, r))) (- L) L + m2 * RInt (fun t => Cmod (W (t, - r))) (- L) L) / (exp (2 * PI * r / h) - 1) <= 4 / 3 * e_Q h l r m2 a).
  { unfold e_Q, Rdiv. rewrite <- Rmult_assoc. apply Rmult_le_compat_r; [left; now apply Rinv_0_lt_compat|exact BJ]. }
  assert (BI := HI L L PL PL). assert (B5 := HT2 L ltac:(lra)).
  assert (BT := rule_tail N (S k0)). fold n in BT. assert (BT2 := truncation h l a Hh ltac:(lra) Ha N (S k0) m1 r_m1 HN).
  assert (Ee : 4 * r * e1 + 2 * e1 = e) by (unfold e1; field; lra).
  replace (rule h N wf - I)%C with ((rule h n wf - CInt wf (- L) L) + (CInt wf (- L) L - I) - (rule h n wf - rule h N wf))%C by ring.
  eapply Rle_trans; [apply Cmod_sub_le|]. assert (BB := Cmod_triangle (rule h n wf - CInt wf (- L) L)%C (CInt wf (- L) L - I)%C). lra.
Qed.
End Rule.
