(** Quadrature sums of the Magma package: final statements. *)
From Coquelicot Require Import Coquelicot.
From Verif Require Import CArg ModelTree ModelVec ModelPeriod ModelTurn ModelMaRoot ModelMaDiff ModelMaFactor ModelMaSum SpecVec SpecPeriod SpecCurve SpecMaRoot SpecMaFactor SpecQuad SpecMaSum ProofEdge ProofVec ProofPeriod ProofQuad ProofErr3 ProofMaRoot3 ProofMaFactor ProofMaFactor2 ProofMaFactor3 ProofMaSum ProofMaSum2 ProofMaSum3 SpecEdge.
From Verif Require ModelQuad ProofTrap.
Local Open Scope nat_scope.

Lemma gc_edge_ok x a b d N : a < length x -> b < length x -> vget x a <> vget x b -> 3 <= length x -> clear_edge x a b ->
  ma_differentials 2 (Z.of_nat (length x)) = Done d -> 1 <= N ->
  exists e Y V E, edge_data x (zetas 2) 2 (length x) a b = Done e /\ branch_over_edge x a b 2 Y /\
    gc_integrals_edge e (length x) (Z.to_nat (md_g d)) (zetas 2) N = Done (V, E) /\ Z.of_nat (length V) = md_g d /\ Z.of_nat (length E) = md_g d /\
    forall i, (Z.of_nat i < md_g d)%Z ->
      vget E i = gc_rule N (fun t => RtoC (sqrt (1 - t * t)) * form_on_edge x a b Y 1 i t)%C /\ vget V i = (RtoC 2 * vget E i)%C.
Proof.
  intros Ha Hb Hab Hn Hc Hd HN. destruct (edge_sheet x 2 a b Ha Hb Hab ltac:(lia) Hn Hc) as (e & f & He & Cf & Hf).
  destruct (diff_facts 2 (Z.of_nat (length x)) d Hd ltac:(lia) ltac:(lia)) as (J1 & N1 & N2 & JN & TG & JP & last & EN & Hl1 & Hlast).
  assert (Jm : md_jm d = 1%Z) by lia. assert (Nm : md_num d = 1%Z) by lia.
  assert (Hdf : md_df d = [md_g d]).
  { destruct (md_df d) as [|k [|k' df]] eqn:Edf; cbn [length] in N1; try lia. cbn [total] in TG. rewrite Nm in EN. cbn in EN. injection EN as ->. f_equal. lia. }
  assert (G1 : (1 <= md_g d)%Z) by (apply (df_nonneg 2 _ d Hd); [lia|lia|rewrite Hdf; left; reflexivity]).
  destruct (sheet_branch x a b 2 Ha Hb Hab ltac:(lia) Hn Hc e f _ Cf Hf) as [B F0].
  destruct (gc_integrals_ok (fun t => ac_mth_root t e (zetas 2) 2 (length x - 2)) f (Z.to_nat (md_g d)) N) as (v & Ev & Lv & Hv).
  { intros t Ht. split; [apply Hf; lra|apply F0, Ht]. } { lia. } { exact HN. }
  set (S := fun _ : nat => fun F => gc_rule N (fun t => RtoC (rroot 2 (1 - t * t)) * F t)%C).
  destruct (assemble x a b 2 Ha Hb Hab ltac:(lia) Hn d Hd e f S v He F0) as (P & E & EP & LP & LE & H).
  { intros q _. apply (rule_weight (gc_rule N) (fun t => RtoC (rroot 2 (1 - t * t)))), gc_is_rule. } { lia. }
  { intros q i Hq Hi. rewrite Hdf in Hq, Hi. cbn [length] in Hq. assert (q = 0) by lia. subst q. cbn [nth] in Hi. rewrite Hdf. cbn [offset]. rewrite Nat.add_0_l.
    rewrite Hv by lia. rewrite Jm. change (Z.to_nat 1) with 1. rewrite Nat.add_0_r. reflexivity. }
  destruct (gc_same x a b d v Ha Hb Hab Hn Hd ltac:(lia)) as (e' & V & E' & Ee & EV & EP'). rewrite He in Ee. injection Ee as <-.
  rewrite EP in EP'. injection EP' as -> <-. unfold gc_rows in LP. rewrite map_length in LP.
  exists e, (ys 2 (edge_const (length x) 2 (vget (e_data e) (length x))) f), V, E. split; [exact He|]. split; [exact B|]. split.
  { unfold gc_integrals_edge. destruct (Nat.eqb_spec N 0); [lia|]. rewrite Ev. cbn [bind]. exact EV. }
  split; [exact LP|]. split; [exact LE|]. intros i Hi.
  specialize (H 0 i). rewrite Hdf in H. cbn [length nth offset] in H. destruct (H ltac:(lia) Hi) as [HE (row & Hr & Hok)].
  rewrite Nat.add_0_l in HE, Hr, Hok. rewrite Jm in HE, Hok. change (Z.to_nat (1 + Z.of_nat 0)) with 1 in HE. split.
  - rewrite HE. unfold S. unfold gc_rule. f_equal. apply csum_ext. intros k Hk. f_equal. f_equal.
    pose proof (gc_node_in N k Hk) as Hin. assert (Hp : (0 < 1 - gc_node N k * gc_node N k)%R) by nra.
    unfold rroot. destruct (Rlt_dec 0 (1 - gc_node N k * gc_node N k)); [|contradiction].
    rewrite <- Rpower_sqrt by exact Hp. reflexivity.
  - destruct Hok as [Lr Hok]. specialize (Hok 0 ltac:(lia)). unfold gc_rows in Hr. rewrite nth_error_map in Hr.
    rewrite (nth_error_nth' V (RtoC 0)) in Hr by lia. cbn in Hr. injection Hr as <-. cbn in Hok. unfold vget at 1 in Hok. cbn [nth] in Hok. fold (vget V i) in Hok.
    rewrite Hok. f_equal. unfold root. replace (2 * PI * 0 / 2)%R with 0%R by field. replace (2 * PI * -1 / 2)%R with (- PI)%R by field.
    unfold cis. rewrite cos_0, sin_0, cos_neg, sin_neg, cos_PI, sin_PI. unfold Cminus, Cplus, Copp, RtoC. cbn [fst snd]. f_equal; ring.
Qed.

Lemma gj_edge_ok x a b m d sch N : a < length x -> b < length x -> vget x a <> vget x b -> 2 <= m -> 3 <= length x -> clear_edge x a b ->
  ma_differentials (Z.of_nat m) (Z.of_nat (length x)) = Done d -> length sch = length (md_df d) ->
  (forall s, In s sch -> N / 2 <= length (fst s) /\ (N + 1) / 2 <= length (snd s) /\ forall t, t < N / 2 -> (-1 < nth t (fst s) 0 < 1)%R) ->
  exists e Y P E, edge_data x (zetas m) m (length x) a b = Done e /\ branch_over_edge x a b m Y /\
    gj_integrals_edge e m (length x) d (zetas m) sch N = Done (P, E) /\ Z.of_nat (length P) = md_g d /\ Z.of_nat (length E) = md_g d /\
    forall q i s, nth_error sch q = Some s -> (Z.of_nat i < nth q (md_df d) 0)%Z ->
      let j := (md_jm d + Z.of_nat q)%Z in let ct := offset (md_df d) q + i in
      vget E ct = sym_rule N (fst s) (snd s) (fun t => cpow (RtoC (rroot (Z.of_nat m) (1 - t * t))) (Z.to_nat j) * form_on_edge x a b Y (Z.to_nat j) i t)%C /\
      exists row, nth_error P ct = Some row /\ row_ok m j row (vget E ct).
Proof.
  intros Ha Hb Hab Hm Hn Hc Hd HL Hs. destruct (edge_sheet x m a b Ha Hb Hab Hm Hn Hc) as (e & f & He & Cf & Hf).
  destruct (diff_facts (Z.of_nat m) (Z.of_nat (length x)) d Hd ltac:(lia) ltac:(lia)) as (J1 & _ & _ & _ & TG & JP & _).
  pose proof (df_nonneg _ _ _ Hd ltac:(lia) ltac:(lia)) as Hdf.
  destruct (sheet_branch x a b m Ha Hb Hab Hm Hn Hc e f _ Cf Hf) as [B F0].
  assert (Hs' : forall q, q < length sch -> good_scheme N (xq sch q, wq sch q)).
  { intros q Hq. pose proof (scheme_at sch q Hq) as E. apply nth_error_In in E. exact (Hs _ E). }
  destruct (gj_integrals_ok (fun t => ac_mth_root t e (zetas m) m (length x - 2)) f m d sch N) as (v & Ev & Lv & Hv).
  { intros t Ht. split; [apply Hf; lra|apply F0, Ht]. } { lia. } { exact J1. } { exact Hdf. } { exact TG. }
  { intros q Hq. rewrite <- (Nat.add_0_r (offset _ q)). apply JP; [exact Hq|]. specialize (Hdf _ (nth_In _ 0%Z Hq)). lia. } { exact HL. } { exact Hs'. }
  set (S := fun q : nat => fun F => sym_rule N (xq sch q) (wq sch q) (fun t => cpow (RtoC (rroot (Z.of_nat m) (1 - t * t))) (Z.to_nat (md_jm d) + q) * F t)%C).
  destruct (assemble x a b m Ha Hb Hab Hm Hn d Hd e f S v He F0) as (P & E & EP & LP & LE & H).
  { intros q Hq. apply (rule_weight (sym_rule N (xq sch q) (wq sch q)) (fun t => cpow (RtoC (rroot (Z.of_nat m) (1 - t * t))) (Z.to_nat (md_jm d) + q))), sym_is_rule.
    apply (Hs' q). lia. } { exact Lv. } { exact Hv. }
  exists e, (ys m (edge_const (length x) m (vget (e_data e) (length x))) f), P, E. split; [exact He|]. split; [exact B|]. split.
  { unfold gj_integrals_edge. rewrite Ev. cbn [bind]. exact EP. }
  split; [exact LP|]. split; [exact LE|]. intros q i s Es Hi.
  assert (Hq : q < length sch) by (apply nth_error_Some; congruence). rewrite scheme_at in Es by exact Hq. injection Es as <-.
  destruct (H q i ltac:(lia) Hi) as [HE HR]. split; [|exact HR]. cbv zeta in HE |- *. rewrite HE. unfold S. cbn [fst snd].
  replace (Z.to_nat (md_jm d) + q) with (Z.to_nat (md_jm d + Z.of_nat q)) by lia. reflexivity.
Qed.

(** ** the last node *)
Definition x3 : list C := [RtoC (Ropp 1); RtoC 1; RtoC 5].
Lemma x3_clear : clear_edge x3 0 1.
Proof.
  intros k t Hk Ka Kb Ht. cbn in Hk. assert (k = 2) by lia. subst k. unfold vget, x3. cbn [nth]. intros E.
  assert (Q : edge_point (RtoC (Ropp 1)) (RtoC 1) (RtoC t) = RtoC t) by (unfold edge_point, Cdiv, Cminus, Cinv, Cmult, Cplus, Copp, RtoC; cbn [fst snd]; f_equal; field).
  rewrite Q in E. apply RtoC_inj in E. lra.
Qed.

Lemma last_node_missing h lam N : (0 < h)%R -> (0 < lam)%R -> 1 <= N ->
  exists e Y P E d, ma_differentials 2 3 = Done d /\ edge_data x3 (zetas 2) 2 3 0 1 = Done e /\ branch_over_edge x3 0 1 2 Y /\
    de_integrals_edge e 2 3 d (zetas 2) h lam N = Done (P, E) /\ length E = 1 /\
    vget E 0 = de_rule lam h (N - 1) (form_on_edge x3 0 1 Y 1 0) /\ vget E 0 <> de_rule lam h N (form_on_edge x3 0 1 Y 1 0).
Proof.
  intros Hh Hl HN. assert (Ed : exists d, ma_differentials 2 3 = Done d /\ md_df d = [1%Z] /\ md_jm d = 1%Z /\ md_g d = 1%Z) by (eexists; split; [vm_compute; reflexivity|]; repeat split).
  destruct Ed as (d & Hd & Edf & Ejm & Eg).
  assert (Hab : vget x3 0 <> vget x3 1) by (unfold vget, x3; cbn [nth]; intros E; apply RtoC_inj in E; lra).
  destruct (de_edge_ok x3 0 1 2 ltac:(cbn; lia) ltac:(cbn; lia) Hab ltac:(lia) ltac:(cbn; lia) x3_clear d Hd h lam N) as (e & Y & P & E & He & B & EP & LP & LE & H).
  exists e, Y, P, E, d. split; [exact Hd|]. split; [exact He|]. split; [exact B|]. split; [exact EP|]. split; [lia|].
  specialize (H 0 0). rewrite Edf in H. cbn [length nth offset] in H. destruct (H ltac:(lia) ltac:(lia)) as [HE _]. rewrite Ejm in HE.
  change (Z.to_nat (1 + Z.of_nat 0)) with 1 in HE. change (0 + 0) with 0 in HE. split; [exact HE|]. rewrite HE.
  set (F := form_on_edge x3 0 1 Y 1 0). intros Q. unfold de_rule in Q.
  assert (Hh0 : RtoC h <> RtoC 0) by (apply ProofTrap.RtoC_neq; lra).
  apply (f_equal (fun z => (/ RtoC h * z)%C)) in Q. rewrite !Cmult_assoc, !(Cinv_l (RtoC h)), !Cmult_1_l in Q by exact Hh0.
  rewrite (csum_ext (2 * (N - 1) + 1) _ (fun q0 => ProofTrap.rule_term lam h F (Z.of_nat q0 - Z.of_nat (N - 1))%Z)) in Q by reflexivity.
  rewrite (csum_ext (2 * N + 1) _ (fun q0 => ProofTrap.rule_term lam h F (Z.of_nat q0 - Z.of_nat N)%Z)) in Q by reflexivity.
  rewrite !(ProofTrap.rule_split _ (ProofTrap.rule_term lam h F)) in Q. replace (S (N - 1)) with N in Q by lia. cbn [csum] in Q.
  assert (T0 : (ProofTrap.rule_term lam h F (Z.of_nat N) + ProofTrap.rule_term lam h F (- Z.of_nat N))%C = RtoC 0).
  { destruct (Nat.eqb_spec N 0); [lia|]. match type of Q with ?A = (?A + ?B)%C => transitivity (A + B - A)%C; [ring|rewrite <- Q; ring] end. }
  clear Q. unfold ProofTrap.rule_term in T0. rewrite opp_IZR, <- INR_IZR_INZ in T0. set (u := (INR N * h)%R) in *.
  replace (- INR N * h)%R with (- u)%R in T0 by (unfold u; ring). rewrite ProofTrap.de_map_odd in T0.
  rewrite !(is_derive_unique _ _ _ (ProofTrap.de_map_deriv lam _)) in T0. rewrite ProofTrap.sinh_opp, Ropp_mult_distr_r_reverse, !ProofTrap.cosh_opp in T0.
  set (D := (lam * cosh u / (cosh (lam * sinh u) * cosh (lam * sinh u)))%R) in *.
  assert (HD : (0 < D)%R).
  { unfold D. pose proof (ProofTrap.cosh_pos u). pose proof (ProofTrap.cosh_pos (lam * sinh u)). apply Rdiv_lt_0_compat; nra. }
  pose proof (ProofTrap.de_map_range lam u) as Ht. set (t := de_map lam u) in *.
  assert (Hu : (0 < u)%R) by (unfold u; apply Rmult_lt_0_compat; [apply lt_0_INR; lia|exact Hh]).
  assert (Hs : forall z, (0 < z)%R -> (0 < sinh z)%R) by (intros z Hz; unfold sinh; pose proof (exp_increasing (- z) z ltac:(lra)); lra).
  assert (Ht0 : (0 < t)%R).
  { unfold t, de_map. apply Rdiv_lt_0_compat; [apply Hs, Rmult_lt_0_compat; [exact Hl|apply Hs, Hu]|apply ProofTrap.cosh_pos]. }
  assert (Sum : (F t + F (- t)%R)%C = RtoC 0).
  { assert (Dn : RtoC D <> RtoC 0) by (apply ProofTrap.RtoC_neq; lra). transitivity ((F t * RtoC D + F (- t)%R * RtoC D) / RtoC D)%C; [field; exact Dn|]. rewrite T0. field. exact Dn. }
  destruct B as [_ B]. pose proof (B t ltac:(lra)) as B1. pose proof (B (- t)%R ltac:(lra)) as B2.
  assert (Pv : forall s, poly_at x3 (edge_point (vget x3 0) (vget x3 1) (RtoC s)) = RtoC ((s * s - 1) * (s - 5))).
  { intros s. unfold poly_at, x3, vget. cbn [cprod nth]. unfold edge_point, Cdiv, Cminus, Cinv, Cmult, Cplus, Copp, RtoC. cbn [fst snd]. f_equal; field. }
  rewrite Pv in B1, B2. cbn [cpow] in B1, B2.
  assert (Q1 : (t * t < 1)%R) by nra. assert (Q2 : (0 < (1 - t * t) * (5 - t))%R) by (apply Rmult_lt_0_compat; lra). assert (Q3 : (0 < (1 - t * t) * (5 + t))%R) by (apply Rmult_lt_0_compat; lra).
  assert (N1 : Y t <> RtoC 0) by (intros Z; rewrite Z in B1; assert (W : RtoC 0 = RtoC ((t * t - 1) * (t - 5))) by (rewrite <- B1; ring); apply RtoC_inj in W; lra).
  assert (N2 : Y (- t)%R <> RtoC 0) by (intros Z; rewrite Z in B2; assert (W : RtoC 0 = RtoC ((- t * - t - 1) * (- t - 5))) by (rewrite <- B2; ring); apply RtoC_inj in W; lra).
  unfold F, form_on_edge in Sum. cbn [cpow] in Sum.
  set (K := ((vget x3 1 - vget x3 0) / RtoC 2)%C) in *.
  assert (K1 : K = RtoC 1) by (unfold K, x3, vget; cbn [nth]; unfold Cdiv, Cinv, Cmult, Cminus, Cplus, Copp, RtoC; cbn [fst snd]; f_equal; field).
  rewrite K1 in Sum.
  assert (YY : Y (- t)%R = (- Y t)%C).
  { assert (S1 : (RtoC 1 / Y t + RtoC 1 / Y (- t)%R)%C = RtoC 0) by (rewrite <- Sum; field; split; assumption).
    transitivity ((RtoC 1 / Y t + RtoC 1 / Y (- t)%R) * Y t * Y (- t)%R - Y t)%C; [field; split; assumption|rewrite S1; ring]. }
  rewrite YY in B2. assert (R : RtoC ((t * t - 1) * (t - 5)) = RtoC ((- t * - t - 1) * (- t - 5))) by (rewrite <- B1, <- B2; ring).
  apply RtoC_inj in R. assert (Q4 : (0 < (1 - t * t) * t)%R) by (apply Rmult_lt_0_compat; lra). lra.
Qed.
