(** Integrals to a point of the curve in the Magma package: final statements. *)
From Coq Require Import FunctionalExtensionality.
From Coquelicot Require Import Coquelicot.
From Verif Require Import CArg ModelTree ModelVec ModelPeriod ModelTurn ModelMaRoot ModelMaDiff ModelMaFactor ModelMaSum ModelMaInter ModelMaAjm SpecVec SpecPeriod SpecCurve SpecMaRoot SpecMaFactor SpecQuad SpecMaSum SpecMaAjm ProofEdge ProofVec ProofPeriod ProofQuad ProofErr3 ProofMaRoot ProofMaRoot3 ProofMaFactor ProofMaFactor2 ProofMaFactor3 ProofMaSum ProofMaSum2 ProofMaSum3 ProofMaAjm ProofMaAjm2 SpecEdge.
From Verif Require ModelQuad ProofTrap.
Local Open Scope nat_scope.

Lemma offset_find df : forall k, k < total df -> exists q i, q < length df /\ (Z.of_nat i < nth q df 0)%Z /\ k = offset df q + i.
Proof.
  induction df as [|c df IH]; intros k Hk; cbn [total] in Hk; [lia|]. destruct (Nat.lt_ge_cases k (Z.to_nat c)) as [L|L].
  - exists 0, k. cbn [length nth offset]. repeat split; lia.
  - destruct (IH (k - Z.to_nat c) ltac:(lia)) as (q & i & Hq & Hi & E). exists (S q), i. cbn [length nth offset]. split; [lia|]. split; [exact Hi|lia].
Qed.

Section Final.
Context (x : list C) (a m : nat) (p lc py py' : C) (r th : R) (d : ma_diff).
Notation n := (length x).
Hypothesis Ha : a < n.
Hypothesis Hap : vget x a <> p.
Hypothesis Hm : 2 <= m.
Hypothesis Hn : 3 <= n.
Hypothesis Hclear : clear_to x a p.
Hypothesis Hlc : lc <> RtoC 0.
Hypothesis Hpy : cpow py m = (lc * poly_at x p)%C.
Hypothesis Hpy' : py' = (py * (RtoC r * cis th))%C.
Hypothesis Hr : (0 < r)%R.
Hypothesis Hth : (Rabs th < PI / INR m)%R.
Hypothesis Hd : ma_differentials (Z.of_nat m) (Z.of_nat n) = Done d.
Let xa := vget x a.
Let h := ((p - xa) / RtoC 2)%C.

Lemma assemble_to e (f : R -> C) (S : nat -> (R -> C) -> C) v pv :
  length (e_data e) = n + 1 -> vget (e_data e) (n - 1) = h -> vget (e_data e) n = ((p + xa) / (p - xa))%C ->
  end_value e (zetas m) m n h lc = Done pv -> (forall t, (-1 < t < 1)%R -> f t <> RtoC 0) ->
  (forall q, q < length (md_df d) -> rule (S q)) -> length v = Z.to_nat (md_g d) ->
  (forall q i, q < length (md_df d) -> (Z.of_nat i < nth q (md_df d) 0)%Z ->
     vget v (offset (md_df d) q + i) = S q (integrand_to (Z.of_nat m) f (Z.to_nat (md_jm d) + q) i)) ->
  exists v' E, factor_ajm v e m n d (zetas m) lc py' = Done v' /\ change_differentials m lc (md_jpows d) v' = Done E /\
    Z.of_nat (length E) = md_g d /\
    forall q i, q < length (md_df d) -> (Z.of_nat i < nth q (md_df d) 0)%Z ->
      vget E (offset (md_df d) q + i) =
      S q (form_along xa p (ysheet x a m p lc (e_up e) (end_shift m py' pv) f) (Z.to_nat (md_jm d + Z.of_nat q)) i).
Proof using Ha Hap Hm Hn Hlc Hd th.
  intros EL Eh Es Epv Hf HS Lv HV.
  destruct (diff_facts (Z.of_nat m) (Z.of_nat n) d Hd ltac:(lia) ltac:(lia)) as (J1 & N1 & N2 & JN & TG & JP & last & EN & Hl1 & Hlast).
  set (S' := fun q => if q <? length (md_df d) then S q else gc_rule 0).
  assert (HS' : forall q, rule (S' q)) by (intros q; unfold S'; destruct (Nat.ltb_spec q (length (md_df d))); [apply HS; assumption|apply gc_is_rule]).
  set (g := fun q t => (/ cpow (RtoC (rroot (Z.of_nat m) (1 + t)) * f t) (Z.to_nat (md_jm d) + q))%C).
  set (L := fun q p => S' q (fun t => p (RtoC t) * g q t)%C).
  assert (HL : forall q, linear_functional (L q)) by (intros q; apply rule_linear, HS').
  destruct (shift_blocks_ok ((p + xa) / (p - xa))%C (md_df d) L 0 v HL ltac:(lia)) as (v1 & ES & Lv1 & _ & Hsh).
  { intros q Hq l Hl. rewrite Nat.add_0_l. rewrite HV by lia. unfold L, S'. destruct (Nat.ltb_spec q (length (md_df d))); [reflexivity|lia]. }
  set (z := cexp (RtoC (INR n / INR m) * - clog h)%C). set (sh := end_shift m py' pv).
  destruct (ajm_blocks_ok (e_up e) m sh (md_jpows d) h z (Z.to_nat last) (Z.to_nat (md_num d + md_jm d - 2)) Hm (md_df d) (md_jm d) 0 v1) as (v2 & E2 & L2 & _ & I2).
  { exact J1. } { lia. } { intros q l Hq Hl. rewrite Nat.add_0_l. apply JP; assumption. }
  { intros k Hk. specialize (Hlast k Hk). lia. } { lia. }
  assert (Hall : forall k, k < length v2 -> exists j, nth_error (md_jpows d) k = Some j).
  { intros k Hk. assert (Hk' : k < total (md_df d)) by lia. destruct (offset_find (md_df d) k Hk') as (q & i & Hq & Hi & ->). eexists. apply JP; eassumption. }
  destruct (change_ok m lc v2 (md_jpows d) Hall) as (E & EE & LE & IE).
  exists v2, E. split.
  { unfold factor_ajm. rewrite !vread_ok by lia. rewrite Eh, Es. cbn [bind]. unfold sread at 1. rewrite EN. cbn [bind].
    unfold vec in *. rewrite ES. cbn [bind]. rewrite Epv. cbn [bind]. exact E2. }
  split; [exact EE|]. split; [lia|]. intros q i Hq Hi. pose proof (offset_total _ q i Hq Hi) as Hlt.
  assert (Hct : offset (md_df d) q + i < length v2) by lia. rewrite (IE _ _ Hct (JP q i Hq Hi)). specialize (I2 q i Hq Hi). cbn [Nat.add] in I2. rewrite I2.
  specialize (Hsh q i Hq Hi). cbn [Nat.add] in Hsh. rewrite Hsh. set (j := (md_jm d + Z.of_nat q)%Z). unfold coef.
  destruct (HS q Hq) as (Hext & _ & Hsc).
  set (u := ((p + xa) / (p - xa))%C). set (K := base_const x a m p lc (e_up e)). assert (HK : K <> RtoC 0) by apply base_neq.
  set (c := (K * root (Z.of_nat m) sh)%C). assert (Hj : (1 <= j)%Z) by (unfold j; lia). assert (Hm0 : INR m <> 0%R) by (apply not_0_INR; lia).
  assert (Hroot : root (Z.of_nat m) sh <> RtoC 0) by apply cis_neq.
  assert (Hc : cpow c (Z.to_nat j) <> RtoC 0) by (apply cpow_neq_0, Cmult_neq_0'; assumption).
  assert (Ec : (cexp (RtoC (IZR j) * (- RtoC (1 / INR m) * clog lc)) * (cis (PI * IZR (- (Z.of_nat (e_up e) + 2 * sh) * j) / INR m) * cpow z (Z.to_nat j)) * cpow c (Z.to_nat j))%C = RtoC 1).
  { unfold c, K, base_const, z. fold xa h. rewrite !cpow_mul, !cexp_cpow. unfold root. rewrite !cis_cpow, <- INR_IZR_INZ.
    rewrite (INR_IZR_INZ (Z.to_nat j)), Z2Nat.id by lia.
    match goal with |- (cexp ?A * (cis ?B * cexp ?D) * (cexp ?F * cis ?G * cis ?H))%C = _ =>
      transitivity (cexp (A + D + F) * cis (B + G + H))%C; [rewrite !cexp_plus, !CBase.cis_add; ring|] end.
    match goal with |- (cexp ?A * cis ?B)%C = _ => replace A with (RtoC 0) by ring; replace B with 0%R end.
    - rewrite cexp_zero, cis_0. ring.
    - rewrite !INR_IZR_INZ, mult_IZR, opp_IZR, plus_IZR, mult_IZR. field. rewrite <- INR_IZR_INZ. exact Hm0. }
  transitivity (L q (fun t => cpow (t + u) i)%C * (cpow h (i + 1) / cpow c (Z.to_nat j)))%C.
  { match type of Ec with (?A * (?B * ?D) * ?F)%C = _ => transitivity (L q (fun t => cpow (t + u) i)%C * cpow h (i + 1) * (A * (B * D) * F / F))%C end.
    - replace (i + 1) with (Datatypes.S i) by lia. field. exact Hc.
    - rewrite Ec. field. exact Hc. }
  unfold L, S'. destruct (Nat.ltb_spec q (length (md_df d))) as [_|]; [|lia]. rewrite Cmult_comm, <- Hsc. apply Hext. intros t Ht.
  unfold form_along, ysheet, g. fold xa K. replace (Z.to_nat (md_jm d) + q) with (Z.to_nat j) by lia.
  assert (Rt : RtoC (rroot (Z.of_nat m) (1 + t)) <> RtoC 0) by (apply ProofTrap.RtoC_neq, Rgt_not_eq, ProofTrap.rroot_gt; lra).
  assert (Ep : edge_point xa p (RtoC t) = (h * (RtoC t + u))%C) by (rewrite <- (edge_point_scaled xa p (RtoC t) Hap); unfold u, h; rewrite (Cplus_comm xa p); reflexivity).
  rewrite Ep. fold c. fold h. rewrite !cpow_mul. rewrite cpow_add, cpow_1.
  assert (Fn := cpow_neq_0 _ (Z.to_nat j) (Hf t Ht)). assert (Rn := cpow_neq_0 _ (Z.to_nat j) Rt). field. repeat split; assumption.
Qed.

Lemma de_to_point_ok hh lam N : exists Y E, path_to x m lc xa p py Y /\ de_to_point x m lc d a p py' hh lam N = Done E /\ Z.of_nat (length E) = md_g d /\
  forall q i, q < length (md_df d) -> (Z.of_nat i < nth q (md_df d) 0)%Z ->
    vget E (offset (md_df d) q + i) = de_rule lam hh (N - 1) (form_along xa p Y (Z.to_nat (md_jm d + Z.of_nat q)) i).
Proof using All.
  destruct (data_to x a m p Ha Hap Hm Hn Hclear) as (e & f & He & EL & Eh & Es & Cf & Hf).
  destruct (diff_facts (Z.of_nat m) (Z.of_nat n) d Hd ltac:(lia) ltac:(lia)) as (J1 & _ & _ & _ & TG & _).
  destruct (sheet_to x a m p Ha Hap Hm Hn Hclear lc Hlc e f py py' r th Cf Hf Hpy Hpy' Hr Hth) as (pv & Epv & HY).
  destruct (de_to_ok (fun t => ac_mth_root t e (zetas m) m (n - 1)) f d hh lam m N ltac:(lia)) as (v & Ev & Lv & Hv).
  { intros t Ht. destruct (Hf t ltac:(lra)) as (A & B & _). split; assumption. } { apply (df_nonneg _ _ _ Hd); lia. } { exact TG. }
  destruct (assemble_to e f (fun _ => de_rule lam hh (N - 1)) v pv EL Eh Es Epv) as (v' & E & E1 & E2 & LE & H).
  { intros t Ht. apply Hf. lra. } { intros q _. apply de_is_rule. } { exact Lv. } { exact Hv. }
  eexists _, E. split; [exact HY|]. split.
  { unfold de_to_point. rewrite He. cbn [bind]. cbv zeta in Ev |- *. rewrite Ev. cbn [bind]. rewrite E1. cbn [bind]. exact E2. }
  split; [exact LE|]. exact H.
Qed.

Lemma gj_to_point_ok sch N : length sch = length (md_df d) ->
  (forall s, In s sch -> N <= length (fst s) /\ N <= length (snd s) /\ forall t, t < N -> (-1 < nth t (fst s) 0 < 1)%R) ->
  exists Y E, path_to x m lc xa p py Y /\ gj_to_point x m lc d a p py' sch N = Done E /\ Z.of_nat (length E) = md_g d /\
  forall q i s, nth_error sch q = Some s -> (Z.of_nat i < nth q (md_df d) 0)%Z ->
    let j := Z.to_nat (md_jm d + Z.of_nat q) in
    vget E (offset (md_df d) q + i) = node_rule N (fst s) (snd s) (fun t => cpow (RtoC (rroot (Z.of_nat m) (1 + t))) j * form_along xa p Y j i t)%C.
Proof using All.
  intros HL Hs. destruct (data_to x a m p Ha Hap Hm Hn Hclear) as (e & f & He & EL & Eh & Es & Cf & Hf).
  destruct (diff_facts (Z.of_nat m) (Z.of_nat n) d Hd ltac:(lia) ltac:(lia)) as (J1 & _ & _ & _ & TG & JP & _).
  pose proof (df_nonneg _ _ _ Hd ltac:(lia) ltac:(lia)) as Hdf.
  destruct (sheet_to x a m p Ha Hap Hm Hn Hclear lc Hlc e f py py' r th Cf Hf Hpy Hpy' Hr Hth) as (pv & Epv & HY).
  assert (Hs' : forall q, q < length sch -> good_to N (xq sch q, wq sch q)).
  { intros q Hq. pose proof (scheme_at sch q Hq) as E. apply nth_error_In in E. exact (Hs _ E). }
  destruct (gj_to_ok (fun t => ac_mth_root t e (zetas m) m (n - 1)) f m d sch N) as (v & Ev & Lv & Hv).
  { intros t Ht. destruct (Hf t ltac:(lra)) as (A & B & _). split; assumption. } { lia. } { exact J1. } { exact Hdf. } { exact TG. }
  { intros q Hq. rewrite <- (Nat.add_0_r (offset _ q)). apply JP; [exact Hq|]. specialize (Hdf _ (nth_In _ 0%Z Hq)). lia. } { exact HL. } { exact Hs'. }
  destruct (assemble_to e f (fun q F => node_rule N (xq sch q) (wq sch q) (fun t => cpow (RtoC (rroot (Z.of_nat m) (1 + t))) (Z.to_nat (md_jm d) + q) * F t)%C) v pv EL Eh Es Epv) as (v' & E & E1 & E2 & LE & H).
  { intros t Ht. apply Hf. lra. }
  { intros q Hq. apply (rule_weight (node_rule N (xq sch q) (wq sch q)) (fun t => cpow (RtoC (rroot (Z.of_nat m) (1 + t))) (Z.to_nat (md_jm d) + q))), node_is_rule. apply (Hs' q). lia. }
  { exact Lv. } { exact Hv. }
  eexists _, E. split; [exact HY|]. split.
  { unfold gj_to_point. rewrite He. cbn [bind]. rewrite Ev. cbn [bind]. rewrite E1. cbn [bind]. exact E2. }
  split; [exact LE|]. intros q i s Esq Hi.
  assert (Hq : q < length sch) by (apply nth_error_Some; congruence). rewrite scheme_at in Esq by exact Hq. injection Esq as <-.
  cbv zeta. rewrite (H q i ltac:(lia) Hi). cbn [fst snd]. replace (Z.to_nat (md_jm d) + q) with (Z.to_nat (md_jm d + Z.of_nat q)) by lia. reflexivity.
Qed.
End Final.
