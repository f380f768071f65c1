(** Gauss-Chebyshev constants of the Magma package: same results as the general ones. *)
From Coquelicot Require Import Coquelicot.
From Verif Require Import CArg ModelTree ModelVec ModelPeriod ModelTurn ModelMaRoot ModelMaDiff ModelMaFactor SpecVec SpecPeriod SpecCurve SpecMaRoot SpecMaFactor ProofCurve ProofEdge ProofVec ProofPeriod ProofErr5 ProofMaRoot ProofMaRoot2 ProofMaRoot3 ProofMaDiff ProofMaFactor ProofMaFactor2 SpecEdge.
Local Open Scope R_scope.

Lemma gc_powers_ok h : forall todo k c2 v, (k + todo <= length v)%nat ->
  exists v', gc_powers v h c2 todo k = Done v' /\ length v' = length v /\
    forall i, vget v' i = if (k <=? i)%nat && (i <? k + todo)%nat then (vget v i * (c2 * cpow h (S (i - k))))%C else vget v i.
Proof.
  induction todo as [|todo IH]; intros k c2 v Hk; cbn [gc_powers].
  - exists v. split; [reflexivity|]. split; [reflexivity|]. intros i. destruct (Nat.leb_spec k i), (Nat.ltb_spec i (k + 0)); cbn; reflexivity || lia.
  - rewrite vread_ok by lia. cbn [bind]. unfold vwrite. destruct (Nat.ltb_spec k (length v)); [|lia]. cbn [bind].
    destruct (IH (S k) (c2 * h)%C (upd v k (vget v k * (c2 * h))%C)) as (v' & E & HL & Hg).
    { rewrite upd_length. lia. }
    exists v'. split; [exact E|]. split; [rewrite HL, upd_length; reflexivity|]. intros i. rewrite Hg, vget_upd by lia.
    destruct (Nat.leb_spec k i), (Nat.leb_spec (S k) i), (Nat.ltb_spec i (k + S todo)), (Nat.ltb_spec i (S k + todo)), (Nat.eqb_spec i k); cbn [andb]; try lia; try reflexivity.
    + replace (i - k)%nat with (S (i - S k)) by lia. rewrite !cpow_S. ring.
    + subst i. rewrite Nat.sub_diag. cbn [cpow]. rewrite cpow_1 || idtac. ring.
Qed.

Lemma half_power h n : h <> RtoC 0 ->
  (if (n mod 2 =? 1)%nat then cpow h (n / 2) * croot 2 h else cpow h (n / 2))%C = cexp (RtoC (INR n / INR 2) * clog h)%C.
Proof.
  intros Hh. assert (E : cexp (RtoC (INR n / INR 2) * clog h)%C = cpow (croot 2 h) n).
  { change 2%Z with (Z.of_nat 2). rewrite <- cexp_clog by (lia || assumption). rewrite cexp_cpow. f_equal. rewrite RtoC_div by (cbn; lra). field. cbn. intros H. apply RtoC_inj in H. lra. }
  rewrite E. pose proof (Nat.div_mod n 2 ltac:(lia)) as D. pose proof (Nat.mod_upper_bound n 2 ltac:(lia)) as B.
  assert (Q : forall k, cpow (croot 2 h) (2 * k) = cpow h k).
  { induction k as [|k IH]; [reflexivity|]. replace (2 * S k)%nat with (S (S (2 * k))) by lia. rewrite !cpow_S, IH. rewrite Cmult_assoc, croot_sqr. reflexivity. }
  destruct (Nat.eqb_spec (n mod 2) 1) as [H|H].
  - rewrite D at 2. rewrite H, cpow_add, Q, cpow_1. reflexivity.
  - rewrite D at 2. replace (n mod 2)%nat with 0%nat by lia. rewrite Nat.add_0_r, Q. reflexivity.
Qed.

Lemma cis_half_neg : cis (PI * IZR (- (1) * 1) / INR 2) = (- Ci)%C.
Proof.
  replace (PI * IZR (- (1) * 1) / INR 2) with (- (PI / 2)) by (cbn; field). unfold cis, Ci, Copp. cbn [fst snd].
  rewrite cos_neg, sin_neg, cos_PI2, sin_PI2. f_equal. ring.
Qed.

Lemma gc_same x a b d v : (a < length x)%nat -> (b < length x)%nat -> vget x a <> vget x b -> (3 <= length x)%nat ->
  ma_differentials 2 (Z.of_nat (length x)) = Done d -> Z.of_nat (length v) = md_g d ->
  exists e V E, edge_data x (zetas 2) 2 (length x) a b = Done e /\
    gc_integrals_factor v e (length x) (Z.to_nat (md_g d)) = Done (V, E) /\
    de_integrals_factor v e 2 (length x) d (zetas 2) = Done (gc_rows V, E).
Proof.
  intros Ha Hb Hab Hn Hd Hv. set (n := length x) in *.
  destruct (edge_data_ok x a b 2 Ha Hb Hab ltac:(lia) Hn) as (e & u & up & c & E & HE). fold n in E.
  destruct (const_value x a b 2 Ha Hb Hab ltac:(lia) Hn e E) as (EL & E2 & E1 & _). fold n in EL, E2, E1.
  pose proof (h_neq x a b Hab) as Hh.
  set (h := ((vget x b - vget x a) / RtoC 2)%C) in *. set (s := ((vget x b + vget x a) / (vget x b - vget x a))%C) in *.
  destruct (diff_facts 2 (Z.of_nat n) d Hd ltac:(lia) ltac:(lia)) as (J1 & N1 & N2 & JN & TG & JP & last & EN & Hl1 & Hlast).
  assert (Jm : md_jm d = 1%Z) by lia. assert (Nm : md_num d = 1%Z) by lia.
  destruct (md_df d) as [|k [|k' df]] eqn:Edf; cbn [length] in N1; try lia.
  cbn [total] in TG. assert (Ek : (md_g d = k)%Z) by (rewrite Nm in EN; cbn in EN; injection EN as ->; lia).
  assert (Elast : last = k) by (rewrite Nm in EN; cbn in EN; congruence). subst last.
  destruct (shift_spec v 0 (Z.to_nat k) s ltac:(lia)) as (v1 & ES & (Lv1 & _)).
  set (z := cexp (RtoC (INR n / INR 2) * - clog h)%C).
  destruct (blocks_ok v1 (e_up e) 2 (md_jpows d) h z (Z.to_nat k) (Z.to_nat (md_num d + md_jm d - 2)) ltac:(lia) [k] (md_jm d) 0) as (P & EE & EB & LP & LE & HB).
  { exact J1. } { cbn [length]. lia. } { intros q l Hq Hl. rewrite Nat.add_0_l. apply JP; assumption. }
  { intros k' Hk. specialize (Hlast k' Hk). lia. } { cbn [total]. lia. }
  cbn [total] in LP, LE.
  set (c1 := cexp (RtoC (INR n / INR 2) * clog h)%C).
  assert (Ezc : (z * c1)%C = RtoC 1).
  { unfold z, c1. replace (RtoC (INR n / INR 2) * - clog h)%C with (- (RtoC (INR n / INR 2) * clog h))%C by ring. apply cexp_inv. }
  assert (Hc1 : c1 <> RtoC 0) by (intros H0; rewrite H0, Cmult_0_r in Ezc; apply RtoC_inj in Ezc; lra).
  set (cc := if (e_up e mod 2 =? 0)%nat then (RtoC 2 / c1 * - Ci)%C else (RtoC 2 / c1)%C).
  destruct (gc_powers_ok h (Z.to_nat k) 0 (RtoC 1) (map (fun x => cc * x)%C v1)) as (V & EV & LV & HV).
  { rewrite map_length. lia. }
  rewrite map_length in LV.
  assert (Ecc : cc = (RtoC 2 * (cis (PI * IZR (- Z.of_nat ((e_up e + 1) mod 2) * 1) / INR 2) * z))%C).
  { assert (Ez : z = (/ c1)%C) by (rewrite <- (Cmult_1_l (/ c1)%C), <- Ezc; field; exact Hc1).
    unfold cc. pose proof (Nat.mod_upper_bound (e_up e) 2 ltac:(lia)) as B. rewrite <- (Nat.add_mod_idemp_l (e_up e) 1 2) by lia.
    destruct (e_up e mod 2)%nat as [|[|?]]; [| |lia]; cbn [Nat.eqb].
    - change ((0 + 1) mod 2)%nat with 1%nat. change (Z.of_nat 1) with 1%Z. rewrite cis_half_neg, Ez. field. exact Hc1.
    - change ((1 + 1) mod 2)%nat with 0%nat. change (- Z.of_nat 0 * 1)%Z with 0%Z. replace (PI * 0 / INR 2) with 0 by (cbn; field). rewrite cis_0, Ez. field. exact Hc1. }
  assert (R0 : root 2 0 = RtoC 1) by (rewrite <- (Z.mul_0_r 2); apply root_mult; lia).
  assert (R1 : root 2 (-1) = RtoC (Ropp 1)).
  { unfold root. replace (2 * PI * -1 / 2) with (- PI) by field. unfold cis. rewrite cos_neg, sin_neg, cos_PI, sin_PI. unfold RtoC. f_equal. ring. }
  assert (GV : forall i, (i < Z.to_nat k)%nat -> vget V i = (RtoC 2 * vget EE i)%C /\ nth_error P i = Some [vget V i]).
  { intros i Hi. destruct (HB 0%nat i ltac:(cbn; lia) ltac:(cbn [nth]; lia)) as (G1 & row & G2 & G3 & G4). cbn [offset] in *. rewrite Nat.add_0_l in G1, G2, G4.
    rewrite Jm in *. change (1 + Z.of_nat 0)%Z with 1%Z in *.
    assert (EVi : vget V i = (RtoC 2 * vget EE i)%C).
    { rewrite HV, G1. destruct (Nat.leb_spec 0 i); [|lia]. destruct (Nat.ltb_spec i (0 + Z.to_nat k)); [|lia]. cbn [andb].
      unfold vget at 1. rewrite (nth_indep _ (RtoC 0) (cc * RtoC 0)%C) by (rewrite map_length; lia). rewrite (map_nth (fun x => cc * x)%C). fold (vget v1 i).
      unfold entry. rewrite Nat.sub_0_r, Ecc. change (Z.to_nat 1) with 1%nat. rewrite cpow_1, Nat.add_0_l. ring. }
    split; [exact EVi|]. rewrite G2. f_equal. cbn in G3. destruct row as [|y [|? ?]]; cbn in G3; try lia. f_equal.
    specialize (G4 0%nat ltac:(lia)). change (vget [y] 0) with y in G4. rewrite G4, EVi.
    change (Z.of_nat 2) with 2%Z. change (- (Z.of_nat 0 * 1))%Z with 0%Z. change (- ((Z.of_nat 0 + 1) * 1))%Z with (-1)%Z. rewrite R0, R1.
    unfold RtoC. unfold Cmult, Cminus, Cplus, Copp. cbn [fst snd]. f_equal; ring. }
  assert (LVk : length V = Z.to_nat k) by lia.
  assert (EP : P = gc_rows V).
  { apply (nth_ext _ _ [] []).
    - unfold gc_rows. rewrite map_length. lia.
    - intros i Hi. rewrite LP in Hi. destruct (GV i ltac:(lia)) as [_ G]. rewrite (nth_error_nth _ _ _ G). unfold gc_rows.
      rewrite (nth_indep _ [] [RtoC 0]) by (rewrite map_length; lia). rewrite (map_nth (fun x => [x])). reflexivity. }
  assert (EEE : map (fun x => RtoC 1 / RtoC 2 * x)%C V = EE).
  { apply (nth_ext _ _ (RtoC 1 / RtoC 2 * RtoC 0)%C (RtoC 0)); [rewrite map_length; lia|].
    intros i Hi. rewrite map_length in Hi. rewrite (map_nth (fun x => RtoC 1 / RtoC 2 * x)%C). fold (vget V i). fold (vget EE i).
    destruct (GV i ltac:(lia)) as [-> _]. field. apply two_neq. }
  exists e, V, EE. split; [exact E|]. split.
  - unfold gc_integrals_factor. rewrite !vread_ok by lia. rewrite E1. cbn [bind]. rewrite Ek. unfold vec in *. rewrite ES. cbn [bind]. rewrite E2.
    rewrite half_power by exact Hh. fold c1. destruct (Req_EM_T (Cmod c1) 0) as [H0|_]; [apply Cmod_eq_0 in H0; contradiction|].
    fold cc. rewrite EV. cbn [bind]. rewrite EEE. reflexivity.
  - unfold de_integrals_factor. rewrite !vread_ok by lia. rewrite E2, E1. cbn [bind]. rewrite Edf. unfold sread at 1. rewrite EN. cbn [bind].
    cbn [shift_blocks]. unfold vec in *. rewrite ES. cbn [bind]. fold z. rewrite EB, EP. reflexivity.
Qed.
