(** Period matrices of the Magma package: integrals over all loops. *)
From Coquelicot Require Import Coquelicot.
From Verif Require Import CArg ModelTree ModelVec ModelPeriod ModelTurn ModelSymp SpecSymp SpecInter ModelMaRoot ModelMaDiff ModelMaFactor ModelMaSum ModelMaTree ModelMaInter ModelMaSymp ModelMaAjm ModelMaPeriod SpecVec SpecPeriod SpecCurve SpecMaRoot SpecMaFactor SpecQuad SpecMaSum SpecMaInter SpecMaSymp SpecMaPeriod ProofEdge ProofVec ProofTree ProofPeriod ProofQuad ProofErr3 ProofMaRoot3 ProofMaFactor ProofMaFactor2 ProofMaFactor3 ProofMaSum ProofMaSum2 ProofMaSum3 ProofMaInter ProofMaInter2 ProofMaInter3 ProofMaAjm ProofMaAjm2 SpecEdge.
From Verif Require ModelQuad ProofTrap.
Local Open Scope nat_scope.

Lemma scheme_is_rule m d s q j : scheme_ok m d s -> q < length (md_df d) -> rule (scheme_rule m s q j).
Proof.
  unfold scheme_rule. destruct s as [h lam N|l N]; cbn [scheme_ok]; intros H Hq; [apply (de_is_rule lam h (N - 1))|].
  destruct (m =? 2).
  - apply (rule_weight (gc_rule N) (fun t => RtoC (sqrt (1 - t * t)))), gc_is_rule.
  - destruct H as [L H]. cbv zeta.
    apply (rule_weight (sym_rule N (fst (nth q l ([], []))) (snd (nth q l ([], [])))) (fun t => cpow (RtoC (rroot (Z.of_nat m) (1 - t * t))) j)), sym_is_rule.
    apply (H (nth q l ([], []))). apply nth_In. lia.
Qed.

(** one edge *)
Lemma edge_any x a b m d s e f : a < length x -> b < length x -> vget x a <> vget x b -> 2 <= m -> 3 <= length x -> clear_edge x a b ->
  ma_differentials (Z.of_nat m) (Z.of_nat (length x)) = Done d -> scheme_ok m d s ->
  edge_data x (zetas m) m (length x) a b = Done e ->
  let c := edge_const (length x) m (vget (e_data e) (length x)) in
  (forall t, continuous (fun t => fst (f t)) t /\ continuous (fun t => snd (f t)) t) ->
  (forall t, (-1 <= t <= 1)%R -> ac_mth_root t e (zetas m) m (length x - 2) = Done (f t) /\
      poly_at x (edge_point (vget x a) (vget x b) (RtoC t)) = ((RtoC 1 - RtoC t * RtoC t) * cpow (c * f t)%C m)%C) ->
  exists P E, edge_periods e m (length x) d (zetas m) s = Done (P, E) /\
    Z.of_nat (length P) = md_g d /\ Z.of_nat (length E) = md_g d /\
    forall q i, q < length (md_df d) -> (Z.of_nat i < nth q (md_df d) 0)%Z ->
      let j := (md_jm d + Z.of_nat q)%Z in let ct := offset (md_df d) q + i in
      vget E ct = scheme_rule m s q (Z.to_nat j) (form_on_edge x a b (ys m c f) (Z.to_nat j) i) /\
      exists row, nth_error P ct = Some row /\ row_ok m j row (vget E ct).
Proof.
  intros Ha Hb Hab Hm Hn Hc Hd Hs He c Cf Hf.
  destruct (diff_facts (Z.of_nat m) (Z.of_nat (length x)) d Hd ltac:(lia) ltac:(lia)) as (J1 & N1 & N2 & JN & TG & JP & last & EN & Hl1 & Hlast).
  pose proof (df_nonneg _ _ _ Hd ltac:(lia) ltac:(lia)) as Hdf.
  destruct (sheet_branch x a b m Ha Hb Hab Hm Hn Hc e f _ Cf Hf) as [B F0].
  destruct s as [h lam N|sch N]; cbn [edge_periods scheme_rule scheme_ok] in *.
  - destruct (de_integrals_ok (fun t => ac_mth_root t e (zetas m) m (length x - 2)) f d h lam m N ltac:(lia)) as (v & Ev & Lv & Hv).
    { intros t Ht. split; [apply Hf; lra|apply F0, Ht]. } { exact Hdf. } { exact TG. }
    destruct (assemble x a b m Ha Hb Hab Hm Hn d Hd e f (fun _ => de_rule lam h (N - 1)) v He F0) as (P & E & EP & LP & LE & H).
    { intros q _. apply de_is_rule. } { lia. } { exact Hv. }
    exists P, E. split; [unfold de_integrals_edge; rewrite Ev; exact EP|]. split; [exact LP|]. split; [exact LE|]. exact H.
  - destruct (Nat.eqb_spec m 2) as [->|Nm].
    + assert (Jm : md_jm d = 1%Z) by lia. assert (Nd : md_num d = 1%Z) by lia.
      assert (Hdf' : md_df d = [md_g d]).
      { destruct (md_df d) as [|k [|k' df]] eqn:Edf; cbn [length] in N1; try lia. cbn [total] in TG. rewrite Nd in EN. cbn in EN. injection EN as ->. f_equal. lia. }
      destruct (gc_integrals_ok (fun t => ac_mth_root t e (zetas 2) 2 (length x - 2)) f (Z.to_nat (md_g d)) N) as (v & Ev & Lv & Hv).
      { intros t Ht. split; [apply Hf; lra|apply F0, Ht]. } { assert (1 <= md_g d)%Z by (apply Hdf; rewrite Hdf'; left; reflexivity). lia. } { exact Hs. }
      set (S := fun _ : nat => fun F => gc_rule N (fun t => RtoC (rroot 2 (1 - t * t)) * F t)%C).
      destruct (assemble x a b 2 Ha Hb Hab ltac:(lia) Hn d Hd e f S v He F0) as (P & E & EP & LP & LE & H).
      { intros q _. apply (rule_weight (gc_rule N) (fun t => RtoC (rroot 2 (1 - t * t)))), gc_is_rule. } { lia. }
      { intros q i Hq Hi. rewrite Hdf' in Hq, Hi. cbn [length] in Hq. assert (q = 0) by lia. subst q. cbn [nth] in Hi. rewrite Hdf'. cbn [offset]. rewrite Nat.add_0_l.
        rewrite Hv by lia. rewrite Jm. change (Z.to_nat 1) with 1. rewrite Nat.add_0_r. reflexivity. }
      destruct (gc_same x a b d v Ha Hb Hab Hn Hd ltac:(lia)) as (e' & V & E' & Ee & EV & EP'). rewrite He in Ee. injection Ee as <-.
      rewrite EP in EP'. injection EP' as -> <-.
      exists (gc_rows V), E. split.
      { unfold gc_integrals_edge. destruct (Nat.eqb_spec N 0); [lia|]. rewrite Ev. cbn [bind]. rewrite EV. reflexivity. }
      split; [exact LP|]. split; [exact LE|]. intros q i Hq Hi. destruct (H q i Hq Hi) as [HE HR]. split; [|exact HR]. cbv zeta in HE |- *. rewrite HE. fold c.
      unfold S, gc_rule. f_equal. apply csum_ext. intros k Hk. f_equal. f_equal.
      pose proof (gc_node_in N k Hk) as Hin. assert (Hp : (0 < 1 - gc_node N k * gc_node N k)%R) by nra.
      unfold rroot. destruct (Rlt_dec 0 (1 - gc_node N k * gc_node N k)); [|contradiction].
      rewrite <- Rpower_sqrt by exact Hp. reflexivity.
    + destruct Hs as [HL Hs].
      assert (Hs' : forall q, q < length sch -> good_scheme N (xq sch q, wq sch q)).
      { intros q Hq. exact (Hs _ (nth_In sch ([], []) Hq)). }
      destruct (gj_integrals_ok (fun t => ac_mth_root t e (zetas m) m (length x - 2)) f m d sch N) as (v & Ev & Lv & Hv).
      { intros t Ht. split; [apply Hf; lra|apply F0, Ht]. } { lia. } { exact J1. } { exact Hdf. } { exact TG. }
      { intros q Hq. rewrite <- (Nat.add_0_r (offset _ q)). apply JP; [exact Hq|]. specialize (Hdf _ (nth_In _ 0%Z Hq)). lia. } { exact HL. } { exact Hs'. }
      set (S := fun q : nat => fun F => sym_rule N (xq sch q) (wq sch q) (fun t => cpow (RtoC (rroot (Z.of_nat m) (1 - t * t))) (Z.to_nat (md_jm d) + q) * F t)%C).
      destruct (assemble x a b m Ha Hb Hab Hm Hn d Hd e f S v He F0) as (P & E & EP & LP & LE & H).
      { intros q Hq. apply (rule_weight (sym_rule N (xq sch q) (wq sch q)) (fun t => cpow (RtoC (rroot (Z.of_nat m) (1 - t * t))) (Z.to_nat (md_jm d) + q))), sym_is_rule.
        apply (Hs' q). lia. } { exact Lv. } { exact Hv. }
      exists P, E. split; [unfold gj_integrals_edge; rewrite Ev; cbn [bind]; exact EP|].
      split; [exact LP|]. split; [exact LE|]. intros q i Hq Hi.
      destruct (H q i Hq Hi) as [HE HR]. split; [|exact HR]. cbv zeta in HE |- *. rewrite HE. unfold S, xq, wq.
      replace (Z.to_nat (md_jm d) + q) with (Z.to_nat (md_jm d + Z.of_nat q)) by lia. reflexivity.
Qed.

(** the sheet of the intersection numbers is that of the integrals *)
Lemma same_sheet n m (c : C) : 2 <= m -> edge_const n m c = (RtoC (rroot (Z.of_nat m) (/ 2 ^ n)) * c)%C.
Proof.
  intros Hm. unfold edge_const. unfold rroot. assert (P : (0 < / 2 ^ n)%R) by (apply Rinv_0_lt_compat, pow_lt; lra).
  destruct (Rlt_dec 0 (/ 2 ^ n)); [|contradiction]. unfold Cdiv. rewrite Cmult_comm. f_equal.
  rewrite <- RtoC_inv by (apply Rgt_not_eq, exp_pos). f_equal.
  rewrite <- INR_IZR_INZ. unfold Rpower. rewrite <- exp_Ropp. f_equal. rewrite ln_Rinv by (apply pow_lt; lra). rewrite ln_pow by lra.
  field. apply not_0_INR. lia.
Qed.
Lemma form_ext x a b (Y Z : R -> C) j i t : Y t = Z t -> form_on_edge x a b Y j i t = form_on_edge x a b Z j i t.
Proof. intros E. unfold form_on_edge. rewrite E. reflexivity. Qed.
Lemma form_scale x a b (Y : R -> C) w j i t : w <> RtoC 0 -> Y t <> RtoC 0 -> form_on_edge x a b (fun t => w * Y t)%C j i t = (/ cpow w j * form_on_edge x a b Y j i t)%C.
Proof.
  intros Hw HY. unfold form_on_edge. rewrite cpow_mul. assert (A := cpow_neq_0 _ j Hw). assert (B := cpow_neq_0 _ j HY). field. repeat split; try assumption. apply two_neq.
Qed.

(** loops that fill a row *)
Lemma fill_inner (get_z : nat -> outcome C) (z : nat -> C) base : forall cnt l0 row,
  (forall l, l0 <= l < l0 + cnt -> get_z l = Done (z l)) -> base + l0 + cnt <= length row ->
  exists row', oloop (fun row l => do w <- get_z l; vwrite row (base + l) w) (seq l0 cnt) row = Done row' /\ length row' = length row /\
    forall p, vget row' p = if (base + l0 <=? p) && (p <? base + l0 + cnt) then z (p - base) else vget row p.
Proof.
  induction cnt as [|cnt IH]; intros l0 row Hz HL; cbn [seq oloop].
  - exists row. split; [reflexivity|]. split; [reflexivity|]. intros p. destruct (Nat.leb_spec (base + l0) p); destruct (Nat.ltb_spec p (base + l0 + 0)); try lia; reflexivity.
  - rewrite (Hz l0) by lia. cbn [bind]. unfold vwrite at 1. destruct (Nat.ltb_spec (base + l0) (length row)); [|lia]. cbn [bind].
    destruct (IH (S l0) (upd row (base + l0) (z l0))) as (r & E & L & V); [intros l Hl; apply Hz; lia|rewrite upd_length; lia|].
    exists r. split; [exact E|]. rewrite upd_length in L. split; [exact L|]. intros p. rewrite V, vget_upd by lia.
    destruct (Nat.eqb_spec p (base + l0)) as [->|Np].
    + replace (base + S l0 <=? base + l0) with false by (symmetry; apply Nat.leb_gt; lia). cbn [andb].
      replace (base + l0 <=? base + l0) with true by (symmetry; apply Nat.leb_le; lia). replace (base + l0 <? base + l0 + S cnt) with true by (symmetry; apply Nat.ltb_lt; lia).
      cbn [andb]. f_equal. lia.
    + destruct (Nat.leb_spec (base + S l0) p); destruct (Nat.leb_spec (base + l0) p); try lia; cbn [andb]; try reflexivity.
      destruct (Nat.ltb_spec p (base + S l0 + cnt)); destruct (Nat.ltb_spec p (base + l0 + S cnt)); try lia; reflexivity.
Qed.
Lemma fill_outer (get_z : nat -> nat -> outcome C) (z : nat -> nat -> C) w : 1 <= w -> forall cnt k0 row,
  (forall k l, k0 <= k < k0 + cnt -> l < w -> get_z k l = Done (z k l)) -> w * (k0 + cnt) <= length row ->
  exists row', oloop (fun row k => oloop (fun row l => do v <- get_z k l; vwrite row (w * k + l) v) (seq 0 w) row) (seq k0 cnt) row = Done row' /\
    length row' = length row /\
    (forall k l, k0 <= k < k0 + cnt -> l < w -> vget row' (w * k + l) = z k l) /\
    forall p, p < w * k0 -> vget row' p = vget row p.
Proof.
  intros Hw. induction cnt as [|cnt IH]; intros k0 row Hz HL; cbn [seq oloop].
  - exists row. split; [reflexivity|]. split; [reflexivity|]. split; [intros; lia|reflexivity].
  - destruct (fill_inner (get_z k0) (z k0) (w * k0) w 0 row) as (r1 & E1 & L1 & V1); [intros l Hl; apply Hz; lia|nia|]. rewrite E1. cbn [bind].
    destruct (IH (S k0) r1) as (r2 & E2 & L2 & V2 & U2); [intros k l Hk Hl; apply Hz; lia|rewrite L1; replace (S k0 + cnt) with (k0 + S cnt) by lia; exact HL|].
    exists r2. split; [exact E2|]. split; [congruence|]. split.
    + intros k l Hk Hl. destruct (Nat.eq_dec k k0) as [->|Nk]; [|apply V2; lia].
      rewrite U2 by nia. rewrite V1. rewrite Nat.add_0_r. destruct (Nat.leb_spec (w * k0) (w * k0 + l)); [|lia]. destruct (Nat.ltb_spec (w * k0 + l) (w * k0 + w)); [|lia]. cbn [andb]. f_equal. lia.
    + intros p Hp. rewrite U2 by nia. rewrite V1. destruct (Nat.leb_spec (w * k0 + 0) p); [lia|]. reflexivity.
Qed.
Lemma csum_blocks w : forall e (f : nat -> C), csum (w * e) f = csum e (fun k => csum w (fun l => f (w * k + l))).
Proof.
  induction e as [|e IH]; intros f; [rewrite Nat.mul_0_r; reflexivity|]. replace (w * S e) with (w * e + w) by lia. rewrite csum_app. cbn [csum]. rewrite IH. reflexivity.
Qed.
Lemma collect_ok {A B} (f : A -> outcome B) (P : A -> B -> Prop) l : (forall a, In a l -> exists b, f a = Done b /\ P a b) ->
  exists bs, collect f l = Done bs /\ Forall2 P l bs.
Proof.
  induction l as [|a l IH]; intros H; cbn [collect]; [exists []; split; [reflexivity|constructor]|].
  destruct (H a (or_introl eq_refl)) as (b & E & Pb). destruct IH as (bs & Es & F); [intros a' Ha'; apply H; right; exact Ha'|].
  exists (b :: bs). rewrite E. cbn [bind]. rewrite Es. split; [reflexivity|constructor; assumption].
Qed.
Lemma collect_seq {B} (f : nat -> outcome B) (P : nat -> B -> Prop) n d0 : (forall k, k < n -> exists b, f k = Done b /\ P k b) ->
  exists bs, collect f (seq 0 n) = Done bs /\ length bs = n /\ forall k, k < n -> P k (nth k bs d0).
Proof.
  intros H. destruct (collect_ok f P (seq 0 n)) as (bs & E & F); [intros k Hk; apply in_seq in Hk; apply H; lia|].
  exists bs. split; [exact E|]. assert (L : length (seq 0 n) = length bs) by (clear - F; induction F; cbn; congruence). rewrite seq_length in L. split; [symmetry; exact L|].
  assert (G : forall l bs, Forall2 P l bs -> forall k, k < length l -> P (nth k l 0) (nth k bs d0)).
  { clear. induction 1 as [|a b l bs Pa F IH]; intros k Hk; cbn in *; [lia|]. destruct k; [exact Pa|]. apply IH. lia. }
  intros k Hk. specialize (G _ _ F k). rewrite seq_length, seq_nth in G by exact Hk. apply G, Hk.
Qed.
