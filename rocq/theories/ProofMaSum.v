(** Quadrature sums of the Magma package: the loops. *)
From Coquelicot Require Import Coquelicot.
From Verif Require Import CArg ModelTree ModelVec ModelPeriod ModelTurn ModelMaRoot ModelMaDiff ModelMaFactor ModelMaSum SpecVec SpecPeriod SpecCurve SpecMaRoot SpecMaFactor SpecQuad SpecMaSum ProofEdge ProofVec ProofPeriod ProofQuad ProofMaRoot3 SpecEdge.
From Verif Require ModelQuad ProofTrap.
Local Open Scope nat_scope.

Lemma vadd_ok v i z : i < length v -> exists v', vadd v i z = Done v' /\ length v' = length v /\
  forall k, vget v' k = if k =? i then (vget v i + z)%C else vget v k.
Proof.
  intros H. unfold vadd. rewrite vread_ok by exact H. cbn [bind]. unfold vwrite. destruct (Nat.ltb_spec i (length v)); [|lia].
  eexists. split; [reflexivity|]. split; [apply upd_length|]. intros k. apply vget_upd, H.
Qed.

Lemma over_root_ok y num x r : y x = Done r -> r <> RtoC 0 -> over_root y num x = Done (RtoC num / r)%C.
Proof. intros E H. unfold over_root. rewrite E. cbn [bind]. destruct (Req_EM_T (Cmod r) 0) as [H0|_]; [apply Cmod_eq_0 in H0; contradiction|reflexivity]. Qed.

Lemma add_powers_ok x : forall todo ct w1 w2 v, ct + todo <= length v ->
  exists v', add_powers todo ct w1 w2 x v = Done v' /\ length v' = length v /\
    (forall k, k < ct \/ ct + todo <= k -> vget v' k = vget v k) /\
    forall l, l < todo -> vget v' (ct + l) = (vget v (ct + l) + (w1 * cpow (RtoC x) l + w2 * cpow (RtoC (- x)) l))%C.
Proof.
  induction todo as [|todo IH]; intros ct w1 w2 v H; cbn [add_powers].
  - exists v. repeat split; intros; reflexivity || lia.
  - destruct (vadd_ok v ct (w1 + w2)%C ltac:(lia)) as (v1 & E1 & L1 & H1). rewrite E1. cbn [bind].
    destruct (IH (S ct) (w1 * RtoC x)%C (w2 * RtoC (- x))%C v1 ltac:(lia)) as (v2 & E2 & L2 & O2 & I2).
    exists v2. split; [exact E2|]. split; [lia|]. split.
    + intros k Hk. rewrite O2 by lia. rewrite H1. destruct (Nat.eqb_spec k ct); [lia|reflexivity].
    + intros [|l] Hl.
      * rewrite Nat.add_0_r, O2 by lia. rewrite H1, Nat.eqb_refl. cbn [cpow]. ring.
      * replace (ct + S l) with (S ct + l) by lia. rewrite I2 by lia. rewrite H1. destruct (Nat.eqb_spec (S ct + l) ct); [lia|].
        rewrite !cpow_S. ring.
Qed.

(** every block of v gets T q l added *)
Definition added (df : list Z) (ct : nat) (v v' : vec) (T : nat -> nat -> C) : Prop :=
  length v' = length v /\ (forall k, k < ct \/ ct + total df <= k -> vget v' k = vget v k) /\
  forall q l, q < length df -> (Z.of_nat l < nth q df 0)%Z -> vget v' (ct + (offset df q + l)) = (vget v (ct + (offset df q + l)) + T q l)%C.

Lemma added_nil ct v T : added [] ct v v T.
Proof. split; [reflexivity|]. split; [reflexivity|]. intros q l Hq. cbn in Hq. lia. Qed.

Lemma added_cons k df ct v v1 v2 T : (1 <= k)%Z -> length v1 = length v ->
  (forall i, i < ct \/ ct + Z.to_nat k <= i -> vget v1 i = vget v i) ->
  (forall l, l < Z.to_nat k -> vget v1 (ct + l) = (vget v (ct + l) + T 0 l)%C) ->
  added df (ct + Z.to_nat k) v1 v2 (fun q => T (S q)) -> added (k :: df) ct v v2 T.
Proof.
  intros Hk L1 O1 I1 (L2 & O2 & I2). split; [lia|]. cbn [total]. split.
  - intros i Hi. rewrite O2 by lia. apply O1. lia.
  - intros [|q] l Hq Hl; cbn [nth offset length] in *.
    + rewrite O2 by lia. rewrite Nat.add_0_l. apply I1. lia.
    + specialize (I2 q l ltac:(lia) Hl). replace (ct + (Z.to_nat k + offset df q + l)) with (ct + Z.to_nat k + (offset df q + l)) by lia.
      rewrite I2. rewrite O1 by lia. reflexivity.
Qed.

Lemma added_trans df ct v v1 v2 T1 T2 : added df ct v v1 T1 -> added df ct v1 v2 T2 -> added df ct v v2 (fun q l => T1 q l + T2 q l)%C.
Proof.
  intros (L1 & O1 & I1) (L2 & O2 & I2). split; [lia|]. split; [intros k Hk; rewrite O2, O1 by exact Hk; reflexivity|].
  intros q l Hq Hl. rewrite I2, I1 by assumption. ring.
Qed.
Lemma added_ext df ct v v' T1 T2 : (forall q l, q < length df -> (Z.of_nat l < nth q df 0)%Z -> T1 q l = T2 q l) -> added df ct v v' T1 -> added df ct v v' T2.
Proof. intros E (L & O & I). split; [exact L|]. split; [exact O|]. intros q l Hq Hl. rewrite I, E by assumption. reflexivity. Qed.

Lemma zero_ok y : forall df, (forall k, In k df -> (1 <= k)%Z) -> forall ct wy v, ct + total df <= length v ->
  exists v', zero_blocks df ct wy y v = Done v' /\ added df ct v v' (fun q l => wy * cpow y q * cpow (RtoC 0) l)%C.
Proof.
  induction df as [|k df IH]; intros Hdf ct wy v H; cbn [zero_blocks].
  - exists v. split; [reflexivity|apply added_nil].
  - cbn [total] in H. pose proof (Hdf k (or_introl eq_refl)) as Hk.
    destruct (vadd_ok v ct wy ltac:(lia)) as (v1 & E1 & L1 & H1). rewrite E1. cbn [bind].
    destruct (IH (fun x Hx => Hdf x (or_intror Hx)) (ct + Z.to_nat k) (wy * y)%C v1 ltac:(lia)) as (v2 & E2 & A2).
    exists v2. split; [exact E2|]. apply (added_cons k df ct v v1 v2); [exact Hk|exact L1| | |].
    + intros i Hi. rewrite H1. destruct (Nat.eqb_spec i ct); [lia|reflexivity].
    + intros l Hl. rewrite H1. destruct (Nat.eqb_spec (ct + l) ct) as [E|E].
      * replace l with 0 by lia. rewrite Nat.add_0_r. cbn [cpow]. ring.
      * destruct l as [|l]; [lia|]. rewrite cpow_zero. ring.
    + apply (added_ext _ _ _ _ _ _ (fun q l _ _ => ltac:(rewrite (cpow_S y q); ring) : (wy * y * cpow y q * cpow (RtoC 0) l)%C = (wy * cpow y (S q) * cpow (RtoC 0) l)%C) A2).
Qed.

Lemma pair_ok y1 y2 x : forall df, (forall k, In k df -> (1 <= k)%Z) -> forall ct wy1 wy2 v, ct + total df <= length v ->
  exists v', pair_blocks df ct wy1 wy2 y1 y2 x v = Done v' /\
    added df ct v v' (fun q l => wy1 * cpow y1 q * cpow (RtoC x) l + wy2 * cpow y2 q * cpow (RtoC (- x)) l)%C.
Proof.
  induction df as [|k df IH]; intros Hdf ct wy1 wy2 v H; cbn [pair_blocks].
  - exists v. split; [reflexivity|apply added_nil].
  - cbn [total] in H. pose proof (Hdf k (or_introl eq_refl)) as Hk. replace (S (Z.to_nat k - 1)) with (Z.to_nat k) by lia.
    destruct (add_powers_ok x (Z.to_nat k) ct wy1 wy2 v ltac:(lia)) as (v1 & E1 & L1 & O1 & I1). rewrite E1. cbn [bind].
    destruct (IH (fun x Hx => Hdf x (or_intror Hx)) (ct + Z.to_nat k) (wy1 * y1)%C (wy2 * y2)%C v1 ltac:(lia)) as (v2 & E2 & A2).
    exists v2. split; [exact E2|]. apply (added_cons k df ct v v1 v2); [exact Hk|exact L1|exact O1| |].
    + intros l Hl. rewrite I1 by exact Hl. cbn [cpow]. ring.
    + eapply added_ext; [|exact A2]. intros q l _ _. cbn beta. rewrite (cpow_S y1 q), (cpow_S y2 q). ring.
Qed.

(** ** nodes of the double exponential rule *)
Lemma de_points_nth h lam m : 0 < m -> forall N k0 k, k < N ->
  nth_error (de_points N (exp h) (1 / exp h) (exp (INR k0 * h)) (exp (- (INR k0 * h))) lam (1 / INR m)%R) k =
  let nd := ModelQuad.de_int_node h lam (Z.of_nat m) (S (k0 + k)) in Some (ModelQuad.de_x nd, (ModelQuad.de_dx nd, ModelQuad.de_ch2m nd)).
Proof.
  intros Hm. induction N as [|N IH]; intros k0 k Hk; [lia|]. cbn [de_points].
  assert (E1 : (exp (INR k0 * h) * exp h = exp (INR (S k0) * h))%R) by (rewrite <- exp_plus; f_equal; rewrite S_INR; ring).
  assert (E2 : (exp (- (INR k0 * h)) * (1 / exp h) = exp (- (INR (S k0) * h)))%R).
  { unfold Rdiv. rewrite Rmult_1_l, <- exp_Ropp, <- exp_plus. f_equal. rewrite S_INR. ring. }
  rewrite E1, E2. destruct k as [|k].
  - cbn [nth_error]. rewrite Nat.add_0_r. unfold ModelQuad.de_int_node. cbn [Nat.eqb].
    set (u := (INR (S k0) * h)%R). replace (h * INR (S k0))%R with u by (unfold u; ring).
    assert (Esh : (1 / 2 * (exp u - exp (- u)) = sinh u)%R) by (unfold sinh; field).
    assert (Ech : (sinh u + exp (- u) = cosh u)%R) by (unfold sinh, cosh; field).
    cbv zeta. rewrite Esh, Ech. rewrite (Rmult_comm (sinh u) lam). set (w := (lam * sinh u)%R).
    assert (Ei : (1 / exp w = exp (- w))%R) by (rewrite exp_Ropp; field; apply Rgt_not_eq, exp_pos). rewrite Ei.
    assert (Ec : (1 / 2 * (exp w + exp (- w)) = cosh w)%R) by (unfold cosh; field). rewrite Ec.
    assert (Es : (cosh w - exp (- w) = sinh w)%R) by (unfold cosh, sinh; field). rewrite Es.
    cbn [ModelQuad.de_x ModelQuad.de_dx ModelQuad.de_ch2m]. do 3 f_equal. unfold rroot. pose proof (ProofTrap.cosh_pos w) as Hp.
    destruct (Rlt_dec 0 (cosh w * cosh w)); [|exfalso; nra]. f_equal. rewrite <- INR_IZR_INZ. field. apply not_0_INR. lia.
  - cbn [nth_error]. rewrite (IH (S k0) k) by lia. replace (S k0 + k) with (k0 + S k) by lia. reflexivity.
Qed.

Lemma scheme_nth h lam m N k : 0 < m -> k <= N ->
  nth_error (de_scheme h lam N m) k =
  let nd := ModelQuad.de_int_node h lam (Z.of_nat m) k in Some (ModelQuad.de_x nd, (ModelQuad.de_dx nd, ModelQuad.de_ch2m nd)).
Proof.
  intros Hm Hk. unfold de_scheme. destruct k as [|k]; [reflexivity|]. cbn [nth_error].
  pose proof (de_points_nth h lam m Hm N 0 k ltac:(lia)) as E. cbn [INR] in E. rewrite Rmult_0_l, Ropp_0, exp_0 in E. exact E.
Qed.

Lemma vget_repeat k i : vget (repeat (RtoC 0) k) i = RtoC 0.
Proof. unfold vget. revert i. induction k as [|k IH]; intros [|i]; try reflexivity. apply IH. Qed.
Lemma vget_map_c g (v : list C) i : i < length v -> vget (map g v) i = g (vget v i).
Proof. intros H. unfold vget. rewrite (nth_indep _ _ (g (RtoC 0))) by (rewrite map_length; exact H). apply map_nth. Qed.

Section De.
Context (y : R -> outcome C) (f : R -> C) (d : ma_diff) (h lam : R) (m N : nat).
Hypothesis Hm : 0 < m.
Hypothesis Hy : forall t, (-1 < t < 1)%R -> y t = Done (f t) /\ f t <> RtoC 0.
Hypothesis Hdf : forall k, In k (md_df d) -> (1 <= k)%Z.
Hypothesis Hj : (1 <= md_jm d)%Z.
Let nodes := de_scheme h lam N m.
Let nd k := ModelQuad.de_int_node h lam (Z.of_nat m) k.
Let J q := Z.to_nat (md_jm d) + q.

Lemma node_in k : (-1 < ModelQuad.de_x (nd k) < 1)%R.
Proof using.
  assert (E : ModelQuad.de_x (nd k) = de_map lam (INR k * h)).
  { unfold nd, ModelQuad.de_int_node, de_map. destruct (Nat.eqb_spec k 0) as [->|Hk]; cbn [ModelQuad.de_x].
    - cbn [INR]. rewrite Rmult_0_l, ProofTrap.sinh_zero, Rmult_0_r, ProofTrap.sinh_zero. unfold Rdiv. ring.
    - rewrite (Rmult_comm h), (Rmult_comm (sinh _) lam). reflexivity. }
  rewrite E. apply ProofTrap.de_map_range.
Qed.

Definition term q l k : C := (ProofTrap.contrib f (J q) l (nd k) (ModelQuad.de_x (nd k)) + ProofTrap.contrib f (J q) l (nd k) (- ModelQuad.de_x (nd k))%R)%C.

Lemma de_loop_ok : forall todo t v, t + todo <= S N -> total (md_df d) <= length v ->
  exists v', de_loop y d nodes todo t v = Done v' /\ added (md_df d) 0 v v' (fun q l => csum todo (fun k => term q l (t + k))).
Proof using Hm Hy Hdf.
  induction todo as [|todo IH]; intros t v Ht Hv; cbn [de_loop].
  - exists v. split; [reflexivity|]. split; [reflexivity|]. split; [reflexivity|]. intros q l _ _. cbn [csum]. ring.
  - unfold nodes. rewrite scheme_nth by lia. cbv zeta. fold (nd t). pose proof (node_in t) as Hin.
    destruct (Hy (ModelQuad.de_x (nd t)) Hin) as [Y1 F1]. destruct (Hy (- ModelQuad.de_x (nd t))%R ltac:(lra)) as [Y2 F2].
    rewrite (over_root_ok y _ _ _ Y1 F1). cbn [bind]. rewrite (over_root_ok y _ _ _ Y2 F2). cbn [bind].
    match goal with |- context [pair_blocks _ _ ?a ?b ?c ?e ?x _] => destruct (pair_ok c e x (md_df d) Hdf 0 a b v ltac:(lia)) as (v1 & E1 & A1) end.
    rewrite E1. cbn [bind]. destruct (IH (S t) v1) as (v2 & E2 & A2); [lia|destruct A1 as (L1 & _); lia|].
    exists v2. split; [exact E2|]. eapply added_ext; [|exact (added_trans _ _ _ _ _ _ _ A1 A2)]. intros q l _ _. cbn beta.
    rewrite csum_S_l, Nat.add_0_r. rewrite (csum_ext todo (fun k => term q l (t + S k)) (fun k => term q l (S t + k))) by (intros k _; f_equal; lia).
    f_equal. unfold term, ProofTrap.contrib, J. rewrite !cpow_add. ring.
Qed.

Lemma de_integrals_ok : Z.of_nat (total (md_df d)) = md_g d ->
  exists v, de_integrals y d nodes N (lam * h) = Done v /\ length v = Z.to_nat (md_g d) /\
    forall q i, q < length (md_df d) -> (Z.of_nat i < nth q (md_df d) 0)%Z ->
      vget v (offset (md_df d) q + i) = de_rule lam h (N - 1) (integrand (Z.of_nat m) f (J q) i).
Proof using Hm Hy Hdf.
  intros Hg. unfold de_integrals, nodes. rewrite scheme_nth by lia. cbv zeta. unfold ModelQuad.de_int_node at 1 2. cbn [Nat.eqb ModelQuad.de_dx ModelQuad.de_ch2m].
  destruct (Hy 0%R ltac:(lra)) as [Y0 F0]. rewrite (over_root_ok y _ _ _ Y0 F0). cbn [bind].
  assert (L0 : length (repeat (RtoC 0) (Z.to_nat (md_g d))) = Z.to_nat (md_g d)) by apply repeat_length.
  match goal with |- context [zero_blocks _ _ ?a ?b ?c] => destruct (zero_ok b (md_df d) Hdf 0 a c ltac:(lia)) as (v1 & E1 & A1) end.
  unfold vec in *. rewrite E1. cbn [bind]. destruct (de_loop_ok (N - 1) 1 v1) as (v2 & E2 & A2).
  { lia. } { destruct A1 as (L1 & _). lia. }
  unfold nodes, vec in *. rewrite E2. cbn [bind]. eexists. split; [reflexivity|].
  pose proof (added_trans _ _ _ _ _ _ _ A1 A2) as (L2 & _ & I2). split; [rewrite map_length; lia|].
  intros q i Hq Hi. pose proof (offset_total _ q i Hq Hi) as Hlt.
  rewrite vget_map_c by lia. specialize (I2 q i Hq Hi). cbn [Nat.add] in I2. rewrite I2. rewrite vget_repeat.
  unfold de_rule. set (F := integrand (Z.of_nat m) f (J q) i).
  rewrite (csum_ext (2 * (N - 1) + 1) _ (fun q0 => ProofTrap.rule_term lam h F (Z.of_nat q0 - Z.of_nat (N - 1))%Z)) by reflexivity.
  rewrite (ProofTrap.rule_split (N - 1) (ProofTrap.rule_term lam h F)). rewrite csum_S_l. cbn [Nat.eqb].
  assert (Hf : forall t, (-1 < t < 1)%R -> f t <> RtoC 0) by (intros t Ht; apply Hy, Ht).
  rewrite RtoC_mult, Cplus_0_l, (Cmult_comm _ (RtoC lam * RtoC h)%C), (Cmult_comm (RtoC lam) (RtoC h)), <- Cmult_assoc. f_equal.
  rewrite Cmult_plus_distr_l. f_equal.
  - destruct (ProofTrap.node_match lam h (Z.of_nat m) f (J q) i 0 Hf) as [H1 _]. fold F in H1. rewrite Cplus_0_r. rewrite <- H1. f_equal.
    unfold ProofTrap.contrib, ModelQuad.de_int_node. cbn [Nat.eqb ModelQuad.de_x ModelQuad.de_dx ModelQuad.de_ch2m]. unfold J. rewrite cpow_add. ring.
  - rewrite <- csum_scal. apply csum_ext. intros k Hk. cbn [Nat.add]. unfold term.
    destruct (ProofTrap.node_match lam h (Z.of_nat m) f (J q) i (S k) Hf) as [H1 H2]. fold F in H1, H2. fold (nd (S k)) in H1, H2.
    rewrite Cmult_plus_distr_l, H1, H2. reflexivity.
Qed.
End De.
