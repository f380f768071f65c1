(** Quadrature sums of the Magma package: Gauss-Chebyshev and Gauss-Jacobi, and the last node. *)
From Coquelicot Require Import Coquelicot.
From Verif Require Import CArg ModelTree ModelVec ModelPeriod ModelTurn ModelMaRoot ModelMaDiff ModelMaFactor ModelMaSum SpecVec SpecPeriod SpecCurve SpecMaRoot SpecMaFactor SpecQuad SpecMaSum ProofEdge ProofVec ProofPeriod ProofQuad ProofErr3 ProofMaRoot3 ProofMaFactor ProofMaFactor2 ProofMaFactor3 ProofMaSum ProofMaSum2 SpecEdge.
From Verif Require ModelQuad ProofTrap.
Local Open Scope nat_scope.

Lemma rread_ok l i : i < length l -> rread l i = Done (nth i l 0%R).
Proof. intros H. unfold rread. rewrite (nth_error_nth' l 0%R H). reflexivity. Qed.

Lemma abscissas_nth N k : 1 <= N -> k < (N + 1) / 2 -> nth k (gc_abscissas N) 0%R = gc_node N k.
Proof.
  intros HN Hk. unfold gc_abscissas. set (F := fun k => cos (INR (2 * k - 1) * (1 / (2 * INR N) * PI))).
  rewrite (nth_indep _ _ (F 0)) by (rewrite map_length, seq_length; exact Hk). rewrite map_nth, seq_nth by exact Hk.
  unfold F, gc_node. f_equal. replace (2 * (1 + k) - 1) with (2 * k + 1) by lia. field. apply not_0_INR. lia.
Qed.

Section Gc.
Context (y : R -> outcome C) (f : R -> C) (g : nat) (xs : list R).
Hypothesis Hy : forall t, (-1 < t < 1)%R -> y t = Done (f t) /\ f t <> RtoC 0.
Hypothesis Hg : 1 <= g.

Definition gterm l k : C := (cpow (RtoC (nth k xs 0%R)) l / f (nth k xs 0%R) + cpow (RtoC (- nth k xs 0%R)) l / f (- nth k xs 0)%R)%C.

Lemma gc_loop_ok : forall todo k v, k + todo <= length xs -> (forall i, i < k + todo -> (-1 < nth i xs 0 < 1)%R) -> length v = g ->
  exists v', gc_loop y g xs todo k v = Done v' /\ length v' = g /\ forall l, l < g -> vget v' l = (vget v l + csum todo (fun i => gterm l (k + i)))%C.
Proof using Hy Hg.
  induction todo as [|todo IH]; intros k v Hk Hx Hv; cbn [gc_loop].
  - exists v. split; [reflexivity|]. split; [exact Hv|]. intros l _. cbn [csum]. ring.
  - rewrite rread_ok by lia. cbn [bind]. pose proof (Hx k ltac:(lia)) as Hin. set (x := nth k xs 0%R) in *.
    destruct (Hy x Hin) as [Y1 F1]. destruct (Hy (- x)%R ltac:(lra)) as [Y2 F2].
    rewrite (over_root_ok y _ _ _ Y1 F1). cbn [bind]. rewrite (over_root_ok y _ _ _ Y2 F2). cbn [bind].
    destruct (add_powers_ok x (S (g - 1)) 0 (RtoC 1 / f x)%C (RtoC 1 / f (- x)%R)%C v ltac:(lia)) as (v1 & E1 & L1 & _ & I1). rewrite E1. cbn [bind].
    destruct (IH (S k) v1 ltac:(lia) ltac:(intros i Hi; apply Hx; lia) ltac:(lia)) as (v2 & E2 & L2 & I2).
    exists v2. split; [exact E2|]. split; [exact L2|]. intros l Hl. rewrite I2 by exact Hl. specialize (I1 l ltac:(lia)). cbn [Nat.add] in I1. rewrite I1.
    rewrite csum_S_l, Nat.add_0_r. rewrite (csum_ext todo (fun i => gterm l (k + S i)) (fun i => gterm l (S k + i))) by (intros i _; f_equal; lia).
    unfold gterm at 2. fold x. field. split; assumption.
Qed.
End Gc.

Lemma gc_integrals_ok (y : R -> outcome C) (f : R -> C) g N :
  (forall t, (-1 < t < 1)%R -> y t = Done (f t) /\ f t <> RtoC 0) -> 1 <= g -> 1 <= N ->
  exists v, gc_integrals y g N (gc_abscissas N) (2 * (1 / (2 * INR N) * PI))%R = Done v /\ length v = g /\
    forall l, l < g -> vget v l = gc_rule N (fun t => RtoC (rroot 2 (1 - t * t)) * integrand 2 f 1 l t)%C.
Proof.
  intros Hy Hg HN. unfold gc_integrals. pose proof (Nat.div_mod N 2 ltac:(lia)) as DM. pose proof (Nat.mod_upper_bound N 2 ltac:(lia)) as MB.
  assert (E0 : exists v0, (if (N mod 2 =? 1) then do y0 <- over_root y 1%R 0%R; vadd (repeat (RtoC 0) g) 0 y0 else Done (repeat (RtoC 0) g)) = Done v0 /\
     length v0 = g /\ forall l, l < g -> vget v0 l = if N mod 2 =? 0 then RtoC 0 else (cpow (RtoC 0) l / f 0%R)%C).
  { destruct (Hy 0%R ltac:(lra)) as [Y0 F0]. destruct (Nat.eqb_spec (N mod 2) 1) as [E|E], (Nat.eqb_spec (N mod 2) 0) as [E'|E']; try lia.
    - rewrite (over_root_ok y _ _ _ Y0 F0). cbn [bind].
      destruct (vadd_ok (repeat (RtoC 0) g) 0 (RtoC 1 / f 0%R)%C ltac:(rewrite repeat_length; lia)) as (v0 & EV & L0 & I0). rewrite EV.
      exists v0. split; [reflexivity|]. rewrite repeat_length in L0. split; [exact L0|]. intros [|l] Hl; rewrite I0, ?vget_repeat; cbn [Nat.eqb cpow].
      + field. exact F0. + unfold Cdiv. ring.
    - eexists. split; [reflexivity|]. split; [apply repeat_length|]. intros l _. apply vget_repeat. }
  destruct E0 as (v0 & E0 & L0 & I0). unfold vec in *. rewrite E0. cbn [bind].
  assert (Hxs : forall i, i < N / 2 -> nth i (gc_abscissas N) 0%R = gc_node N i).
  { intros i Hi. apply abscissas_nth; [lia|]. apply (Nat.lt_le_trans _ _ _ Hi). apply Nat.div_le_mono; lia. }
  destruct (gc_loop_ok y f g (gc_abscissas N) Hy Hg (N / 2) 0 v0) as (v1 & E1 & L1 & I1).
  { unfold gc_abscissas. rewrite map_length, seq_length. apply Nat.div_le_mono; lia. }
  { intros i Hi. cbn [Nat.add] in Hi. rewrite Hxs by lia. apply gc_node_in. lia. } { exact L0. }
  unfold vec in *. rewrite E1. cbn [bind]. eexists. split; [reflexivity|]. split; [rewrite map_length; exact L1|]. intros l Hl.
  rewrite vget_map_c by lia. rewrite I1, I0 by exact Hl. unfold gc_rule.
  replace (2 * (1 / (2 * INR N) * PI))%R with (PI / INR N)%R by (field; apply not_0_INR; lia). rewrite Cmult_comm. f_equal.
  rewrite (csum_ext N (fun k => RtoC (rroot 2 (1 - gc_node N k * gc_node N k)) * integrand 2 f 1 l (gc_node N k))%C (fun k => cpow (RtoC (gc_node N k)) l / f (gc_node N k))%C).
  2:{ intros k Hk. pose proof (gc_node_in N k Hk) as Hin. unfold integrand. rewrite cpow_1. field. split; [apply Hy, Hin|].
      apply ProofTrap.RtoC_neq, Rgt_not_eq, ProofTrap.rroot_gt. nra. }
  etransitivity; [apply Cplus_comm|]. symmetry. rewrite csum_fold. symmetry. f_equal.
  - apply csum_ext. intros k Hk. unfold gterm. cbn [Nat.add]. rewrite Hxs by exact Hk. rewrite gc_node_sym by lia. reflexivity.
  - destruct (Nat.eqb_spec (N mod 2) 0) as [E|E]; [reflexivity|]. rewrite gc_node_mid by lia. reflexivity.
Qed.

Section Gj.
Context (y : R -> outcome C) (f : R -> C) (N : nat) (jpows : list Z).
Hypothesis Hy : forall t, (-1 < t < 1)%R -> y t = Done (f t) /\ f t <> RtoC 0.

Definition good_scheme (s : gj_scheme) : Prop :=
  N / 2 <= length (fst s) /\ (N + 1) / 2 <= length (snd s) /\ forall t, t < N / 2 -> (-1 < nth t (fst s) 0 < 1)%R.
Definition xq (sch : list gj_scheme) q := fst (nth q sch ([], [])).
Definition wq (sch : list gj_scheme) q := snd (nth q sch ([], [])).

Definition jterm (sch : list gj_scheme) (jq : nat -> nat) t q l : C :=
  (RtoC (nth t (wq sch q) 0%R) * (cpow (RtoC 1 / f (nth t (xq sch q) 0%R)) (jq q) * cpow (RtoC (nth t (xq sch q) 0%R)) l +
     cpow (RtoC 1 / f (- nth t (xq sch q) 0)%R) (jq q) * cpow (RtoC (- nth t (xq sch q) 0%R)) l))%C.

Lemma scheme_at (sch : list gj_scheme) q : q < length sch -> nth_error sch q = Some (xq sch q, wq sch q).
Proof using. intros H. rewrite (nth_error_nth' sch ([], []) H). unfold xq, wq. destruct (nth q sch ([], [])); reflexivity. Qed.

Lemma gj_blocks_ok sch t : t < N / 2 -> (forall q, q < length sch -> good_scheme (xq sch q, wq sch q)) -> forall df j ct v,
  (forall k, In k df -> (1 <= k)%Z) -> j + length df <= length sch -> ct + total df <= length v -> forall jm : Z,
  (forall q, q < length df -> nth_error jpows (ct + offset df q) = Some (jm + Z.of_nat q)%Z) ->
  exists v', gj_blocks y df j ct sch jpows t v = Done v' /\
    added df ct v v' (fun q l => jterm sch (fun p => Z.to_nat (jm + Z.of_nat (p - j))) t (j + q) l).
Proof using Hy.
  intros Ht Hs. induction df as [|k df IH]; intros j ct v Hdf Hj Hv jm Hjp; cbn [gj_blocks].
  - exists v. split; [reflexivity|apply added_nil].
  - cbn [length total] in *. pose proof (Hdf k (or_introl eq_refl)) as Hk. rewrite scheme_at by lia.
    destruct (Hs j ltac:(lia)) as (X & W & I). cbn [fst snd] in *.
    assert (Hw : t < length (wq sch j)) by (apply (Nat.lt_le_trans _ _ _ Ht), (Nat.le_trans _ ((N + 1) / 2)); [apply Nat.div_le_mono; lia|exact W]).
    rewrite rread_ok by lia. cbn [bind]. specialize (I t Ht). set (x := nth t (xq sch j) 0%R) in *.
    destruct (Hy x I) as [Y1 F1]. destruct (Hy (- x)%R ltac:(lra)) as [Y2 F2].
    rewrite (over_root_ok y _ _ _ Y1 F1). cbn [bind]. rewrite (over_root_ok y _ _ _ Y2 F2). cbn [bind].
    rewrite rread_ok by exact Hw. cbn [bind]. unfold sread at 1. pose proof (Hjp 0 ltac:(lia)) as J0. cbn [offset] in J0. rewrite Nat.add_0_r in J0. rewrite J0. cbn [bind].
    replace (S (Z.to_nat k - 1)) with (Z.to_nat k) by lia.
    match goal with |- context [add_powers _ _ ?p1 ?p2 _ _] => destruct (add_powers_ok x (Z.to_nat k) ct p1 p2 v ltac:(lia)) as (v1 & E1 & L1 & O1 & I1) end.
    rewrite E1. cbn [bind].
    destruct (IH (S j) (ct + Z.to_nat k) v1 (fun z Hz => Hdf z (or_intror Hz)) ltac:(lia) ltac:(lia) (jm + 1)%Z) as (v2 & E2 & A2).
    { intros q Hq. specialize (Hjp (S q) ltac:(lia)). cbn [offset] in Hjp. rewrite <- Nat.add_assoc, Hjp. f_equal. lia. }
    exists v2. split; [exact E2|]. apply (added_cons k df ct v v1 v2); [exact Hk|exact L1|exact O1| |].
    + intros l Hl. rewrite I1 by exact Hl. unfold jterm. rewrite Nat.add_0_r, Nat.sub_diag. fold x. ring.
    + eapply added_ext; [|exact A2]. intros q l _ _. cbn beta. replace (S j + q) with (j + S q) by lia. unfold jterm.
      replace (jm + 1 + Z.of_nat (j + S q - S j))%Z with (jm + Z.of_nat (j + S q - j))%Z by lia. reflexivity.
Qed.

Lemma gj_zero_ok sch y0 : N mod 2 = 1 -> (forall q, q < length sch -> good_scheme (xq sch q, wq sch q)) -> forall df j ct v,
  (forall k, In k df -> (1 <= k)%Z) -> j + length df <= length sch -> ct + total df <= length v -> forall jm : Z,
  (forall q, q < length df -> nth_error jpows (ct + offset df q) = Some (jm + Z.of_nat q)%Z) ->
  exists v', gj_zero df j ct sch jpows (N / 2) y0 v = Done v' /\
    added df ct v v' (fun q l => RtoC (nth (N / 2) (wq sch (j + q)) 0%R) * cpow y0 (Z.to_nat (jm + Z.of_nat q)) * cpow (RtoC 0) l)%C.
Proof using.
  intros Ho Hs. induction df as [|k df IH]; intros j ct v Hdf Hj Hv jm Hjp; cbn [gj_zero].
  - exists v. split; [reflexivity|apply added_nil].
  - cbn [length total] in *. pose proof (Hdf k (or_introl eq_refl)) as Hk. rewrite scheme_at by lia.
    destruct (Hs j ltac:(lia)) as (X & W & I). cbn [fst snd] in *.
    assert (Hw : N / 2 < length (wq sch j)).
    { pose proof (Nat.div_mod N 2 ltac:(lia)) as D. assert (E : N + 1 = 2 * (N / 2 + 1)) by lia. rewrite E, Nat.mul_comm, Nat.div_mul in W by lia. lia. }
    rewrite rread_ok by exact Hw. cbn [bind]. unfold sread at 1. pose proof (Hjp 0 ltac:(lia)) as J0. cbn [offset] in J0. rewrite Nat.add_0_r in J0. rewrite J0. cbn [bind].
    match goal with |- context [vadd v ct ?z] => destruct (vadd_ok v ct z ltac:(lia)) as (v1 & E1 & L1 & H1) end. rewrite E1. cbn [bind].
    destruct (IH (S j) (ct + Z.to_nat k) v1 (fun z Hz => Hdf z (or_intror Hz)) ltac:(lia) ltac:(lia) (jm + 1)%Z) as (v2 & E2 & A2).
    { intros q Hq. specialize (Hjp (S q) ltac:(lia)). cbn [offset] in Hjp. rewrite <- Nat.add_assoc, Hjp. f_equal. lia. }
    exists v2. split; [exact E2|]. apply (added_cons k df ct v v1 v2); [exact Hk|exact L1| | |].
    + intros i Hi. rewrite H1. destruct (Nat.eqb_spec i ct); [lia|reflexivity].
    + intros l Hl. rewrite H1. destruct (Nat.eqb_spec (ct + l) ct) as [E|E].
      * replace l with 0 by lia. rewrite !Nat.add_0_r. cbn [cpow]. ring.
      * destruct l as [|l]; [lia|]. rewrite cpow_zero. ring.
    + eapply added_ext; [|exact A2]. intros q l _ _. cbn beta. replace (S j + q) with (j + S q) by lia.
      replace (jm + 1 + Z.of_nat q)%Z with (jm + Z.of_nat (S q))%Z by lia. reflexivity.
Qed.
End Gj.

Lemma gj_integrals_ok (y : R -> outcome C) (f : R -> C) m d sch N : (forall t, (-1 < t < 1)%R -> y t = Done (f t) /\ f t <> RtoC 0) ->
  0 < m -> (1 <= md_jm d)%Z -> (forall k, In k (md_df d) -> (1 <= k)%Z) -> Z.of_nat (total (md_df d)) = md_g d ->
  (forall q, q < length (md_df d) -> nth_error (md_jpows d) (offset (md_df d) q) = Some (md_jm d + Z.of_nat q)%Z) ->
  length sch = length (md_df d) -> (forall q, q < length sch -> good_scheme N (xq sch q, wq sch q)) ->
  exists v, gj_integrals y d sch N = Done v /\ Z.of_nat (length v) = md_g d /\
    forall q i, q < length (md_df d) -> (Z.of_nat i < nth q (md_df d) 0)%Z ->
      vget v (offset (md_df d) q + i) = sym_rule N (xq sch q) (wq sch q)
        (fun t => cpow (RtoC (rroot (Z.of_nat m) (1 - t * t))) (Z.to_nat (md_jm d) + q) * integrand (Z.of_nat m) f (Z.to_nat (md_jm d) + q) i t)%C.
Proof.
  intros Hy Hm Hj Hdf Hg Hjp HL Hs. set (jq := fun p => Z.to_nat (md_jm d + Z.of_nat (p - 0))).
  assert (Loop : forall todo t v, t + todo <= N / 2 -> total (md_df d) <= length v ->
    exists v', gj_loop y d sch todo t v = Done v' /\ added (md_df d) 0 v v' (fun q l => csum todo (fun i => jterm f sch jq (t + i) q l))).
  { induction todo as [|todo IH]; intros t v Ht Hv; cbn [gj_loop].
    - exists v. split; [reflexivity|]. split; [reflexivity|]. split; [reflexivity|]. intros q l _ _. cbn [csum]. ring.
    - destruct (gj_blocks_ok y f N (md_jpows d) Hy sch t ltac:(lia) Hs (md_df d) 0 0 v Hdf ltac:(lia) ltac:(lia) (md_jm d) Hjp) as (v1 & E1 & A1).
      rewrite E1. cbn [bind]. destruct (IH (S t) v1) as (v2 & E2 & A2); [lia|destruct A1 as (L1 & _); lia|].
      exists v2. split; [exact E2|]. eapply added_ext; [|exact (added_trans _ _ _ _ _ _ _ A1 A2)]. intros q l _ _. cbn beta.
      rewrite csum_S_l, Nat.add_0_r, Nat.add_0_l. rewrite (csum_ext todo (fun i => jterm f sch jq (t + S i) q l) (fun i => jterm f sch jq (S t + i) q l)) by (intros i _; f_equal; lia).
      reflexivity. }
  unfold gj_integrals. set (v00 := repeat (RtoC 0) (Z.to_nat (md_g d))). assert (L00 : length v00 = Z.to_nat (md_g d)) by apply repeat_length.
  destruct (Hy 0%R ltac:(lra)) as [Y0 F0]. pose proof (Nat.mod_upper_bound N 2 ltac:(lia)) as MB.
  assert (E0 : exists v0, (if (N mod 2 =? 1) then do y0 <- over_root y 1%R 0%R; gj_zero (md_df d) 0 0 sch (md_jpows d) (N / 2) y0 v00 else Done v00) = Done v0 /\
     added (md_df d) 0 v00 v0 (fun q l => if N mod 2 =? 0 then RtoC 0 else RtoC (nth (N / 2) (wq sch q) 0%R) * cpow (RtoC 1 / f 0%R) (Z.to_nat (md_jm d + Z.of_nat q)) * cpow (RtoC 0) l)%C).
  { destruct (Nat.eqb_spec (N mod 2) 1) as [E|E], (Nat.eqb_spec (N mod 2) 0) as [E'|E']; try lia.
    - rewrite (over_root_ok y _ _ _ Y0 F0). cbn [bind].
      apply (gj_zero_ok N (md_jpows d) sch (RtoC 1 / f 0%R)%C E Hs (md_df d) 0 0 v00 Hdf ltac:(lia) ltac:(lia) (md_jm d) Hjp).
    - exists v00. split; [reflexivity|]. split; [reflexivity|]. split; [reflexivity|]. intros; ring. }
  destruct E0 as (v0 & E0 & A0). unfold vec in *. rewrite E0. cbn [bind].
  destruct (Loop (N / 2) 0 v0) as (v1 & E1 & A1); [lia|destruct A0 as (La & _); lia|].
  exists v1. split; [exact E1|]. destruct (added_trans _ _ _ _ _ _ _ A0 A1) as (L2 & _ & I2). split; [lia|].
  intros q i Hq Hi. specialize (I2 q i Hq Hi). cbn [Nat.add] in I2. rewrite I2. unfold v00 at 1. rewrite vget_repeat.
  destruct (Hs q ltac:(lia)) as (_ & _ & Hin). cbn [fst] in Hin.
  set (J := Z.to_nat (md_jm d) + q). assert (EJ : Z.to_nat (md_jm d + Z.of_nat q) = J) by (unfold J; lia). rewrite EJ.
  set (G := fun t => (cpow (RtoC (rroot (Z.of_nat m) (1 - t * t))) J * integrand (Z.of_nat m) f J i t)%C).
  assert (HG : forall t, (-1 < t < 1)%R -> G t = (cpow (RtoC 1 / f t) J * cpow (RtoC t) i)%C).
  { intros t Ht. unfold G, integrand. assert (Rt : RtoC (rroot (Z.of_nat m) (1 - t * t)) <> RtoC 0) by (apply ProofTrap.RtoC_neq, Rgt_not_eq, ProofTrap.rroot_gt; nra).
    destruct (Hy t Ht) as [_ Ft]. assert (Fn := cpow_neq_0 _ J Ft). assert (Rn := cpow_neq_0 _ J Rt). rewrite cpow_mul.
    assert (Ei : (cpow (RtoC 1 / f t) J * cpow (f t) J)%C = RtoC 1).
    { rewrite <- cpow_mul. replace (RtoC 1 / f t * f t)%C with (RtoC 1) by (field; exact Ft). apply cpow_one. }
    transitivity ((cpow (RtoC 1 / f t) J * cpow (f t) J) * cpow (RtoC t) i / cpow (f t) J)%C; [rewrite Ei; field; split; assumption|field; exact Fn]. }
  fold (sym_rule N (xq sch q) (wq sch q) G). unfold sym_rule.
  rewrite (csum_ext (N / 2) (fun t => RtoC (nth t (wq sch q) 0%R) * (G (nth t (xq sch q) 0%R) + G (- nth t (xq sch q) 0)%R))%C (fun i0 => jterm f sch jq (0 + i0) q i)).
  2:{ intros k Hk. specialize (Hin k Hk). rewrite !HG by lra. unfold jterm, jq. rewrite Nat.sub_0_r, EJ. cbn [Nat.add]. reflexivity. }
  cbn [Nat.add]. destruct (N mod 2 =? 0); [ring|]. rewrite HG by lra. ring.
Qed.
