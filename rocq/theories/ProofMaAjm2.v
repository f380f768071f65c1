(** Integrals to a point of the curve in the Magma package: sums and constants. *)
From Coq Require Import FunctionalExtensionality.
From Coquelicot Require Import Coquelicot.
From Verif Require Import CArg ModelTree ModelVec ModelPeriod ModelTurn ModelMaRoot ModelMaDiff ModelMaFactor ModelMaSum ModelMaInter ModelMaAjm SpecVec SpecPeriod SpecCurve SpecMaRoot SpecMaFactor SpecQuad SpecMaSum SpecMaAjm ProofEdge ProofVec ProofPeriod ProofQuad ProofErr3 ProofMaRoot ProofMaRoot3 ProofMaFactor ProofMaFactor2 ProofMaFactor3 ProofMaSum ProofMaSum2 ProofMaSum3 ProofMaAjm SpecEdge.
From Verif Require ModelQuad ProofTrap.
Local Open Scope nat_scope.

(** ** double exponential: same as the sums for the root divided by (1-x)^(1/m) *)
Lemma extra_root m x : 0 < m -> (x < 1)%R -> Rpower (1 - x) (1 / INR m) = rroot (Z.of_nat m) (1 - x).
Proof.
  intros Hm Hx. unfold rroot. destruct (Rlt_dec 0 (1 - x)); [|lra]. rewrite <- INR_IZR_INZ. f_equal. unfold Rdiv. ring.
Qed.

Section De.
Context (y : R -> outcome C) (f : R -> C) (d : ma_diff) (h lam : R) (m N : nat).
Hypothesis Hm : 0 < m.
Hypothesis Hy : forall t, (-1 < t < 1)%R -> y t = Done (f t) /\ f t <> RtoC 0.
Let nodes := de_scheme h lam N m.
Definition fdiv (t : R) : C := (f t / RtoC (rroot (Z.of_nat m) (1 - t)))%C.

Lemma fdiv_neq t : (-1 < t < 1)%R -> fdiv t <> RtoC 0.
Proof using Hy.
  intros Ht. unfold fdiv. intros E. destruct (Hy t Ht) as [_ F]. apply F.
  assert (R0 : RtoC (rroot (Z.of_nat m) (1 - t)) <> RtoC 0) by (apply ProofTrap.RtoC_neq, Rgt_not_eq, ProofTrap.rroot_gt; lra).
  transitivity (f t / RtoC (rroot (Z.of_nat m) (1 - t)) * RtoC (rroot (Z.of_nat m) (1 - t)))%C; [field; exact R0|rewrite E; ring].
Qed.

Lemma over_extra t w : (-1 < t < 1)%R -> over_root y (rroot (Z.of_nat m) (1 - t) * w)%R t = over_root (fun t => Done (fdiv t)) w t.
Proof using Hy.
  intros Ht. destruct (Hy t Ht) as [Y F]. rewrite (over_root_ok y _ _ _ Y F), (over_root_ok (fun t => Done (fdiv t)) w t (fdiv t) eq_refl (fdiv_neq t Ht)). f_equal.
  unfold fdiv. rewrite RtoC_mult. field. split; [|exact F]. apply ProofTrap.RtoC_neq, Rgt_not_eq, ProofTrap.rroot_gt. lra.
Qed.

Lemma extra_nth k : k <= N -> nth_error (extra_factors m nodes) k =
  match nth_error nodes k with Some nd => Some (if k =? 0 then (1, 1)%R else extra m (fst nd)) | None => None end.
Proof using.
  intros Hk. unfold nodes, de_scheme, extra_factors. cbn [tl]. destruct k as [|k]; [reflexivity|]. cbn [nth_error Nat.eqb]. rewrite nth_error_map.
  destruct (nth_error _ k) as [[? [? ?]]|]; reflexivity.
Qed.

Lemma de_loop_same : forall todo t v, 1 <= t -> t + todo <= S N ->
  de_loop_ajm y d nodes (extra_factors m nodes) todo t v = de_loop (fun t => Done (fdiv t)) d nodes todo t v.
Proof using Hy Hm.
  induction todo as [|todo IH]; intros t v Ht Hl; [reflexivity|]. cbn [de_loop_ajm de_loop]. rewrite extra_nth by lia.
  pose proof (scheme_nth h lam m N t Hm ltac:(lia)) as En. cbv zeta in En. fold nodes in En. rewrite !En. destruct (Nat.eqb_spec t 0); [lia|]. unfold extra. cbn [fst].
  pose proof (node_in h lam m t) as Hin. set (nd := ModelQuad.de_int_node h lam (Z.of_nat m) t) in *.
  replace (1 + ModelQuad.de_x nd)%R with (1 - - ModelQuad.de_x nd)%R by ring.
  rewrite !extra_root by (lia || lra). rewrite !over_extra by lra.
  destruct (over_root _ _ (ModelQuad.de_x nd)); cbn [bind]; try reflexivity. destruct (over_root _ _ (- ModelQuad.de_x nd)%R); cbn [bind]; try reflexivity.
  destruct (pair_blocks _ _ _ _ _ _ _ _); cbn [bind]; try reflexivity. apply IH; lia.
Qed.

Lemma de_same fac : de_integrals_ajm y d nodes (extra_factors m nodes) N fac = de_integrals (fun t => Done (fdiv t)) d nodes N fac.
Proof using Hy Hm.
  unfold de_integrals_ajm, de_integrals. rewrite extra_nth by lia. pose proof (scheme_nth h lam m N 0 Hm ltac:(lia)) as En. cbv zeta in En. fold nodes in En. rewrite !En. cbn [Nat.eqb].
  assert (R1 : rroot (Z.of_nat m) (1 - 0) = 1%R).
  { rewrite <- extra_root by (lia || lra). replace (1 - 0)%R with 1%R by ring. unfold Rpower. rewrite ln_1, Rmult_0_r. apply exp_0. }
  rewrite <- R1 at 1. rewrite over_extra by lra.
  destruct (over_root _ _ 0%R); cbn [bind]; try reflexivity. destruct (zero_blocks _ _ _ _ _); cbn [bind]; try reflexivity.
  destruct (Nat.eq_dec N 0) as [E|E]; [rewrite E; reflexivity|]. rewrite de_loop_same by lia. reflexivity.
Qed.
End De.

Definition integrand_to (m : Z) (f : R -> C) (j i : nat) (t : R) : C := (cpow (RtoC t) i / cpow (RtoC (rroot m (1 + t)) * f t) j)%C.

Lemma rroot_split m t : 0 < m -> (-1 < t < 1)%R -> rroot (Z.of_nat m) (1 - t * t) = (rroot (Z.of_nat m) (1 - t) * rroot (Z.of_nat m) (1 + t))%R.
Proof.
  intros Hm Ht. unfold rroot. destruct (Rlt_dec 0 (1 - t * t)); [|nra]. destruct (Rlt_dec 0 (1 - t)); [|lra]. destruct (Rlt_dec 0 (1 + t)); [|lra].
  rewrite Rpower_mult_distr by lra. f_equal. ring.
Qed.

Lemma de_to_ok (y : R -> outcome C) (f : R -> C) d h lam m N : 0 < m -> (forall t, (-1 < t < 1)%R -> y t = Done (f t) /\ f t <> RtoC 0) ->
  (forall k, In k (md_df d) -> (1 <= k)%Z) -> Z.of_nat (total (md_df d)) = md_g d ->
  let nodes := de_scheme h lam N m in
  exists v, de_integrals_ajm y d nodes (extra_factors m nodes) N (lam * h) = Done v /\ length v = Z.to_nat (md_g d) /\
    forall q i, q < length (md_df d) -> (Z.of_nat i < nth q (md_df d) 0)%Z ->
      vget v (offset (md_df d) q + i) = de_rule lam h (N - 1) (integrand_to (Z.of_nat m) f (Z.to_nat (md_jm d) + q) i).
Proof.
  intros Hm Hy Hdf Hg nodes. unfold nodes. rewrite (de_same y f d h lam m N Hm Hy).
  destruct (de_integrals_ok (fun t => Done (fdiv f m t)) (fdiv f m) d h lam m N Hm) as (v & Ev & Lv & Hv).
  { intros t Ht. split; [reflexivity|]. apply (fdiv_neq y f m Hy t Ht). } { exact Hdf. } { exact Hg. }
  exists v. split; [exact Ev|]. split; [exact Lv|]. intros q i Hq Hi. rewrite Hv by assumption.
  apply (de_is_rule lam h (N - 1)). intros t Ht. unfold integrand, integrand_to, fdiv. f_equal. f_equal.
  rewrite rroot_split, RtoC_mult by (lia || assumption). field. apply ProofTrap.RtoC_neq, Rgt_not_eq, ProofTrap.rroot_gt. lra.
Qed.

(** ** Gauss-Jacobi *)
Section Gj.
Context (y : R -> outcome C) (f : R -> C) (N : nat) (jpows : list Z).
Hypothesis Hy : forall t, (-1 < t < 1)%R -> y t = Done (f t) /\ f t <> RtoC 0.

Definition good_to (s : gj_scheme) : Prop := N <= length (fst s) /\ N <= length (snd s) /\ forall t, t < N -> (-1 < nth t (fst s) 0 < 1)%R.
Definition jterm_to (sch : list gj_scheme) (jq : nat -> nat) t q l : C :=
  (RtoC (nth t (wq sch q) 0%R) * (cpow (RtoC 1 / f (nth t (xq sch q) 0%R)) (jq q) * cpow (RtoC (nth t (xq sch q) 0%R)) l))%C.

Lemma gj_blocks_to sch t : t < N -> (forall q, q < length sch -> good_to (xq sch q, wq sch q)) -> forall df j ct v,
  (forall k, In k df -> (1 <= k)%Z) -> j + length df <= length sch -> ct + total df <= length v -> forall jm : Z,
  (forall q, q < length df -> nth_error jpows (ct + offset df q) = Some (jm + Z.of_nat q)%Z) ->
  exists v', gj_blocks_ajm y df j ct sch jpows t v = Done v' /\
    added df ct v v' (fun q l => jterm_to sch (fun p => Z.to_nat (jm + Z.of_nat (p - j))) t (j + q) l).
Proof using Hy.
  intros Ht Hs. induction df as [|k df IH]; intros j ct v Hdf Hj Hv jm Hjp; cbn [gj_blocks_ajm].
  - exists v. split; [reflexivity|apply added_nil].
  - cbn [length total] in *. pose proof (Hdf k (or_introl eq_refl)) as Hk. rewrite scheme_at by lia.
    destruct (Hs j ltac:(lia)) as (X & W & I). cbn [fst snd] in *.
    rewrite rread_ok by lia. cbn [bind]. specialize (I t Ht). set (x := nth t (xq sch j) 0%R) in *.
    destruct (Hy x I) as [Y1 F1].
    rewrite (over_root_ok y _ _ _ Y1 F1). cbn [bind].
    rewrite rread_ok by lia. cbn [bind]. unfold sread at 1. pose proof (Hjp 0 ltac:(lia)) as J0. cbn [offset] in J0. rewrite Nat.add_0_r in J0. rewrite J0. cbn [bind].
    replace (S (Z.to_nat k - 1)) with (Z.to_nat k) by lia.
    match goal with |- context [add_powers _ _ ?p1 ?p2 _ _] => destruct (add_powers_ok x (Z.to_nat k) ct p1 p2 v ltac:(lia)) as (v1 & E1 & L1 & O1 & I1) end.
    rewrite E1. cbn [bind].
    destruct (IH (S j) (ct + Z.to_nat k) v1 (fun z Hz => Hdf z (or_intror Hz)) ltac:(lia) ltac:(lia) (jm + 1)%Z) as (v2 & E2 & A2).
    { intros q Hq. specialize (Hjp (S q) ltac:(lia)). cbn [offset] in Hjp. rewrite <- Nat.add_assoc, Hjp. f_equal. lia. }
    exists v2. split; [exact E2|]. apply (added_cons k df ct v v1 v2); [exact Hk|exact L1|exact O1| |].
    + intros l Hl. rewrite I1 by exact Hl. unfold jterm_to. rewrite Nat.add_0_r, Nat.sub_diag. fold x. change (Z.of_nat 0) with 0%Z. rewrite Z.add_0_r. ring.
    + eapply added_ext; [|exact A2]. intros q l _ _. cbn beta. replace (S j + q) with (j + S q) by lia. unfold jterm_to.
      replace (jm + 1 + Z.of_nat (j + S q - S j))%Z with (jm + Z.of_nat (j + S q - j))%Z by lia. reflexivity.
Qed.
End Gj.

Lemma node_is_rule N xs ws : (forall t, t < N -> (-1 < nth t xs 0 < 1)%R) -> rule (node_rule N xs ws).
Proof.
  intros H. unfold node_rule. split; [|split].
  - intros F G E. apply csum_ext. intros k Hk. rewrite E by exact (H k Hk). reflexivity.
  - intros F G. rewrite <- csum_add. apply csum_ext. intros k _. ring.
  - intros c F. rewrite <- csum_scal. apply csum_ext. intros k _. ring.
Qed.

Lemma gj_to_ok (y : R -> outcome C) (f : R -> C) m d sch N : (forall t, (-1 < t < 1)%R -> y t = Done (f t) /\ f t <> RtoC 0) ->
  0 < m -> (1 <= md_jm d)%Z -> (forall k, In k (md_df d) -> (1 <= k)%Z) -> Z.of_nat (total (md_df d)) = md_g d ->
  (forall q, q < length (md_df d) -> nth_error (md_jpows d) (offset (md_df d) q) = Some (md_jm d + Z.of_nat q)%Z) ->
  length sch = length (md_df d) -> (forall q, q < length sch -> good_to N (xq sch q, wq sch q)) ->
  exists v, gj_integrals_ajm y d sch N = Done v /\ length v = Z.to_nat (md_g d) /\
    forall q i, q < length (md_df d) -> (Z.of_nat i < nth q (md_df d) 0)%Z ->
      vget v (offset (md_df d) q + i) = node_rule N (xq sch q) (wq sch q)
        (fun t => cpow (RtoC (rroot (Z.of_nat m) (1 + t))) (Z.to_nat (md_jm d) + q) * integrand_to (Z.of_nat m) f (Z.to_nat (md_jm d) + q) i t)%C.
Proof.
  intros Hy Hm Hj Hdf Hg Hjp HL Hs. set (jq := fun p => Z.to_nat (md_jm d + Z.of_nat (p - 0))).
  assert (Loop : forall todo t v, t + todo <= N -> total (md_df d) <= length v ->
    exists v', gj_loop_ajm y d sch todo t v = Done v' /\ added (md_df d) 0 v v' (fun q l => csum todo (fun i => jterm_to f sch jq (t + i) q l))).
  { induction todo as [|todo IH]; intros t v Ht Hv; cbn [gj_loop_ajm].
    - exists v. split; [reflexivity|]. split; [reflexivity|]. split; [reflexivity|]. intros q l _ _. cbn [csum]. ring.
    - destruct (gj_blocks_to y f N (md_jpows d) Hy sch t ltac:(lia) Hs (md_df d) 0 0 v Hdf ltac:(lia) ltac:(lia) (md_jm d) Hjp) as (v1 & E1 & A1).
      rewrite E1. cbn [bind]. destruct (IH (S t) v1) as (v2 & E2 & A2); [lia|destruct A1 as (L1 & _); lia|].
      exists v2. split; [exact E2|]. eapply added_ext; [|exact (added_trans _ _ _ _ _ _ _ A1 A2)]. intros q l _ _. cbn beta.
      rewrite csum_S_l, Nat.add_0_r, Nat.add_0_l. rewrite (csum_ext todo (fun i => jterm_to f sch jq (t + S i) q l) (fun i => jterm_to f sch jq (S t + i) q l)) by (intros i _; f_equal; lia).
      reflexivity. }
  unfold gj_integrals_ajm. set (v0 := repeat (RtoC 0) (Z.to_nat (md_g d))). assert (L0 : length v0 = Z.to_nat (md_g d)) by apply repeat_length.
  destruct (Loop N 0 v0) as (v1 & E1 & (L1 & _ & I1)); [lia|lia|]. exists v1. split; [exact E1|]. split; [lia|].
  intros q i Hq Hi. specialize (I1 q i Hq Hi). cbn [Nat.add] in I1. rewrite I1. unfold v0. rewrite vget_repeat, Cplus_0_l.
  destruct (Hs q ltac:(lia)) as (_ & _ & Hin). cbn [fst] in Hin. unfold node_rule. apply csum_ext. intros t Ht. specialize (Hin t Ht). unfold jterm_to, jq. f_equal.
  set (s := nth t (xq sch q) 0%R) in *. rewrite Nat.sub_0_r. replace (Z.to_nat (md_jm d + Z.of_nat q)) with (Z.to_nat (md_jm d) + q) by lia. set (J := Z.to_nat (md_jm d) + q).
  destruct (Hy s Hin) as [_ Fs]. assert (Rt : RtoC (rroot (Z.of_nat m) (1 + s)) <> RtoC 0) by (apply ProofTrap.RtoC_neq, Rgt_not_eq, ProofTrap.rroot_gt; lra).
  assert (Fn := cpow_neq_0 _ J Fs). assert (Rn := cpow_neq_0 _ J Rt). unfold integrand_to. rewrite cpow_mul.
  assert (Ei : (cpow (RtoC 1 / f s) J * cpow (f s) J)%C = RtoC 1).
  { rewrite <- cpow_mul. replace (RtoC 1 / f s * f s)%C with (RtoC 1) by (field; exact Fs). apply cpow_one. }
  transitivity ((cpow (RtoC 1 / f s) J * cpow (f s) J) * cpow (RtoC s) i / cpow (f s) J)%C; [field; exact Fn|rewrite Ei; field; split; assumption].
Qed.

(** ** the constants *)
Section Entries.
Context (up m : nat) (s : Z) (jpows : list Z) (h z : C) (k1 k2 : nat).
Hypothesis Hm : 2 <= m.
Let f1 := h :: powers k1 h (h * h)%C.
Let f2 := z :: powers k2 z (z * z)%C.
Definition coef (j : Z) (i : nat) : C := (cis (PI * IZR (- (Z.of_nat up + 2 * s) * j) / INR m) * cpow h (S i) * cpow z (Z.to_nat j))%C.

Lemma ajm_block_ok j : (1 <= j)%Z -> Z.to_nat j <= S k2 -> forall todo i ct v,
  (forall l, l < todo -> nth_error jpows (ct + l) = Some j) -> i + todo <= S k1 -> ct + todo <= length v ->
  exists v', ajm_block up s m jpows (zetas m) f1 f2 todo i ct v = Done v' /\ length v' = length v /\
    (forall k, k < ct \/ ct + todo <= k -> vget v' k = vget v k) /\
    forall l, l < todo -> vget v' (ct + l) = (vget v (ct + l) * coef j (i + l))%C.
Proof using Hm.
  intros H1 H2. induction todo as [|todo IH]; intros i ct v Hj Hi Hct; cbn [ajm_block].
  - exists v. repeat split; intros; lia.
  - assert (Hj0 := Hj 0 ltac:(lia)). rewrite Nat.add_0_r in Hj0. unfold sread at 1. rewrite Hj0. cbn [bind]. rewrite zeta_ok by lia. cbn [bind].
    unfold f1, f2. rewrite pows_read by lia. cbn [bind]. destruct (Z.ltb_spec j 1); [lia|]. rewrite pows_read by lia. cbn [bind].
    rewrite vread_ok by lia. cbn [bind]. unfold vwrite. destruct (Nat.ltb_spec ct (length v)); [|lia]. cbn [bind].
    replace (S (Z.to_nat (j - 1))) with (Z.to_nat j) by lia. fold (coef j i). fold f1 f2.
    destruct (IH (S i) (S ct) (upd v ct (vget v ct * coef j i)%C)) as (v' & E & L & O & I).
    { intros l Hl. replace (S ct + l) with (ct + S l) by lia. apply Hj. lia. } { lia. } { rewrite upd_length. lia. }
    exists v'. split; [exact E|]. rewrite upd_length in L. split; [exact L|]. split.
    + intros k Hk. rewrite O by lia. rewrite vget_upd by lia. destruct (Nat.eqb_spec k ct); [lia|reflexivity].
    + intros [|l] Hl.
      * rewrite !Nat.add_0_r. rewrite O by lia. rewrite vget_upd by lia. rewrite Nat.eqb_refl. reflexivity.
      * replace (ct + S l) with (S ct + l) by lia. replace (i + S l) with (S i + l) by lia. rewrite I by lia. rewrite vget_upd by lia.
        destruct (Nat.eqb_spec (S ct + l) ct); [lia|reflexivity].
Qed.

Lemma ajm_blocks_ok : forall df j ct v, (1 <= j)%Z -> Z.to_nat j + length df <= S (S k2) ->
  (forall q l, q < length df -> (Z.of_nat l < nth q df 0)%Z -> nth_error jpows (ct + (offset df q + l)) = Some (j + Z.of_nat q)%Z) ->
  (forall k, In k df -> Z.to_nat k <= S k1) -> ct + total df <= length v ->
  exists v', ajm_blocks df up s m jpows (zetas m) f1 f2 ct v = Done v' /\ length v' = length v /\
    (forall k, k < ct \/ ct + total df <= k -> vget v' k = vget v k) /\
    forall q l, q < length df -> (Z.of_nat l < nth q df 0)%Z ->
      vget v' (ct + (offset df q + l)) = (vget v (ct + (offset df q + l)) * coef (j + Z.of_nat q) l)%C.
Proof using Hm.
  induction df as [|k df IH]; intros j ct v H1 H2 Hj Hk Hct; cbn [ajm_blocks total].
  - exists v. repeat split; intros; cbn in *; lia.
  - cbn [length total] in *.
    destruct (ajm_block_ok j H1 ltac:(lia) (Z.to_nat k) 0 ct v) as (v1 & E1 & L1 & O1 & I1).
    { intros l Hl. specialize (Hj 0 l ltac:(lia)). cbn [nth offset] in Hj. rewrite Nat.add_0_l, Z.add_0_r in Hj. apply Hj. lia. }
    { specialize (Hk k (or_introl eq_refl)). lia. } { lia. }
    rewrite E1. cbn [bind].
    destruct (IH (j + 1)%Z (ct + Z.to_nat k) v1) as (v2 & E2 & L2 & O2 & I2).
    { lia. } { lia. }
    { intros q l Hq Hl. specialize (Hj (S q) l ltac:(lia) Hl). cbn [offset] in Hj.
      replace (ct + Z.to_nat k + (offset df q + l)) with (ct + (Z.to_nat k + offset df q + l)) by lia. rewrite Hj. f_equal. lia. }
    { intros x Hx. apply Hk. right. exact Hx. } { lia. }
    exists v2. split; [exact E2|]. split; [congruence|]. split.
    { intros i Hi. rewrite O2 by lia. apply O1. lia. }
    intros [|q] l Hq Hl; cbn [offset nth] in *.
    + rewrite Nat.add_0_l. change (Z.of_nat 0) with 0%Z. rewrite Z.add_0_r. rewrite O2 by lia. apply I1. lia.
    + specialize (I2 q l ltac:(lia) Hl). replace (j + Z.of_nat (S q))%Z with (j + 1 + Z.of_nat q)%Z by lia.
      replace (ct + (Z.to_nat k + offset df q + l)) with (ct + Z.to_nat k + (offset df q + l)) by lia. rewrite I2, O1 by lia. reflexivity.
Qed.
End Entries.

Lemma change_ok m lc : forall v jpows, (forall k, k < length v -> exists j, nth_error jpows k = Some j) ->
  exists r, change_differentials m lc jpows v = Done r /\ length r = length v /\
    forall k j, k < length v -> nth_error jpows k = Some j -> vget r k = (cexp (RtoC (IZR j) * (- RtoC (1 / INR m) * clog lc)) * vget v k)%C.
Proof.
  induction v as [|z v IH]; intros jpows H; cbn [change_differentials].
  - exists []. split; [reflexivity|]. split; [reflexivity|]. intros k j Hk. cbn in Hk. lia.
  - destruct jpows as [|jp jpows]; [destruct (H 0 ltac:(cbn; lia)) as (j & E); discriminate|].
    destruct (IH jpows) as (r & E & L & I). { intros k Hk. apply (H (S k)). cbn. lia. }
    rewrite E. cbn [bind]. eexists. split; [reflexivity|]. split; [cbn; lia|]. intros [|k] j Hk Ej; cbn in Ej.
    + injection Ej as ->. reflexivity.
    + change (vget (?a :: r) (S k)) with (vget r k). change (vget (z :: v) (S k)) with (vget v k). apply I; [cbn in Hk; lia|exact Ej].
Qed.
