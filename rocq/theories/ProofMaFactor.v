(** The constants of an edge in the Magma package. *)
From Coq Require Import FunctionalExtensionality.
From Verif Require Import CArg ModelTree ModelVec ModelPeriod ModelTurn ModelMaRoot ModelMaDiff ModelMaFactor SpecVec SpecPeriod SpecCurve SpecMaRoot SpecMaFactor ProofVec ProofPeriod ProofErr5 ProofMaRoot ProofMaRoot2 ProofMaRoot3 ProofMaDiff SpecEdge.
Local Open Scope nat_scope.

Lemma powers_length z : forall k c, length (powers k z c) = k.
Proof. induction k as [|k IH]; intros c; cbn; [|rewrite IH]; reflexivity. Qed.
Lemma powers_get z : forall k c i, i < k -> vget (powers k z c) i = (c * cpow z i)%C.
Proof.
  induction k as [|k IH]; intros c i Hi; [lia|]. cbn [powers]. destruct i as [|i]; [cbn; ring|].
  change (vget (c :: powers k z (z * c)%C) (S i)) with (vget (powers k z (z * c)%C) i).
  rewrite IH by lia. rewrite cpow_S. ring.
Qed.
Lemma pows_read z k i : i <= k -> vread (z :: powers k z (z * z)%C) i = Done (cpow z (S i)).
Proof.
  intros Hi. rewrite vread_ok by (cbn [length]; rewrite powers_length; lia). f_equal. destruct i as [|i].
  - cbn. ring.
  - change (vget (z :: powers k z (z * z)%C) (S i)) with (vget (powers k z (z * z)%C) i).
    rewrite powers_get by lia. rewrite !cpow_S. ring.
Qed.

Lemma zeta_ok m w : 0 < m -> zeta (zetas m) m w = Done (cis (PI * IZR w / INR m)).
Proof. apply zetas_read. Qed.
Lemma zeta_root m w : 0 < m -> zeta (zetas m) m (-2 * w) = Done (root (Z.of_nat m) (- w)).
Proof.
  intros Hm. rewrite zeta_ok by exact Hm. unfold root. do 2 f_equal.
  rewrite mult_IZR, opp_IZR, <- INR_IZR_INZ. field. apply not_0_INR. lia.
Qed.

Lemma rows_ok m jp y : 0 < m -> forall todo l, exists r, sheet_rows (zetas m) m jp y todo l = Done r /\ length r = todo /\
  forall i, i < todo -> vget r i = (root (Z.of_nat m) (- (Z.of_nat (l + i) * jp)) * y)%C.
Proof.
  intros Hm. induction todo as [|todo IH]; intros l; cbn [sheet_rows].
  - exists []. repeat split. intros i Hi. lia.
  - replace (-2 * Z.of_nat l * jp)%Z with (-2 * (Z.of_nat l * jp))%Z by ring. rewrite zeta_root by exact Hm. cbn [bind].
    destruct (IH (S l)) as (r & E & HL & Hr). rewrite E. cbn [bind].
    eexists. split; [reflexivity|]. split; [cbn; rewrite HL; reflexivity|]. intros [|i] Hi.
    + cbn. rewrite Nat.add_0_r. reflexivity.
    + change (vget (?a :: r) (S i)) with (vget r i). rewrite Hr by lia. do 5 f_equal. lia.
Qed.

Section Entries.
Context (v : vec) (up m : nat) (jpows : list Z) (h z : C) (k1 k2 : nat).
Hypothesis Hm : 2 <= m.
Let f1 := h :: powers k1 h (h * h)%C.
Let f2 := z :: powers k2 z (z * z)%C.
Let r := Z.of_nat ((up + 1) mod 2).

Definition entry (j : Z) (i ct : nat) : C := (vget v ct * (cis (PI * IZR (- r * j) / INR m) * cpow h (S i) * cpow z (Z.to_nat j)))%C.

Lemma entry_ok j i ct : nth_error jpows ct = Some j -> (1 <= j)%Z -> Z.to_nat j <= S k2 -> i <= k1 -> ct < length v ->
  exists row, de_entry v up m jpows (zetas m) f1 f2 i ct = Done (row, entry j i ct) /\ row_ok m j row (entry j i ct).
Proof using Hm.
  intros Hj H1 H2 Hi Hct. unfold de_entry, sread. rewrite Hj. cbn [bind]. rewrite zeta_ok by lia. cbn [bind].
  unfold f1, f2. rewrite pows_read by exact Hi. cbn [bind].
  destruct (Z.ltb_spec j 1); [lia|]. rewrite pows_read by lia. cbn [bind]. rewrite vread_ok by exact Hct. cbn [bind].
  rewrite zeta_root by lia. cbn [bind]. replace (S (Z.to_nat (j - 1))) with (Z.to_nat j) by lia.
  fold r. fold (entry j i ct).
  destruct (rows_ok m j (entry j i ct * (RtoC 1 - root (Z.of_nat m) (- j)))%C ltac:(lia) (m - 2) 1) as (rr & E & HL & Hr).
  rewrite E. cbn [bind]. eexists. split; [reflexivity|]. split; [cbn; lia|].
  intros [|l] Hl.
  - unfold vget; cbn [nth]. change (- (Z.of_nat 0 * j))%Z with 0%Z. replace (- ((Z.of_nat 0 + 1) * j))%Z with (- j)%Z by lia.
    assert (E0 : root (Z.of_nat m) 0 = RtoC 1) by (rewrite <- (Z.mul_0_r (Z.of_nat m)); apply root_mult; lia).
    rewrite E0. ring.
  - change (vget (?a :: rr) (S l)) with (vget rr l). rewrite Hr by lia.
    replace (- ((Z.of_nat (S l) + 1) * j))%Z with (- (Z.of_nat (S l) * j) + - j)%Z by ring. rewrite root_add.
    replace (Z.of_nat (1 + l)) with (Z.of_nat (S l)) by lia. ring.
Qed.

Lemma block_ok j : (1 <= j)%Z -> Z.to_nat j <= S k2 -> forall todo i ct,
  (forall l, l < todo -> nth_error jpows (ct + l) = Some j) -> i + todo <= S k1 -> ct + todo <= length v ->
  exists P E, de_block v up m jpows (zetas m) f1 f2 todo i ct = Done (P, E) /\ length P = todo /\ length E = todo /\
    forall l, l < todo -> vget E l = entry j (i + l) (ct + l) /\
      exists row, nth_error P l = Some row /\ row_ok m j row (vget E l).
Proof using Hm.
  intros H1 H2. induction todo as [|todo IH]; intros i ct Hj Hi Hct; cbn [de_block].
  - exists [], []. repeat split; intros; lia.
  - assert (Hj0 := Hj 0 ltac:(lia)). rewrite Nat.add_0_r in Hj0.
    destruct (entry_ok j i ct Hj0 H1 H2 ltac:(lia) ltac:(lia)) as (row & E & Hrow). rewrite E. cbn [bind].
    destruct (IH (S i) (S ct)) as (P & EE & E2 & HP & HE & HH).
    { intros l Hl. replace (S ct + l) with (ct + S l) by lia. apply Hj. lia. } { lia. } { lia. }
    rewrite E2. cbn [bind fst snd]. eexists _, _. split; [reflexivity|]. cbn [length]. split; [lia|]. split; [lia|].
    intros [|l] Hl.
    + rewrite !Nat.add_0_r. split; [reflexivity|]. exists row. split; [reflexivity|exact Hrow].
    + destruct (HH l ltac:(lia)) as (G1 & G2). replace (i + S l) with (S i + l) by lia. replace (ct + S l) with (S ct + l) by lia.
      split; [exact G1|exact G2].
Qed.

Lemma blocks_ok : forall df j ct, (1 <= j)%Z -> Z.to_nat j + length df <= S (S k2) ->
  (forall q l, q < length df -> (Z.of_nat l < nth q df 0)%Z -> nth_error jpows (ct + (offset df q + l)) = Some (j + Z.of_nat q)%Z) ->
  (forall k, In k df -> Z.to_nat k <= S k1) -> ct + total df <= length v ->
  exists P E, de_blocks df v up m jpows (zetas m) f1 f2 ct = Done (P, E) /\ length P = total df /\ length E = total df /\
    forall q l, q < length df -> (Z.of_nat l < nth q df 0)%Z ->
      vget E (offset df q + l) = entry (j + Z.of_nat q) l (ct + (offset df q + l)) /\
      exists row, nth_error P (offset df q + l) = Some row /\ row_ok m (j + Z.of_nat q) row (vget E (offset df q + l)).
Proof using Hm.
  induction df as [|k df IH]; intros j ct H1 H2 Hj Hk Hct; cbn [de_blocks total].
  - exists [], []. repeat split; intros; cbn in *; lia.
  - cbn [length total] in *.
    destruct (block_ok j H1 ltac:(lia) (Z.to_nat k) 0 ct) as (P1 & E1 & EB & HP1 & HE1 & HB).
    { intros l Hl. specialize (Hj 0 l ltac:(lia)). cbn [nth offset] in Hj. rewrite Nat.add_0_l, Z.add_0_r in Hj. apply Hj. lia. }
    { specialize (Hk k (or_introl eq_refl)). lia. } { lia. }
    rewrite EB. cbn [bind].
    destruct (IH (j + 1)%Z (ct + Z.to_nat k)) as (P2 & E2 & ER & HP2 & HE2 & HR).
    { lia. } { lia. }
    { intros q l Hq Hl. specialize (Hj (S q) l ltac:(lia) Hl). cbn [offset] in Hj.
      replace (ct + Z.to_nat k + (offset df q + l)) with (ct + (Z.to_nat k + offset df q + l)) by lia. rewrite Hj. f_equal. lia. }
    { intros x Hx. apply Hk. right. exact Hx. } { lia. }
    rewrite ER. cbn [bind fst snd]. eexists _, _. split; [reflexivity|]. rewrite !app_length. split; [lia|]. split; [lia|].
    intros [|q] l Hq Hl; cbn [offset nth] in *.
    + rewrite Nat.add_0_l, Z.add_0_r. assert (Hl' : l < Z.to_nat k) by lia. destruct (HB l Hl') as (G1 & row & G2 & G3).
      assert (EV : vget (E1 ++ E2) l = vget E1 l) by (unfold vget; apply app_nth1; lia).
      rewrite EV. split; [exact G1|]. exists row. split; [rewrite nth_error_app1 by lia; exact G2|exact G3].
    + destruct (HR q l ltac:(lia) Hl) as (G1 & row & G2 & G3).
      assert (EV : vget (E1 ++ E2) (Z.to_nat k + offset df q + l) = vget E2 (offset df q + l)).
      { unfold vget. rewrite app_nth2 by lia. f_equal. lia. }
      rewrite EV. replace (j + Z.of_nat (S q))%Z with (j + 1 + Z.of_nat q)%Z by lia.
      replace (ct + (Z.to_nat k + offset df q + l)) with (ct + Z.to_nat k + (offset df q + l)) by lia.
      split; [exact G1|]. exists row. split; [|exact G3]. rewrite nth_error_app2 by lia. rewrite <- G2. f_equal. lia.
Qed.
End Entries.

Lemma shift_blocks_ok s : forall df (L : nat -> (C -> C) -> C) ct v, (forall q, linear_functional (L q)) -> ct + total df <= length v ->
  (forall q, q < length df -> moments (L q) v (ct + offset df q) (Z.to_nat (nth q df 0%Z))) ->
  exists v', shift_blocks df ct s v = Done v' /\ length v' = length v /\
    (forall k, k < ct \/ ct + total df <= k -> vget v' k = vget v k) /\
    forall q l, q < length df -> (Z.of_nat l < nth q df 0)%Z -> vget v' (ct + (offset df q + l)) = L q (fun t => cpow (t + s)%C l).
Proof.
  induction df as [|k df IH]; intros L ct v HL Hlen Hmom; cbn [shift_blocks total].
  - exists v. repeat split; intros; try reflexivity; cbn in *; lia.
  - cbn [total length] in *.
    assert (Hm0 : moments (L 0) v ct (Z.to_nat k)).
    { specialize (Hmom 0 ltac:(lia)). cbn [offset nth] in Hmom. rewrite Nat.add_0_r in Hmom. exact Hmom. }
    destruct (shift_functional (L 0) v ct (Z.to_nat k) s (HL 0) ltac:(lia) Hm0) as (v1 & E1 & HL1 & Hin1 & Hout1).
    rewrite E1. cbn [bind].
    destruct (IH (fun q => L (S q)) (ct + Z.to_nat k) v1) as (v' & E & HL' & Hout & Hin).
    { intros q. apply HL. } { lia. }
    { intros q Hq l Hl. specialize (Hmom (S q) ltac:(lia)). cbn [offset nth] in Hmom.
      rewrite Hout1 by lia. replace (ct + Z.to_nat k + offset df q + l) with (ct + (Z.to_nat k + offset df q) + l) by lia. apply Hmom, Hl. }
    exists v'. split; [exact E|]. split; [congruence|]. split.
    + intros i Hi. rewrite Hout by lia. apply Hout1. lia.
    + intros [|q] l Hq Hl; cbn [nth offset] in *.
      * rewrite Hout by lia. rewrite Nat.add_0_l. apply Hin1. lia.
      * specialize (Hin q l ltac:(lia) Hl). cbn beta in Hin. rewrite <- Hin. f_equal. lia.
Qed.
