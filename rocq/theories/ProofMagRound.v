(** The subdivision of 1 +- 2^-35 in 3 pieces at 64 bits misses the left end. *)
From Coq Require Import Reals Lra Lia.
From Flocq Require Import Core.
From Verif Require Import Base ModelMag SpecMag ModelMagRound SpecMagRound.
Local Open Scope R_scope.

Lemma nearest_at p x e z : bpow radix2 (e - 1) <= Rabs x < bpow radix2 e ->
  Rabs (x * bpow radix2 (p - e) - IZR z) < / 2 -> nearest p x = IZR z * bpow radix2 (e - p).
Proof.
  intros He Hz. unfold nearest, round, scaled_mantissa, cexp. rewrite (mag_unique radix2 x e He). unfold FLX_exp.
  replace (- (e - p))%Z with (p - e)%Z by ring.
  rewrite (Znearest_imp (fun x => negb (Z.even x)) _ z Hz). reflexivity.
Qed.

Definition r0 : R := 6004799503160661 * / IZR (2 ^ 89).
Ltac pw :=
  repeat match goal with |- context [bpow radix2 ?e] => let v := eval vm_compute in e in progress change e with v end;
  cbn [bpow];
  repeat match goal with |- context [Z.pow_pos ?a ?b] => let v := eval vm_compute in (Z.pow_pos a b) in change (Z.pow_pos a b) with v end;
  repeat match goal with |- context [Z.pow ?a ?b] => let v := eval vm_compute in (Z.pow a b) in change (Z.pow a b) with v end.

Lemma div_r0 : div_dbl (/ IZR (2 ^ 35)) 3 = r0.
Proof.
  unfold div_dbl. rewrite (nearest_at 53 _ (-36) 6004799503160661).
  - unfold r0. pw. reflexivity.
  - replace (INR 3) with 3 by (cbn [INR]; ring). rewrite Rabs_right by (pw; lra). pw. lra.
  - replace (INR 3) with 3 by (cbn [INR]; ring). apply Rabs_def1; pw; lra.
Qed.
Definition mt0 : R := 18446744073351637675 * / IZR (2 ^ 64).
Lemma mid_r0 : mid_dbl 64 1 r0 3 = mt0.
Proof.
  unfold mid_dbl. replace (INR 3) with 3 by (cbn [INR]; ring).
  rewrite (nearest_at 53 (r0 * (1 - 3)) (-35) (-6004799503160661)).
  - rewrite (nearest_at 64 _ 0 18446744073351637675).
    + unfold mt0. pw. reflexivity.
    + rewrite Rabs_right by (pw; lra). pw. lra.
    + apply Rabs_def1; pw; lra.
  - unfold r0. rewrite Rabs_left by (pw; lra). pw. lra.
  - unfold r0. apply Rabs_def1; pw; lra.
Qed.
Definition rt0 : R := 715827883 * / IZR (2 ^ 66).
Lemma mag_r0 : mag_set_d r0 = rt0.
Proof.
  unfold mag_set_d. rewrite (mag_unique radix2 r0 (-36)).
  - rewrite (Zfloor_imp 715827882).
    + unfold rt0. pw. reflexivity.
    + unfold r0. rewrite plus_IZR. pw. lra.
  - unfold r0. rewrite Rabs_right by (pw; lra). pw. lra.
Qed.

Definition x0 : R := 1 - / IZR (2 ^ 35).
Definition spike (x : R) : R := if Req_EM_T x x0 then 1 else 0.
Definition spike_ball (t : ball) : option ball :=
  if Rle_dec (fst t - snd t) x0 then if Rle_dec x0 (fst t + snd t) then Some (/ 2, / 2) else Some (0, 0) else Some (0, 0).
Lemma spike_sound : encloses spike_ball spike.
Proof.
  intros t y E x [H1 H2]. unfold spike_ball in E. unfold spike, inb.
  destruct (Rle_dec (fst t - snd t) x0), (Rle_dec x0 (fst t + snd t)); injection E as <-; cbn [fst snd];
    destruct (Req_EM_T x x0) as [->|]; lra.
Qed.
Lemma spike_right t : x0 < fst t - snd t -> spike_ball t = Some (0, 0).
Proof. intros H. unfold spike_ball. destruct (Rle_dec (fst t - snd t) x0); [lra|reflexivity]. Qed.
Lemma union_0 : exact_union (0, 0) (0, 0) = (0, 0).
Proof. unfold exact_union. cbn [fst snd]. rewrite Rmin_left, Rmax_left by lra. f_equal; lra. Qed.

Lemma missed depth add : near_add add ->
  bound_func div_dbl (mid_dbl 64) mag_set_d add exact_union spike_ball (fun _ => true) (S depth) (1, / IZR (2 ^ 35)) 3
  = Done (0, 0).
Proof.
  intros Hadd. cbn [bound_func snd]. destruct (Req_EM_T (/ IZR (2 ^ 35)) 0) as [E|_].
  { exfalso. revert E. pw. lra. }
  unfold subdivide. cbn [fst snd]. rewrite div_r0, mid_r0, mag_r0.
  destruct (Hadd (mt0, rt0) (2 * r0)) as [A1 A2].
  { cbn [fst]. unfold mt0. apply Rabs_le. pw. lra. }
  { unfold r0. apply Rabs_le. pw. lra. }
  destruct (Hadd (add (mt0, rt0) (2 * r0)) (2 * r0)) as [B1 B2].
  { apply Rabs_le. apply Rabs_le_inv in A1. revert A1. cbn [fst]. unfold mt0, r0. pw. lra. }
  { unfold r0. apply Rabs_le. pw. lra. }
  apply Rabs_le_inv in A1; apply Rabs_le_inv in B1. cbn [fst snd] in *.
  cbn [pieces]. rewrite (spike_right (mt0, rt0)).
  2:{ cbn [fst snd]. unfold mt0, rt0, x0. pw. lra. }
  rewrite (spike_right (add (mt0, rt0) (2 * r0))).
  2:{ revert A1 A2. unfold mt0, rt0, x0, r0. pw. lra. }
  rewrite (spike_right (add (add (mt0, rt0) (2 * r0)) (2 * r0))).
  2:{ revert A1 A2 B1 B2. unfold mt0, rt0, x0, r0. pw. lra. }
  cbn [bind]. rewrite !union_0. reflexivity.
Qed.
