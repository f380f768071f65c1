(** Points at infinity in the Magma package: the values. *)
From Coquelicot Require Import Coquelicot.
From Verif Require Import CArg ModelTree ModelVec ModelPeriod ModelTurn ModelMaInter ModelMaDivisor ModelMaRam ModelMaInfty SpecMaDivisor SpecMaInfty ProofMaAjm ProofMaInfty SpecEdge.
Local Open Scope nat_scope.

Lemma int_add a b : integer a -> integer b -> integer (a + b).
Proof. intros (z & ->) (z' & ->). exists (z + z')%Z. rewrite plus_IZR. reflexivity. Qed.
Lemma int_sub a b : integer a -> integer b -> integer (a - b).
Proof. intros (z & ->) (z' & ->). exists (z - z')%Z. rewrite minus_IZR. reflexivity. Qed.
Lemma int_mul (k : Z) a : integer a -> integer (IZR k * a).
Proof. intros (z & ->). exists (k * z)%Z. rewrite mult_IZR. reflexivity. Qed.
Lemma int_round r : integer (round_off r - r).
Proof. exists (- round_near r)%Z. unfold round_off. rewrite opp_IZR. ring. Qed.
Lemma int_Z k : integer (IZR k).
Proof. exists k. reflexivity. Qed.

Lemma extend_app phi l l' : extend phi (l ++ l') = (extend phi l + extend phi l')%R.
Proof. induction l as [|[p v] l IH]; cbn [extend app]; [ring|rewrite IH; ring]. Qed.
Lemma extend_map {A} phi (f : A -> point) (v : Z) l : extend phi (map (fun k => (f k, v)) l) = (IZR v * extend phi (map (fun k => (f k, 1%Z)) l))%R.
Proof. induction l as [|k l IH]; cbn [map extend]; [ring|rewrite IH; ring]. Qed.
Lemma extend_remove phi x : NoDup x -> In (RtoC 0) x -> extend phi (ramified x 1) = (phi (PFin (RtoC 0) (RtoC 0)) + extend phi (ramified (remove Ceq_dec (RtoC 0) x) 1))%R.
Proof.
  induction x as [|p x IH]; intros Hd Hi; [destruct Hi|]. inversion Hd as [|? ? Np Hd']; subst. cbn [remove]. destruct (Ceq_dec (RtoC 0) p) as [<-|N].
  - rewrite notin_remove by exact Np. unfold ramified. cbn [map extend]. ring.
  - destruct Hi as [->|Hi]; [congruence|]. unfold ramified in *. cbn [map extend]. rewrite (IH Hd' Hi). ring.
Qed.
Lemma length_remove x : NoDup x -> In (RtoC 0) x -> length x = S (length (remove Ceq_dec (RtoC 0) x)).
Proof.
  induction x as [|p x IH]; intros Hd Hi; [destruct Hi|]. inversion Hd as [|? ? Np Hd']; subst. cbn [remove]. destruct (Ceq_dec (RtoC 0) p) as [<-|N].
  - rewrite notin_remove by exact Np. reflexivity.
  - destruct Hi as [->|Hi]; [congruence|]. cbn [length]. rewrite (IH Hd' Hi). reflexivity.
Qed.

Section Val.
Context (x : list C) (m delta M N : nat) (a b : Z) (phi : point -> R) (p0 : C).
Hypothesis Hm : m = M * delta.
Hypothesis Hn : length x = N * delta.
Hypothesis Hbz : (a * Z.of_nat M + b * Z.of_nat N = 1)%Z.
Hypothesis Hp0 : In p0 x.
Hypothesis Hphi0 : integer (phi (PFin p0 (RtoC 0))).
Hypothesis Hk : kills_coordinates m x delta M N phi.
Let S := extend phi (at_infinity delta 1).

Lemma inf_scale v : extend phi (at_infinity delta v) = (IZR v * S)%R.
Proof. unfold at_infinity, S. apply (extend_map phi (fun k => PInf (Z.of_nat k))). Qed.
Lemma ram_scale y v : extend phi (ramified y v) = (IZR v * extend phi (ramified y 1))%R.
Proof. unfold ramified. apply (extend_map phi (fun p => PFin p (RtoC 0))). Qed.
Lemma torsion : integer (IZR (Z.of_nat M) * S).
Proof using Hp0 Hphi0 Hk.
  pose proof (proj1 Hk p0 Hp0) as X. cbn [extend] in X. rewrite inf_scale, opp_IZR in X.
  replace (IZR (Z.of_nat M) * S)%R with (IZR (Z.of_nat m) * phi (PFin p0 (RtoC 0)) - (IZR (Z.of_nat m) * phi (PFin p0 (RtoC 0)) + - IZR (Z.of_nat M) * S))%R by ring.
  apply int_sub; [apply int_mul; exact Hphi0|exact X].
Qed.
Lemma y_rel : integer (extend phi (ramified x 1) - IZR (Z.of_nat N) * S).
Proof using Hk. pose proof (proj2 Hk) as X. rewrite extend_app, inf_scale, opp_IZR in X. match goal with |- integer ?g => match type of X with integer ?h => replace g with h by ring end end. exact X. Qed.

(** b times the sum of the ramification points *)
Lemma sum_right (b0 a0 : Z) (ram : list (nat -> R)) i : (a0 * Z.of_nat M + b0 * Z.of_nat N = 1)%Z -> Forall2 (fun v p => integer (v i - phi (PFin p (RtoC 0)))) ram x ->
  integer (sum_of_infty b0 ram i - S).
Proof using Hp0 Hphi0 Hk.
  intros Hbz0 Hram. unfold sum_of_infty.
  assert (R0 : integer (fold_right Rplus 0%R (map (fun v => v i) ram) - extend phi (ramified x 1))).
  { clear - Hram. unfold ramified. induction Hram as [|v p ram x Hv _ IH]; cbn [map fold_right extend]; [exists 0%Z; ring|].
    match goal with |- integer (v i + ?A - (1 * ?B + ?D)) => replace (v i + A - (1 * B + D))%R with ((v i - B) + (A - D))%R by ring end. apply int_add; assumption. }
  set (P := fold_right Rplus 0%R (map (fun v => v i) ram)) in *. pose proof (int_round (IZR b0 * P)) as I1. pose proof y_rel as I2. pose proof torsion as I3.
  assert (E : (IZR a0 * IZR (Z.of_nat M) + IZR b0 * IZR (Z.of_nat N) = 1)%R) by (rewrite <- !mult_IZR, <- plus_IZR, Hbz0; reflexivity).
  replace (round_off (IZR b0 * P) - S)%R with ((round_off (IZR b0 * P) - IZR b0 * P) + IZR b0 * (P - extend phi (ramified x 1)) + IZR b0 * (extend phi (ramified x 1) - IZR (Z.of_nat N) * S) - IZR a0 * (IZR (Z.of_nat M) * S))%R.
  2: { transitivity (round_off (IZR b0 * P) - (IZR a0 * IZR (Z.of_nat M) + IZR b0 * IZR (Z.of_nat N)) * S)%R; [ring|rewrite E; ring]. }
  apply int_sub; [|apply int_mul; exact I3]. apply int_add; [|apply int_mul; exact I2]. apply int_add; [exact I1|apply int_mul; exact R0].
Qed.

Lemma bad_value roots aj lc sum k y0 i v : NoDup x -> (0 < b)%Z -> 0 < M ->
  let nb := Z.to_nat b in let r := root (Z.of_nat delta) (Z.of_nat k) in let ts := roots (infty_poly x delta M nb r) in
  length ts = (M + nb) * length (remove Ceq_dec (RtoC 0) x) ->
  kills_line m x delta M N nb k y0 (map (infty_affine m lc M N a b r) (filter nonzero ts)) phi ->
  (forall l, integer (aj l i - extend phi l)) -> integer (sum i - S) ->
  infty_bad roots aj x m lc delta M N a b sum k = Done v ->
  integer (v i - (phi (PInf (Z.of_nat k)) - (1 + IZR b) * S)).
Proof using Hm Hn Hbz Hp0 Hphi0 Hk.
  intros Hd Hb HM nb r ts Lts (HZ & HL) Haj Hsum Ev. unfold infty_bad in Ev. fold nb r in Ev. fold ts in Ev.
  destruct (negb _); [discriminate|]. destruct (_ <? _); [discriminate|]. destruct (negb _); [discriminate|]. injection Ev as <-.
  assert (E : (IZR a * IZR (Z.of_nat M) + IZR b * IZR (Z.of_nat N) = 1)%R) by (rewrite <- !mult_IZR, <- plus_IZR, Hbz; reflexivity).
  assert (Enb : IZR (Z.of_nat nb) = IZR b) by (unfold nb; rewrite Z2Nat.id by lia; reflexivity).
  pose proof torsion as I1. pose proof y_rel as I2. set (P := extend phi (ramified x 1)) in *.
  assert (x0 : length x <> 0) by (destruct x; [destruct Hp0|discriminate]).
  assert (Emap : map (fun z => (PFin (fst z) (snd z), 1%Z)) (map (infty_affine m lc M N a b r) (filter nonzero ts)) =
    map (fun t => let p := infty_affine m lc M N a b r t in (PFin (fst p) (snd p), 1%Z)) (filter nonzero ts)) by (rewrite map_map; reflexivity).
  unfold line_divisor in HL. rewrite Emap in HL. set (pts := map (fun t => let p := infty_affine m lc M N a b r t in (PFin (fst p) (snd p), 1%Z)) (filter nonzero ts)) in *.
  rewrite !extend_app in HL. cbn [extend] in HL. set (A := phi (PInf (Z.of_nat k))) in *.
  cbv beta. match goal with |- context [aj ?l0 i] => set (l := l0) in * end.
  assert (El0 : l = pts ++ (if length ts =? (length x - 1) * (M + nb) then [(PFin (RtoC 0) (RtoC 0), Z.of_nat (N * m + M + nb))] else [])) by reflexivity. clearbody l. pose proof (Haj l) as I5. pose proof (int_round (- aj l i - IZR b * sum i)) as I7. set (V := round_off (- aj l i - IZR b * sum i)) in *.
  destruct (in_dec Ceq_dec (RtoC 0) x) as [Z0|Z0].
  - assert (Dg : length ts =? (length x - 1) * (M + nb) = true). { apply Nat.eqb_eq. rewrite Lts, (length_remove x Hd Z0). cbn [Nat.sub]. rewrite Nat.sub_0_r. apply Nat.mul_comm. }
    rewrite Dg in El0. rewrite (f_equal (extend phi) El0), extend_app in I5. cbn [extend] in I5. rewrite extend_app in HL. cbn [extend] in HL.
    rewrite ram_scale, !opp_IZR, minus_IZR, mult_IZR, Enb in HL.
    assert (EP : P = (phi (PFin (RtoC 0) (RtoC 0)) + extend phi (ramified (remove Ceq_dec (RtoC 0) x) 1))%R) by (apply extend_remove; assumption).
    pose proof (proj1 Hk _ Z0) as I8. cbn [extend] in I8. rewrite inf_scale, opp_IZR in I8.
    set (Pz := phi (PFin (RtoC 0) (RtoC 0))) in *. set (Q := extend phi (ramified (remove Ceq_dec (RtoC 0) x) 1)) in *. set (T := extend phi pts) in *.
    assert (El : IZR (Z.of_nat (N * m + M + nb)) = (IZR (Z.of_nat N) * IZR (Z.of_nat m) + IZR (Z.of_nat M) + IZR b)%R) by (rewrite !Nat2Z.inj_add, Nat2Z.inj_mul, !plus_IZR, mult_IZR, Enb; reflexivity).
    rewrite El in I5.
    match type of HL with integer ?h => set (H4 := h) in * end. match type of I5 with integer ?h => set (H5 := h) in * end. match type of I8 with integer ?h => set (H8 := h) in * end.
    replace (V - (A - (1 + IZR b) * S))%R with ((V - (- aj l i - IZR b * sum i)) - H5 - IZR b * (sum i - S) - H4 - IZR b * (P - IZR (Z.of_nat N) * S) - IZR (2 * Z.of_nat N) * H8 + IZR (a - 2 * Z.of_nat N) * (IZR (Z.of_nat M) * S))%R.
    + apply int_add; [|apply int_mul; assumption]. apply int_sub; [|apply int_mul; assumption]. apply int_sub; [|apply int_mul; assumption]. apply int_sub; [|assumption]. apply int_sub; [|apply int_mul; assumption]. apply int_sub; assumption.
    + unfold H4, H5, H8. rewrite EP, minus_IZR, !mult_IZR. match goal with |- ?L = ?R => transitivity (R + (IZR a * IZR (Z.of_nat M) + IZR b * IZR (Z.of_nat N) - 1) * S)%R; [ring|rewrite E; ring] end.
  - assert (Dg : length ts =? (length x - 1) * (M + nb) = false). { apply Nat.eqb_neq. rewrite Lts, notin_remove by exact Z0. destruct (length x) as [|n']; [congruence|]. cbn [Nat.sub]. rewrite Nat.sub_0_r. lia. }
    rewrite Dg, app_nil_r in El0. rewrite El0 in *. specialize (HZ Z0). rewrite extend_app in HZ, HL. rewrite inf_scale, opp_IZR in HZ. rewrite ram_scale, opp_IZR, Enb in HL.
    assert (EO : extend phi (over_zero m y0 (- Z.of_nat N)) = (- IZR (Z.of_nat N) * extend phi (over_zero m y0 1))%R) by (rewrite <- opp_IZR; unfold over_zero; apply (extend_map phi (fun l => PFin (RtoC 0) (root (Z.of_nat m) (Z.of_nat l) * y0)%C))).
    rewrite EO in HL. fold P in HL. set (O := extend phi (over_zero m y0 1)) in *. set (T := extend phi pts) in *.
    match type of HL with integer ?h => set (H4 := h) in * end. match type of I5 with integer ?h => set (H5 := h) in * end. match type of HZ with integer ?h => set (H3 := h) in * end.
    replace (V - (A - (1 + IZR b) * S))%R with ((V - (- aj pts i - IZR b * sum i)) - H5 - IZR b * (sum i - S) - H4 - IZR b * (P - IZR (Z.of_nat N) * S) - IZR (Z.of_nat N) * H3 + IZR (a - Z.of_nat N) * (IZR (Z.of_nat M) * S))%R.
    + apply int_add; [|apply int_mul; assumption]. apply int_sub; [|apply int_mul; assumption]. apply int_sub; [|apply int_mul; assumption]. apply int_sub; [|assumption]. apply int_sub; [|apply int_mul; assumption]. apply int_sub; assumption.
    + unfold H4, H5, H3. rewrite minus_IZR. match goal with |- ?L = ?R => transitivity (R + (IZR a * IZR (Z.of_nat M) + IZR b * IZR (Z.of_nat N) - 1) * S)%R; [ring|rewrite E; ring] end.
Qed.
End Val.
