From Verif Require Import CBase ModelCurve ModelSymp ModelBasis SpecBasis ProofBasis ModelPeriod SpecPeriod.

Lemma unit_roots_length m : 0 <= m -> Z.of_nat (length (unit_roots m)) = m.
Proof. intros H. unfold unit_roots. rewrite vtab_length. lia. Qed.
Lemma unit_roots_get m k : 0 <= k < m -> vget (unit_roots m) (Z.to_nat k) = root m k.
Proof. intros H. unfold unit_roots. rewrite vget_tab by lia. rewrite Z2Nat.id by lia. reflexivity. Qed.

Fixpoint total (ni : list Z) : nat := match ni with [] => O | n :: ni => (Z.to_nat n + total ni)%nat end.

Lemma total_sum ni : (forall n, In n ni -> 0 <= n) -> Z.of_nat (total ni) = fold_right Z.add 0 ni.
Proof.
  induction ni as [|n ni IH]; intros H; cbn [total fold_right]; [reflexivity|].
  rewrite <- IH by (intros; apply H; right; assumption).
  specialize (H n (or_introl eq_refl)). lia.
Qed.

Lemma offset_total ni j i : (j < length ni)%nat -> Z.of_nat i < nth j ni 0 -> (offset ni j + i < total ni)%nat.
Proof.
  revert j. induction ni as [|n ni IH]; intros [|j] Hj Hi; cbn [length offset total nth] in *; try lia.
  specialize (IH j ltac:(lia) Hi). lia.
Qed.

(** exponent bookkeeping: z[lj] = zeta^(-l j) *)
Lemma lj_root m l j : 2 <= m -> 0 <= l < m -> 0 <= j ->
  let lj := Z.rem ((m - l) * j) m in 0 <= lj < m /\ root m lj = root m (- (l * j)).
Proof.
  intros Hm Hl Hj lj.
  assert (H0 : 0 <= (m - l) * j) by (apply Z.mul_nonneg_nonneg; lia).
  assert (E : lj = ((m - l) * j) mod m) by (unfold lj; apply Z.rem_mod_nonneg; lia).
  rewrite E. split; [apply Z.mod_pos_bound; lia|].
  rewrite root_mod by lia. replace ((m - l) * j) with (m * j + - (l * j)) by ring.
  rewrite root_add, root_mult by lia. ring.
Qed.

Lemma shifted_blocks_spec m j1 l coeff row : 2 <= m -> 0 <= l < m -> 0 <= j1 -> forall ni j off res,
  0 <= j -> (forall n, In n ni -> 0 <= n) ->
  (off + total ni <= length res)%nat -> (off + total ni <= length row)%nat ->
  exists res', shifted_blocks ni j off m j1 l coeff (unit_roots m) row res = Done res' /\
    length res' = length res /\
    (forall k, (k < off \/ off + total ni <= k)%nat -> vget res' k = vget res k) /\
    (forall q i, (q < length ni)%nat -> Z.of_nat i < nth q ni 0 ->
       vget res' (off + (offset ni q + i)) =
       (vget res (off + (offset ni q + i)) +
        ZC coeff * root m (- (l * (j1 + (j + Z.of_nat q)))) * vget row (off + (offset ni q + i)))%C).
Proof.
  intros Hm Hl Hj1. induction ni as [|n ni IH]; intros j off res Hj Hn Hlen Hrow; cbn [shifted_blocks total].
  - exists res. conj; try reflexivity. intros q i Hq. cbn in Hq. lia.
  - pose proof (Hn n (or_introl eq_refl)) as Hn0. cbn [total] in Hlen, Hrow.
    destruct (lj_root m l (j1 + j) Hm Hl ltac:(lia)) as [Hlj Hroot].
    set (lj := Z.rem ((m - l) * (j1 + j)) m) in *.
    rewrite unit_roots_length by lia.
    assert (Eb : (lj <? 0) || (m <=? lj) = false) by lia. rewrite Eb.
    rewrite unit_roots_get by exact Hlj. unfold addmul_slice.
    assert (Eb2 : ((off + Z.to_nat n <=? length res) && (off + Z.to_nat n <=? length row))%nat = true) by lia.
    rewrite Eb2. cbn [bind].
    set (res1 := vtab _ _).
    assert (L1 : length res1 = length res) by (apply vtab_length).
    assert (G1 : forall k, (k < length res)%nat -> vget res1 k =
      if ((off <=? k) && (k <? off + Z.to_nat n))%nat then (vget res k + vget row k * (root m lj * ZC coeff))%C else vget res k).
    { intros k Hk. unfold res1. rewrite vget_tab by exact Hk. reflexivity. }
    assert (G1out : forall k, (length res <= k)%nat -> vget res1 k = vget res k).
    { intros k Hk. rewrite !vget_out by lia. reflexivity. }
    destruct (IH (j + 1) (off + Z.to_nat n)%nat res1) as (res' & E & HL & Hout & Hin).
    { lia. }
    { intros x Hx. apply Hn. right. exact Hx. }
    { rewrite L1. lia. }
    { lia. }
    exists res'. conj; [exact E|congruence| |].
    + intros k Hk. rewrite Hout by lia.
      destruct (Nat.lt_ge_cases k (length res)) as [H|H]; [|apply G1out, H].
      rewrite G1 by exact H. assert (Eb3 : ((off <=? k) && (k <? off + Z.to_nat n))%nat = false) by lia.
      rewrite Eb3. reflexivity.
    + intros [|q] i Hq Hi; cbn [nth length offset] in *.
      * rewrite Hout by lia. rewrite G1 by lia.
        assert (Eb3 : ((off <=? off + (0 + i)) && (off + (0 + i) <? off + Z.to_nat n))%nat = true) by lia.
        rewrite Eb3, Hroot. replace (j + Z.of_nat 0) with j by lia. ring.
      * specialize (Hin q i ltac:(lia) Hi).
        replace (off + (Z.to_nat n + offset ni q + i))%nat with (off + Z.to_nat n + (offset ni q + i))%nat by lia.
        rewrite Hin. pose proof (offset_total ni q i ltac:(lia) Hi).
        rewrite G1 by lia.
        assert (Eb3 : ((off <=? off + Z.to_nat n + (offset ni q + i)) && (off + Z.to_nat n + (offset ni q + i) <? off + Z.to_nat n))%nat = false) by lia.
        rewrite Eb3. replace (j + 1 + Z.of_nat q) with (j + Z.of_nat (S q)) by lia. reflexivity.
Qed.

(** value of coordinate (q, i) on edge e *)
Definition coord (c : sec) (a : cmat) (q i : nat) (e : Z) : C :=
  vget (nth (Z.to_nat e) a []) (offset (sec_ni c) q + i).

Lemma periods_term_spec c edges a x res : curve_ok c -> integrals_ok c edges a -> loop_ok c edges [x] ->
  Z.of_nat (length res) = sec_g c ->
  exists res', periods_term c a (unit_roots (sec_m c)) x res = Done res' /\ length res' = length res /\
    forall q i, (q < length (sec_ni c))%nat -> Z.of_nat i < nth q (sec_ni c) 0 ->
      vget res' (offset (sec_ni c) q + i) =
      (vget res (offset (sec_ni c) q + i) +
       term_period (sec_m c) (sec_j1 c + Z.of_nat q) (coord c a q i) x)%C.
Proof.
  intros (Hm & Hj1 & Hni & Hg) (Ha & Hrow) Hx Hres.
  destruct (Hx x (or_introl eq_refl)) as (He & Hs & Hc).
  unfold periods_term. rewrite Ha.
  assert (Eb : (gindex x <? 0) || (Z.of_nat edges <=? gindex x) = false) by lia. rewrite Eb.
  rewrite slong_as_fmpz_small by lia. cbn [bind].
  set (row := nth (Z.to_nat (gindex x)) a []).
  assert (Hrl : Z.of_nat (length row) = sec_g c).
  { apply Hrow. unfold row. apply nth_In. lia. }
  pose proof (total_sum _ Hni) as Ht. rewrite Hg in Ht.
  destruct (Z.eqb_spec (gshift x) 0) as [E0|Hne].
  - unfold addmul_slice.
    assert (Eb2 : ((0 + Z.to_nat (sec_g c) <=? length res) && (0 + Z.to_nat (sec_g c) <=? length row))%nat = true) by lia.
    rewrite Eb2. eexists. conj; [reflexivity|apply vtab_length|].
    intros q i Hq Hi. pose proof (offset_total _ q i Hq Hi).
    rewrite vget_tab by lia.
    assert (Eb3 : ((0 <=? offset (sec_ni c) q + i) && (offset (sec_ni c) q + i <? 0 + Z.to_nat (sec_g c)))%nat = true) by lia.
    rewrite Eb3. unfold term_period, coord. fold row. rewrite E0, Z.mul_0_l, Z.opp_0, root_0. ring.
  - destruct (shifted_blocks_spec (sec_m c) (sec_j1 c) (gshift x) (gcoeff x) row Hm ltac:(lia) Hj1
       (sec_ni c) 0 0 res ltac:(lia) Hni) as (res' & E & HL & _ & Hin); [lia|lia|].
    exists res'. conj; [exact E|exact HL|].
    intros q i Hq Hi. specialize (Hin q i Hq Hi). cbn [Nat.add] in Hin. rewrite Hin.
    unfold term_period, coord. fold row. rewrite Z.add_0_l. reflexivity.
Qed.

Lemma periods_terms_spec c edges a : curve_ok c -> integrals_ok c edges a -> forall l res,
  loop_ok c edges l -> Z.of_nat (length res) = sec_g c ->
  exists res', periods_terms c a (unit_roots (sec_m c)) l res = Done res' /\ length res' = length res /\
    forall q i, (q < length (sec_ni c))%nat -> Z.of_nat i < nth q (sec_ni c) 0 ->
      vget res' (offset (sec_ni c) q + i) =
      (vget res (offset (sec_ni c) q + i) +
       clsum (term_period (sec_m c) (sec_j1 c + Z.of_nat q) (coord c a q i)) l)%C.
Proof.
  intros Hc Ha. induction l as [|x l IH]; intros res Hl Hr; cbn [periods_terms].
  - exists res. conj; try reflexivity. intros. unfold clsum. cbn [fold_right]. ring.
  - destruct (periods_term_spec c edges a x res Hc Ha) as (r1 & E1 & L1 & H1); [|exact Hr|].
    { intros y [<-|[]]. apply Hl. left. reflexivity. }
    rewrite E1. cbn [bind].
    destruct (IH r1) as (r2 & E2 & L2 & H2); [|congruence|].
    { intros y Hy. apply Hl. right. exact Hy. }
    exists r2. conj; [exact E2|congruence|].
    intros q i Hq Hi. rewrite H2, H1 by assumption. unfold clsum. cbn [fold_right]. ring.
Qed.

Lemma periods_loop_spec c edges a l : curve_ok c -> integrals_ok c edges a -> loop_ok c edges l -> 0 <= sec_g c ->
  exists res, periods_loop c a (unit_roots (sec_m c)) l = Done res /\ Z.of_nat (length res) = sec_g c /\
    forall q i, (q < length (sec_ni c))%nat -> Z.of_nat i < nth q (sec_ni c) 0 ->
      vget res (offset (sec_ni c) q + i) =
      clsum (term_period (sec_m c) (sec_j1 c + Z.of_nat q) (coord c a q i)) l.
Proof.
  intros Hc Ha Hl Hg. unfold periods_loop.
  destruct (periods_terms_spec c edges a Hc Ha l (vtab (Z.to_nat (sec_g c)) (fun _ => RtoC 0)) Hl) as (res & E & HL & H).
  { rewrite vtab_length. lia. }
  exists res. rewrite vtab_length in HL. conj; [exact E|lia|].
  intros q i Hq Hi. rewrite H by assumption.
  destruct Hc as (_ & _ & Hni & Hsum). pose proof (total_sum _ Hni). pose proof (offset_total _ q i Hq Hi).
  rewrite vget_tab by lia. ring.
Qed.

Lemma periods_rows_spec c edges a : curve_ok c -> integrals_ok c edges a -> 0 <= sec_g c -> forall basis,
  (forall l, In l basis -> loop_ok c edges l) ->
  exists rows, periods_rows c a (unit_roots (sec_m c)) basis = Done rows /\ length rows = length basis /\
    forall k, (k < length basis)%nat ->
    forall q i, (q < length (sec_ni c))%nat -> Z.of_nat i < nth q (sec_ni c) 0 ->
      vget (nth k rows []) (offset (sec_ni c) q + i) =
      clsum (term_period (sec_m c) (sec_j1 c + Z.of_nat q) (coord c a q i)) (nth k basis []).
Proof.
  intros Hc Ha Hg. induction basis as [|l basis IH]; intros Hb; cbn [periods_rows].
  - exists []. conj; try reflexivity. intros k Hk. cbn in Hk. lia.
  - destruct (periods_loop_spec c edges a l Hc Ha (Hb l (or_introl eq_refl)) Hg) as (r & E & _ & Hr).
    destruct IH as (rows & E2 & HL & Hrows); [intros y Hy; apply Hb; right; exact Hy|].
    rewrite E, E2. cbn [bind]. exists (r :: rows). conj; [reflexivity|cbn [length]; lia|].
    intros [|k] Hk q i Hq Hi; cbn [nth length] in *; [apply Hr; assumption|apply Hrows; [lia|assumption|assumption]].
Qed.

Lemma period_matrix_spec c edges a basis : curve_ok c -> integrals_ok c edges a -> 0 <= sec_g c ->
  Z.of_nat (length basis) = sec_g c -> (forall l, In l basis -> loop_ok c edges l) ->
  exists om, period_matrix c basis a = Done om /\ length om = length basis /\
    forall k, (k < length basis)%nat ->
    forall q i, (q < length (sec_ni c))%nat -> Z.of_nat i < nth q (sec_ni c) 0 ->
      vget (nth (offset (sec_ni c) q + i) om []) k =
      clsum (term_period (sec_m c) (sec_j1 c + Z.of_nat q) (coord c a q i)) (nth k basis []).
Proof.
  intros Hc Ha Hg Hlb Hb. unfold period_matrix.
  destruct (periods_rows_spec c edges a Hc Ha Hg basis Hb) as (rows & E & HL & H).
  rewrite E. cbn [bind]. eexists. conj; [reflexivity| |].
  - unfold transpose. rewrite map_length, seq_length. lia.
  - intros k Hk q i Hq Hi. destruct Hc as (_ & _ & Hni & Hsum).
    pose proof (total_sum _ Hni). pose proof (offset_total _ q i Hq Hi).
    unfold transpose. rewrite nth_map_seq by lia. rewrite vget_tab by lia. apply H; assumption.
Qed.

(** sums over a faithful loop are sums over the row *)
Lemma clsum_positions m1 (F : Z -> C) l n : (forall x, In x l -> 0 <= position m1 x < Z.of_nat n) ->
  clsum (fun x => (ZC (gcoeff x) * F (position m1 x))%C) l =
  csum n (fun k => (ZC (loop_coeff m1 l (Z.of_nat k)) * F (Z.of_nat k))%C).
Proof.
  induction l as [|x l IH]; intros H; cbn [clsum fold_right loop_coeff].
  - symmetry. apply csum_zero. intros. change (ZC 0) with (RtoC 0). ring.
  - fold (clsum (fun x => (ZC (gcoeff x) * F (position m1 x))%C) l).
    rewrite IH by (intros; apply H; right; assumption).
    pose proof (H x (or_introl eq_refl)) as Hx.
    rewrite (csum_ext n (fun k => (ZC ((if position m1 x =? Z.of_nat k then gcoeff x else 0) + loop_coeff m1 l (Z.of_nat k)) * F (Z.of_nat k))%C)
      (fun k => ((if position m1 x =? Z.of_nat k then ZC (gcoeff x) * F (Z.of_nat k) else RtoC 0) + ZC (loop_coeff m1 l (Z.of_nat k)) * F (Z.of_nat k))%C)).
    2:{ intros k Hk. rewrite ZC_add. destruct (position m1 x =? Z.of_nat k); [ring|]. change (ZC 0) with (RtoC 0). ring. }
    rewrite csum_add. f_equal.
    rewrite (csum_single n _ (Z.to_nat (position m1 x))).
    + rewrite Z2Nat.id by lia. rewrite Z.eqb_refl. reflexivity.
    + lia.
    + intros k Hk Hne. destruct (Z.eqb_spec (position m1 x) (Z.of_nat k)); [lia|reflexivity].
Qed.

Lemma div_position m1 x : 0 < m1 -> 0 <= gshift x < m1 -> position m1 x / m1 = gindex x /\ position m1 x mod m1 = gshift x.
Proof.
  intros Hm Hs. unfold position. rewrite Z.add_comm. split.
  - rewrite Z.div_add by lia. rewrite Z.div_small by lia. lia.
  - rewrite Z.mod_add by lia. apply Z.mod_small. lia.
Qed.

Lemma faithful_period m j m1 row l integral : 0 < m1 -> faithful m1 row l ->
  clsum (term_period m j integral) l =
  csum (length row) (fun k => (ZC (nth k row 0%Z) * root m (- ((Z.of_nat k mod m1) * j)) * integral (Z.of_nat k / m1)%Z)%C).
Proof.
  intros Hm (Hco & Hr & _).
  rewrite (clsum_ext _ (fun x => (ZC (gcoeff x) * ((fun p => root m (- ((p mod m1) * j)) * integral (p / m1)%Z) (position m1 x)))%C)).
  2:{ intros x Hx. destruct (Hr x Hx) as (_ & Hs & _ & _). destruct (div_position m1 x Hm Hs) as [E1 E2].
      unfold term_period. rewrite E1, E2. ring. }
  rewrite (clsum_positions m1 (fun p => (root m (- ((p mod m1) * j)) * integral (p / m1)%Z)%C) l (length row)).
  - apply csum_ext. intros k Hk. rewrite Hco by exact Hk. ring.
  - intros x Hx. destruct (Hr x Hx) as (_ & Hs & Hi & Hp). split; [|exact Hp].
    unfold position. apply Z.add_nonneg_nonneg; [apply Z.mul_nonneg_nonneg; lia|lia].
Qed.
