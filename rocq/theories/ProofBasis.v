From Verif Require Import Base ModelSymp SpecSymp ProofSymp ProofSympMain ModelBasis SpecBasis.

Lemma fits_spec x : is_slong x = true <-> -9223372036854775808 <= x <= 9223372036854775807.
Proof. unfold is_slong, slong_min, slong_max. lia. Qed.

Lemma loop_coeff_out m1 l k : (forall x, In x l -> k < position m1 x) -> loop_coeff m1 l k = 0.
Proof.
  induction l as [|x l IH]; intros H; cbn [loop_coeff]; [reflexivity|].
  rewrite IH by (intros; apply H; right; assumption).
  pose proof (H x (or_introl eq_refl)). destruct (Z.eqb_spec (position m1 x) k); lia.
Qed.

Lemma pos_divmod m1 j : 0 < m1 -> position m1 {| gcoeff := 0; gshift := j mod m1; gindex := j / m1 |} = j.
Proof. intros H. unfold position. cbn. pose proof (Z.div_mod j m1 ltac:(lia)). lia. Qed.

Lemma next_nonzero_spec row : forall j, (0 < count_coeffs row)%nat ->
  exists k x rest, next_nonzero row j = Done (x, j + Z.of_nat k, rest) /\ x <> 0 /\
    row = repeat 0 k ++ x :: rest /\ count_coeffs rest = pred (count_coeffs row).
Proof.
  induction row as [|y row IH]; intros j H; cbn [count_coeffs] in H; [lia|].
  cbn [next_nonzero count_coeffs]. destruct (Z.eqb_spec y 0) as [->|Hne].
  - destruct (IH (j + 1) H) as (k & x & rest & E & Hx & Er & Ec).
    exists (S k), x, rest. conj; [|exact Hx| |exact Ec].
    + replace (j + Z.of_nat (S k)) with (j + 1 + Z.of_nat k) by lia. exact E.
    + cbn [repeat app]. rewrite Er. reflexivity.
  - exists O, y, row. conj; [|exact Hne|reflexivity|reflexivity]. replace (j + Z.of_nat 0) with j by lia. reflexivity.
Qed.

Lemma count_zero row : count_coeffs row = O -> forall x, In x row -> x = 0.
Proof.
  induction row as [|y row IH]; intros H x Hx; [contradiction|]. cbn [count_coeffs] in H.
  destruct (Z.eqb_spec y 0); [|lia]. destruct Hx as [<-|Hx]; [assumption|apply IH; assumption].
Qed.

Lemma nth_all_zero row k : (forall x, In x row -> x = 0) -> nth k row 0 = 0.
Proof.
  intros H. destruct (nth_in_or_default k row 0) as [Hi|E]; [apply H, Hi|exact E].
Qed.

Lemma nth_repeat0 k (rest : list Z) i : nth i (repeat 0 k ++ rest) 0 = if (i <? k)%nat then 0 else nth (i - k) rest 0.
Proof.
  destruct (Nat.ltb_spec i k) as [H|H].
  - rewrite app_nth1 by (rewrite repeat_length; exact H). apply nth_repeat.
  - rewrite app_nth2 by (rewrite repeat_length; exact H). rewrite repeat_length. reflexivity.
Qed.

Lemma set_loops_spec m1 : 0 < m1 -> forall n row j, n = count_coeffs row -> 0 <= j ->
  (exists x, In x row /\ is_slong x = false /\ set_loops n row j m1 = Abort) \/
  (exists l, set_loops n row j m1 = Done l /\ row_fits row /\ length l = n /\
     (forall k, (k < length row)%nat -> loop_coeff m1 l (j + Z.of_nat k) = nth k row 0) /\
     (forall x, In x l -> gcoeff x <> 0 /\ 0 <= gshift x < m1 /\ 0 <= gindex x /\
         j <= position m1 x < j + Z.of_nat (length row)) /\
     increasing (map (position m1) l)).
Proof.
  intros Hm1. induction n as [|n IH]; intros row j Hn Hj; cbn [set_loops].
  - right. exists []. symmetry in Hn. pose proof (count_zero row Hn) as Hz. conj; try reflexivity.
    + intros x Hx. rewrite (Hz x Hx). lia.
    + intros k Hk. cbn. symmetry. apply nth_all_zero, Hz.
    + intros x [].
  - destruct (next_nonzero_spec row j ltac:(lia)) as (k & x & rest & E & Hx & Er & Ec).
    rewrite E. cbn [bind]. destruct (is_slong x) eqn:Ef; cbn [negb].
    2:{ left. exists x. conj; [|exact Ef|reflexivity]. rewrite Er. apply in_or_app. right. left. reflexivity. }
    destruct (Z.eqb_spec m1 0); [lia|].
    destruct (IH rest (j + Z.of_nat k + 1) ltac:(lia) ltac:(lia)) as [(y & Hy & Hyf & Ea)|(l & El & Hf & Hlen & Hco & Hrg & Hinc)].
    + left. exists y. conj; [|exact Hyf|rewrite Ea; reflexivity]. rewrite Er. apply in_or_app. right. right. exact Hy.
    + right. rewrite El. cbn [bind].
      set (g := {| gcoeff := x; gshift := (j + Z.of_nat k) mod m1; gindex := (j + Z.of_nat k) / m1 |}).
      assert (Hpos : position m1 g = j + Z.of_nat k) by (apply (pos_divmod m1 (j + Z.of_nat k) Hm1)).
      assert (Hlr : length row = (k + S (length rest))%nat).
      { rewrite Er, app_length, repeat_length. reflexivity. }
      exists (g :: l). conj; [reflexivity| | | | |].
      * intros y Hy. rewrite Er in Hy. apply in_app_or in Hy. destruct Hy as [Hy|[<-|Hy]].
        -- apply repeat_spec in Hy. lia.
        -- apply fits_spec, Ef.
        -- apply Hf, Hy.
      * cbn [length]. lia.
      * intros i Hi. cbn [loop_coeff]. rewrite Hpos.
        rewrite Er, nth_repeat0.
        destruct (Nat.ltb_spec i k) as [Hlt|Hge].
        -- destruct (Z.eqb_spec (j + Z.of_nat k) (j + Z.of_nat i)); [lia|].
           rewrite loop_coeff_out; [reflexivity|]. intros y Hy. destruct (Hrg y Hy) as (_ & _ & _ & Hp). lia.
        -- destruct (Nat.eq_dec i k) as [->|Hne].
           ++ rewrite Z.eqb_refl, Nat.sub_diag. cbn [nth].
              rewrite loop_coeff_out; [cbn; lia|]. intros y Hy. destruct (Hrg y Hy) as (_ & _ & _ & Hp). lia.
           ++ destruct (Z.eqb_spec (j + Z.of_nat k) (j + Z.of_nat i)); [lia|].
              replace (i - k)%nat with (S (i - k - 1))%nat by lia. cbn [nth].
              rewrite <- Hco by lia. cbn. f_equal. lia.
      * intros y [<-|Hy].
        -- rewrite Hpos. unfold g. cbn. pose proof (Z.mod_pos_bound (j + Z.of_nat k) m1 Hm1).
           pose proof (Z.div_pos (j + Z.of_nat k) m1 ltac:(lia) Hm1). conj; try assumption; lia.
        -- destruct (Hrg y Hy) as (H1 & H2 & H3 & H4). conj; try assumption; lia.
      * cbn [map increasing]. split; [|exact Hinc]. intros p Hp. rewrite Hpos.
        apply in_map_iff in Hp. destruct Hp as (y & <- & Hy). destruct (Hrg y Hy) as (_ & _ & _ & Hp). lia.
Qed.

Lemma loop_of_row_spec m1 row : 0 < m1 ->
  (row_fits row -> exists l, loop_of_row row m1 = Done l /\ faithful m1 row l /\ length l = count_coeffs row) /\
  (~ row_fits row -> loop_of_row row m1 = Abort).
Proof.
  intros Hm1. unfold loop_of_row.
  destruct (set_loops_spec m1 Hm1 (count_coeffs row) row 0 eq_refl ltac:(lia))
    as [(x & Hx & Hf & E)|(l & E & Hf & Hl & Hc & Hr & Hi)].
  - split; [|intros _; exact E]. intros H. exfalso.
    assert (is_slong x = true) by (apply fits_spec, H, Hx). congruence.
  - split; [|intros H; contradiction]. intros _. exists l. conj; [exact E| |exact Hl]. unfold faithful. conj.
    + intros k Hk. rewrite <- Hc by exact Hk. reflexivity.
    + intros x Hx. destruct (Hr x Hx) as (H1 & H2 & H3 & H4). conj; try assumption; lia.
    + exact Hi.
Qed.

(** index bound when the row has edges * m1 entries *)
Lemma index_bound m1 n x : 0 < m1 -> 0 <= gshift x < m1 -> 0 <= gindex x ->
  position m1 x < n * m1 -> gindex x < n.
Proof.
  intros Hm Hs Hi Hp. unfold position in Hp.
  destruct (Z.lt_ge_cases (gindex x) n) as [|Hge]; [assumption|exfalso].
  assert (n * m1 <= gindex x * m1) by (apply Z.mul_le_mono_nonneg_r; lia). lia.
Qed.

Lemma basis_loops_spec m1 p : 0 < m1 -> forall todo i, (2 * (i + todo) <= length p)%nat ->
  (forall k, (k < 2 * todo)%nat -> row_fits (nth (2 * i + k) p [])) ->
  exists l, basis_loops todo i p m1 = Done l /\ length l = todo /\
    forall k, (k < todo)%nat ->
      faithful m1 (nth (2 * (i + k)) p []) (fst (nth k l ([], []))) /\
      faithful m1 (nth (2 * (i + k) + 1) p []) (snd (nth k l ([], []))).
Proof.
  intros Hm1. induction todo as [|todo IH]; intros i Hl Hf; cbn [basis_loops].
  - exists []. conj; try reflexivity. intros; lia.
  - unfold nrows. destruct (Nat.ltb_spec (2 * i + 1) (length p)) as [_|]; [|lia].
    destruct (proj1 (loop_of_row_spec m1 (nth (2 * i) p []) Hm1)) as (a & Ea & Fa & _).
    { specialize (Hf O ltac:(lia)). rewrite Nat.add_0_r in Hf. exact Hf. }
    destruct (proj1 (loop_of_row_spec m1 (nth (2 * i + 1) p []) Hm1)) as (b & Eb & Fb & _).
    { apply (Hf 1%nat). lia. }
    destruct (IH (S i) ltac:(lia)) as (l & El & Hlen & Hall).
    { intros k Hk. replace (2 * S i + k)%nat with (2 * i + (k + 2))%nat by lia. apply Hf. lia. }
    rewrite Ea, Eb, El. cbn [bind]. exists ((a, b) :: l). conj; [reflexivity|cbn [length]; lia|].
    intros [|k] Hk; cbn [nth fst snd].
    + rewrite Nat.add_0_r. split; assumption.
    + replace (i + S k)%nat with (S i + k)%nat by lia. apply Hall. lia.
Qed.

Lemma basis_loops_abort m1 p : 0 < m1 -> forall todo i, (2 * (i + todo) <= length p)%nat ->
  (exists k, (k < 2 * todo)%nat /\ ~ row_fits (nth (2 * i + k) p [])) ->
  basis_loops todo i p m1 = Abort.
Proof.
  intros Hm1. induction todo as [|todo IH]; intros i Hl (k & Hk & Hn); cbn [basis_loops]; [lia|].
  unfold nrows. destruct (Nat.ltb_spec (2 * i + 1) (length p)) as [_|]; [|lia].
  pose proof (loop_of_row_spec m1 (nth (2 * i) p []) Hm1) as [A1 A2].
  pose proof (loop_of_row_spec m1 (nth (2 * i + 1) p []) Hm1) as [B1 B2].
  assert (D : forall row, row_fits row \/ ~ row_fits row).
  { intros row. destruct (forallb is_slong row) eqn:E.
    - left. rewrite forallb_forall in E. intros x Hx. apply fits_spec, E, Hx.
    - right. intros H. assert (forallb is_slong row = true); [|congruence].
      apply forallb_forall. intros x Hx. apply fits_spec, H, Hx. }
  destruct (D (nth (2 * i) p [])) as [H0|H0].
  - destruct (A1 H0) as (a & Ea & _). rewrite Ea. cbn [bind].
    destruct (D (nth (2 * i + 1) p [])) as [H1|H1].
    + destruct (B1 H1) as (b & Eb & _). rewrite Eb. cbn [bind].
      rewrite IH; [reflexivity|lia|].
      destruct k as [|[|k]]; [rewrite Nat.add_0_r in Hn; contradiction|contradiction|].
      exists k. split; [lia|]. replace (2 * S i + k)%nat with (2 * i + S (S k))%nat by lia. exact Hn.
    + rewrite (B2 H1). reflexivity.
  - rewrite (A2 H0). reflexivity.
Qed.

Lemma slong_as_fmpz_small x : -9223372036854775808 <= x < 4611686018427387904 -> slong_as_fmpz x = Done x.
Proof.
  intros H. unfold slong_as_fmpz. destruct (Z.eqb_spec (x / 4611686018427387904) 1) as [E|]; [exfalso|reflexivity].
  pose proof (Z.div_lt_upper_bound x 4611686018427387904 1 ltac:(lia) ltac:(lia)). lia.
Qed.
Lemma slong_as_fmpz_big x : 4611686018427387904 <= x <= 9223372036854775807 -> slong_as_fmpz x = Fault BadPointer.
Proof.
  intros H. unfold slong_as_fmpz. replace (x / 4611686018427387904) with 1; [reflexivity|].
  apply (Z.div_unique _ _ 1 (x - 4611686018427387904)); lia.
Qed.
