(** Proofs about the matrices of homology bases of the GP scripts, continued. *)
From Coq Require Import Setoid Morphisms.
From Verif Require Import Base ModelGpMum SpecGpMum ProofGpSymp ProofGpMum.
Local Ltac Zify.zify_post_hook ::= Z.to_euclidean_division_equations.

(** ** isSymplectic *)
Lemma filter_all {A} (f : A -> bool) l : (forall x, In x l -> f x = true) -> filter f l = l.
Proof. induction l as [|a l IH]; intros H; cbn [filter]; [reflexivity|]. rewrite (H a) by now left. f_equal. apply IH. intros; apply H; now right. Qed.
Lemma filter_nil {A} (f : A -> bool) l : (forall x, In x l -> f x = false) -> filter f l = [].
Proof. induction l as [|a l IH]; intros H; cbn [filter]; [reflexivity|]. rewrite (H a) by now left. apply IH. intros; apply H; now right. Qed.

Lemma low_bits g i : Z.testbit (2 ^ Z.of_nat g - 1) (Z.of_nat i) = (i <? g)%nat.
Proof.
  replace (2 ^ Z.of_nat g - 1) with (Z.ones (Z.of_nat g)) by (rewrite Z.ones_equiv; lia).
  destruct (Nat.ltb_spec i g); [apply Z.ones_spec_low; lia|apply Z.ones_spec_high; lia].
Qed.
Lemma high_bits g i : (i < 2 * g)%nat -> Z.testbit (4 ^ Z.of_nat g - 2 ^ Z.of_nat g) (Z.of_nat i) = (g <=? i)%nat.
Proof.
  intros L. replace (4 ^ Z.of_nat g - 2 ^ Z.of_nat g) with ((2 ^ Z.of_nat g - 1) * 2 ^ Z.of_nat g).
  2:{ change 4 with (2 * 2). rewrite Z.pow_mul_l. ring. }
  destruct (Nat.leb_spec g i).
  - rewrite Z.mul_pow2_bits by lia. replace (Z.of_nat i - Z.of_nat g) with (Z.of_nat (i - g)) by lia.
    rewrite low_bits. apply Nat.ltb_lt. lia.
  - apply Z.mul_pow2_bits_low. lia.
Qed.
Lemma low_indices g : mask_indices (2 * g) (2 ^ Z.of_nat g - 1) = seq 0 g.
Proof.
  unfold mask_indices. replace (2 * g)%nat with (g + g)%nat by lia. rewrite seq_app, filter_app, filter_all, filter_nil; [apply app_nil_r|..];
    intros x Hx; apply in_seq in Hx; rewrite low_bits; [apply Nat.ltb_ge|apply Nat.ltb_lt]; lia.
Qed.
Lemma high_indices g : mask_indices (2 * g) (4 ^ Z.of_nat g - 2 ^ Z.of_nat g) = seq g g.
Proof.
  unfold mask_indices. replace (2 * g)%nat with (g + g)%nat by lia. rewrite seq_app, filter_app, filter_nil, filter_all; [reflexivity|..];
    intros x Hx; apply in_seq in Hx; rewrite high_bits by lia; [apply Nat.leb_le|apply Nat.leb_gt]; lia.
Qed.

Lemma J_sum_l g (f : nat -> Z) j : (j < 2 * g)%nat -> zsum (2 * g) (fun k => f k * matJ g k j) = if (j <? g)%nat then - f (g + j)%nat else f (j - g)%nat.
Proof.
  intros L. destruct (Nat.ltb_spec j g).
  - rewrite (zsum_ext _ _ (fun k => (if (g + j =? k)%nat then 1 else 0) * - f k)); [apply (zpick (2 * g) (fun k => - f k)); lia|].
    intros k Lk. unfold matJ. destruct (Nat.eqb_spec (k + g) j), (Nat.eqb_spec k (j + g)), (Nat.eqb_spec (g + j) k); lia.
  - rewrite (zsum_ext _ _ (fun k => (if (j - g =? k)%nat then 1 else 0) * f k)); [apply (zpick (2 * g)); lia|].
    intros k Lk. unfold matJ. destruct (Nat.eqb_spec (k + g) j), (Nat.eqb_spec k (j + g)), (Nat.eqb_spec (j - g) k); lia.
Qed.
Lemma zsum_double g f : zsum (2 * g) f = zsum g f + zsum g (fun k => f (g + k)%nat).
Proof. replace (2 * g)%nat with (g + g)%nat by lia. apply zsum_app. Qed.

Lemma pull_J g M i j : (i < 2 * g)%nat -> (j < 2 * g)%nat ->
  pullback (2 * g) M (matJ g) i j = zsum g (fun k => M k i * M (g + k)%nat j) - zsum g (fun k => M (g + k)%nat i * M k j).
Proof.
  intros Li Lj. unfold pullback, mmul, transpose.
  rewrite (zsum_ext _ _ (fun k => (if (k <? g)%nat then - M (g + k)%nat i else M (k - g)%nat i) * M k j)).
  2:{ intros k Lk. now rewrite (J_sum_l g (fun l => M l i) k Lk). }
  rewrite zsum_double. rewrite (zsum_ext g _ (fun k => (-1) * (M (g + k)%nat i * M k j))), zsum_scal.
  2:{ intros k Lk. destruct (Nat.ltb_spec k g); [ring|lia]. }
  rewrite (zsum_ext g (fun k => (if (g + k <? g)%nat then _ else _) * _) (fun k => M k i * M (g + k)%nat j)); [lia|].
  intros k Lk. destruct (Nat.ltb_spec (g + k) g); [lia|]. replace (g + k - g)%nat with k by lia. reflexivity.
Qed.

Lemma extract_ok g M (x y : bool) : meq g (vecextract (2 * g) M (if x then 4 ^ Z.of_nat g - 2 ^ Z.of_nat g else 2 ^ Z.of_nat g - 1) (if y then 4 ^ Z.of_nat g - 2 ^ Z.of_nat g else 2 ^ Z.of_nat g - 1))
  (fun i j => M ((if x then g else 0) + i)%nat ((if y then g else 0) + j)%nat).
Proof.
  intros i j Li Lj. unfold vecextract. f_equal.
  - destruct x; rewrite ?low_indices, ?high_indices, seq_nth by assumption; reflexivity.
  - destruct y; rewrite ?low_indices, ?high_indices, seq_nth by assumption; reflexivity.
Qed.

Lemma symplectic_blocks g M : symplectic g M <->
  (forall i j, (i < g)%nat -> (j < g)%nat ->
     zsum g (fun k => M k i * M (g + k)%nat (g + j)%nat) - zsum g (fun k => M (g + k)%nat i * M k (g + j)%nat) = ident i j) /\
  (forall i j, (i < g)%nat -> (j < g)%nat -> zsum g (fun k => M k i * M (g + k)%nat j) = zsum g (fun k => M (g + k)%nat i * M k j)) /\
  (forall i j, (i < g)%nat -> (j < g)%nat -> zsum g (fun k => M k (g + i)%nat * M (g + k)%nat (g + j)%nat) = zsum g (fun k => M (g + k)%nat (g + i)%nat * M k (g + j)%nat)).
Proof.
  split.
  - intros H. split; [|split]; intros i j Li Lj.
    + specialize (H i (g + j)%nat ltac:(lia) ltac:(lia)). rewrite pull_J in H by lia. rewrite H. unfold matJ, ident.
      destruct (Nat.eqb_spec (i + g) (g + j)), (Nat.eqb_spec i (g + j + g)), (Nat.eqb_spec i j); lia.
    + specialize (H i j ltac:(lia) ltac:(lia)). rewrite pull_J in H by lia. unfold matJ in H.
      destruct (Nat.eqb_spec (i + g) j), (Nat.eqb_spec i (j + g)); lia.
    + specialize (H (g + i)%nat (g + j)%nat ltac:(lia) ltac:(lia)). rewrite pull_J in H by lia. unfold matJ in H.
      destruct (Nat.eqb_spec (g + i + g) (g + j)), (Nat.eqb_spec (g + i) (g + j + g)); lia.
  - intros (H1 & H2 & H3) i j Li Lj. rewrite pull_J by assumption. unfold matJ.
    destruct (Nat.lt_ge_cases i g), (Nat.lt_ge_cases j g).
    + rewrite H2 by assumption. destruct (Nat.eqb_spec (i + g) j), (Nat.eqb_spec i (j + g)); lia.
    + specialize (H1 i (j - g)%nat ltac:(lia) ltac:(lia)). replace (g + (j - g))%nat with j in H1 by lia. rewrite H1. unfold ident.
      destruct (Nat.eqb_spec (i + g) j), (Nat.eqb_spec i (j + g)), (Nat.eqb_spec i (j - g)); lia.
    + specialize (H1 j (i - g)%nat ltac:(lia) ltac:(lia)). replace (g + (i - g))%nat with i in H1 by lia. unfold ident in H1.
      rewrite (zsum_ext g (fun k => M k i * M (g + k)%nat j) (fun k => M (g + k)%nat j * M k i)) by (intros; ring).
      rewrite (zsum_ext g (fun k => M (g + k)%nat i * M k j) (fun k => M k j * M (g + k)%nat i)) by (intros; ring).
      destruct (Nat.eqb_spec (i + g) j), (Nat.eqb_spec i (j + g)), (Nat.eqb_spec j (i - g)); lia.
    + specialize (H3 (i - g)%nat (j - g)%nat ltac:(lia) ltac:(lia)). replace (g + (j - g))%nat with j in H3 by lia. replace (g + (i - g))%nat with i in H3 by lia. rewrite H3.
      destruct (Nat.eqb_spec (i + g) j), (Nat.eqb_spec i (j + g)); lia.
Qed.

Lemma isSymplectic_ok g M : isSymplectic g M = true <-> symplectic g M.
Proof.
  rewrite symplectic_blocks. unfold isSymplectic. cbv zeta. rewrite !andb_true_iff, !meqb_spec, and_assoc.
  pose proof (extract_ok g M false false) as Ea. pose proof (extract_ok g M false true) as Eb. pose proof (extract_ok g M true false) as Ec. pose proof (extract_ok g M true true) as Ed.
  cbv iota in Ea, Eb, Ec, Ed. cbn [Nat.add] in Ea, Eb, Ec, Ed.
  assert (Esub : forall A A' B B' : gmat, meq g A A' -> meq g B B' -> meq g (msub A B) (msub A' B')) by (intros A A' B B' H1 H2 i j Li Lj; unfold msub; now rewrite H1, H2).
  assert (F1 : meq g (msub (mmul g (transpose (vecextract (2 * g) M (2 ^ Z.of_nat g - 1) (2 ^ Z.of_nat g - 1))) (vecextract (2 * g) M (4 ^ Z.of_nat g - 2 ^ Z.of_nat g) (4 ^ Z.of_nat g - 2 ^ Z.of_nat g)))
    (mmul g (transpose (vecextract (2 * g) M (4 ^ Z.of_nat g - 2 ^ Z.of_nat g) (2 ^ Z.of_nat g - 1))) (vecextract (2 * g) M (2 ^ Z.of_nat g - 1) (4 ^ Z.of_nat g - 2 ^ Z.of_nat g))))
    (fun i j => zsum g (fun k => M k i * M (g + k)%nat (g + j)%nat) - zsum g (fun k => M (g + k)%nat i * M k (g + j)%nat))).
  { apply (Esub _ (fun i j => zsum g (fun k => M k i * M (g + k)%nat (g + j)%nat)) _ (fun i j => zsum g (fun k => M (g + k)%nat i * M k (g + j)%nat))).
    - rewrite Ea, Ed. reflexivity.
    - rewrite Ec, Eb. reflexivity. }
  rewrite F1. rewrite Ea, Eb, Ec, Ed. unfold meq, mmul, transpose. cbn [Nat.add]. reflexivity.
Qed.

(** ** symplectic_inverse *)
Lemma inverse_same_blocks g M : symplectic g M -> (forall i j, (i < g)%nat -> (j < g)%nat -> M i (g + j)%nat = M (g + i)%nat j) ->
  meq (2 * g) (mmul (2 * g) (symplectic_inverse g M) M) ident.
Proof.
  intros HS HB. apply symplectic_blocks in HS as (H1 & H2 & H3). intros i j Li Lj. unfold mmul. rewrite zsum_double.
  destruct (Nat.lt_ge_cases i g) as [L|L].
  - (* row i: D^t and -C^t *)
    rewrite (zsum_ext g (fun k => symplectic_inverse g M i k * M k j) (fun k => M (g + k)%nat (g + i)%nat * M k j)).
    2:{ intros k Lk. unfold symplectic_inverse. destruct (Nat.ltb_spec i g), (Nat.ltb_spec k g); lia. }
    rewrite (zsum_ext g (fun k => symplectic_inverse g M i (g + k)%nat * M (g + k)%nat j) (fun k => (-1) * (M k (g + i)%nat * M (g + k)%nat j))), zsum_scal.
    2:{ intros k Lk. unfold symplectic_inverse. destruct (Nat.ltb_spec i g), (Nat.ltb_spec (g + k) g); try lia. replace (g + (g + k - g))%nat with (g + k)%nat by lia. rewrite <- HB by lia. ring. }
    destruct (Nat.lt_ge_cases j g) as [L'|L'].
    + specialize (H1 j i L' L).
      rewrite (zsum_ext g _ (fun k => M k j * M (g + k)%nat (g + i)%nat)) by (intros; ring).
      rewrite (zsum_ext g (fun k => M k (g + i)%nat * M (g + k)%nat j) (fun k => M (g + k)%nat j * M k (g + i)%nat)) by (intros; ring).
      unfold ident in *. rewrite Nat.eqb_sym. lia.
    + specialize (H3 i (j - g)%nat L ltac:(lia)). replace (g + (j - g))%nat with j in H3 by lia. unfold ident. destruct (Nat.eqb_spec i j); lia.
  - rewrite (zsum_ext g (fun k => symplectic_inverse g M i k * M k j) (fun k => (-1) * (M (g + k)%nat (i - g)%nat * M k j))), zsum_scal.
    2:{ intros k Lk. unfold symplectic_inverse. destruct (Nat.ltb_spec i g), (Nat.ltb_spec k g); try lia. rewrite HB by lia. ring. }
    rewrite (zsum_ext g (fun k => symplectic_inverse g M i (g + k)%nat * M (g + k)%nat j) (fun k => M k (i - g)%nat * M (g + k)%nat j)).
    2:{ intros k Lk. unfold symplectic_inverse. destruct (Nat.ltb_spec i g), (Nat.ltb_spec (g + k) g); try lia. replace (g + k - g)%nat with k by lia. reflexivity. }
    destruct (Nat.lt_ge_cases j g) as [L'|L'].
    + specialize (H2 (i - g)%nat j ltac:(lia) L'). unfold ident. destruct (Nat.eqb_spec i j); lia.
    + specialize (H1 (i - g)%nat (j - g)%nat ltac:(lia) ltac:(lia)). replace (g + (j - g))%nat with j in H1 by lia. unfold ident in *.
      destruct (Nat.eqb_spec i j), (Nat.eqb_spec (i - g) (j - g)); lia.
Qed.

(** ** CtoABp *)
Lemma entry_A g a b r : (1 <= a)%nat -> (1 <= b)%nat -> (r < g)%nat ->
  CtoABp_entry g a b r = if ((Nat.min a b <=? 2 * r + 1) && (2 * r + 2 <=? Nat.max a b))%nat then 1 else 0.
Proof.
  intros La Lb Lr. unfold CtoABp_entry. cbv zeta.
  replace (if (a <? b)%nat then a else b) with (Nat.min a b) by (destruct (Nat.ltb_spec a b); lia).
  replace (if (a <? b)%nat then b else a) with (Nat.max a b) by (destruct (Nat.ltb_spec a b); lia).
  assert (1 <= Nat.min a b)%nat by lia. set (s := Nat.min a b) in *. set (e := Nat.max a b) in *. clearbody s e. clear a b La Lb.
  replace (g + (s + 1) / 2 <=? S r)%nat with false by (symmetry; apply Nat.leb_gt; lia). cbn [andb]. rewrite orb_false_r.
  match goal with |- (if ?x then 1 else 0) = (if ?y then 1 else 0) => replace x with y; [reflexivity|] end.
  f_equal; apply eq_true_iff_eq; rewrite !Nat.leb_le; lia.
Qed.
Lemma entry_B g a b r : (1 <= a <= 2 * g + 1)%nat -> (1 <= b <= 2 * g + 1)%nat -> (r < g)%nat ->
  CtoABp_entry g a b (g + r)%nat = if ((Nat.min a b <=? 2 * r + 2) && (2 * r + 3 <=? Nat.max a b))%nat then 1 else 0.
Proof.
  intros La Lb Lr. unfold CtoABp_entry. cbv zeta.
  replace (if (a <? b)%nat then a else b) with (Nat.min a b) by (destruct (Nat.ltb_spec a b); lia).
  replace (if (a <? b)%nat then b else a) with (Nat.max a b) by (destruct (Nat.ltb_spec a b); lia).
  assert (1 <= Nat.min a b)%nat by lia. assert (Nat.max a b <= 2 * g + 1)%nat by lia. set (s := Nat.min a b) in *. set (e := Nat.max a b) in *. clearbody s e. clear a b La Lb.
  replace (S (g + r) <=? e / 2)%nat with false by (symmetry; apply Nat.leb_gt; lia). rewrite andb_false_r. cbn [orb].
  match goal with |- (if ?x then 1 else 0) = (if ?y then 1 else 0) => replace x with y; [reflexivity|] end.
  f_equal; apply eq_true_iff_eq; rewrite !Nat.leb_le; lia.
Qed.

Lemma ends_ok g a b : (1 <= a <= 2 * g + 1)%nat -> (1 <= b <= 2 * g + 1)%nat -> a <> b -> same_ends g (CtoABp_entry g a b) (a, b).
Proof.
  intros La Lb Hne v Lv. rewrite zsum_double.
  rewrite (zsum_ext g (fun r => CtoABp_entry g a b r * is_end v (loop_ends g r)) (fun r => (if ((v - 1) / 2 =? r)%nat then 1 else 0) * CtoABp_entry g a b r)).
  2:{ intros r Lr. unfold loop_ends. destruct (Nat.ltb_spec r g); [|lia]. unfold is_end. cbn [fst snd].
      destruct (Nat.eqb_spec v (2 * r + 1)), (Nat.eqb_spec v (2 * r + 2)), (Nat.eqb_spec ((v - 1) / 2) r); lia. }
  rewrite (zsum_ext g (fun r => CtoABp_entry g a b (g + r)%nat * is_end v (loop_ends g (g + r))) (fun r => (if ((v - 2) / 2 =? r)%nat then 1 else 0) * (if (1 <? v)%nat then CtoABp_entry g a b (g + r)%nat else 0))).
  2:{ intros r Lr. unfold loop_ends. destruct (Nat.ltb_spec (g + r) g); [lia|]. unfold is_end. cbn [fst snd]. replace (g + r - g)%nat with r by lia.
      destruct (Nat.eqb_spec v (2 * r + 2)), (Nat.eqb_spec v (2 * r + 3)), (Nat.eqb_spec ((v - 2) / 2) r), (Nat.ltb_spec 1 v); lia. }
  assert (P : forall n (f : nat -> Z) i, zsum n (fun k => (if (i =? k)%nat then 1 else 0) * f k) = if (i <? n)%nat then f i else 0).
  { intros n f i. destruct (Nat.ltb_spec i n); [now apply zpick|]. apply zsum_zero. intros k Lk. destruct (Nat.eqb_spec i k); lia. }
  rewrite !P.
  assert (Hv : exists u, v = (2 * u + 1)%nat \/ v = (2 * u + 2)%nat) by (exists ((v - 1) / 2)%nat; lia). destruct Hv as [u Hv].
  replace ((v - 1) / 2)%nat with u by lia.
  assert (EA : (if (u <? g)%nat then CtoABp_entry g a b u else 0) = if ((Nat.min a b <=? 2 * u + 1) && (2 * u + 2 <=? Nat.max a b))%nat then 1 else 0).
  { destruct (Nat.ltb_spec u g); [now apply entry_A|]. replace (2 * u + 2 <=? Nat.max a b)%nat with false by (symmetry; apply Nat.leb_gt; lia). now rewrite andb_false_r. }
  rewrite EA. unfold is_end. cbn [fst snd].
  assert (EB : (if ((v - 2) / 2 <? g)%nat then if (1 <? v)%nat then CtoABp_entry g a b (g + (v - 2) / 2)%nat else 0 else 0) =
     if ((1 <? v) && (Nat.min a b <=? 2 * ((v - 2) / 2) + 2) && (2 * ((v - 2) / 2) + 3 <=? Nat.max a b))%nat then 1 else 0).
  { destruct (Nat.ltb_spec ((v - 2) / 2) g).
    - rewrite entry_B by assumption. destruct (1 <? v)%nat; reflexivity.
    - replace (2 * ((v - 2) / 2) + 3 <=? Nat.max a b)%nat with false by (symmetry; apply Nat.leb_gt; lia). now rewrite andb_false_r. }
  rewrite EB. clear EA EB P. set (w := ((v - 2) / 2)%nat).
  assert (Hw : (v = 2 * u + 1 -> w = u - 1)%nat /\ (v = 2 * u + 2 -> w = u)%nat) by (unfold w; lia). clearbody w.
  assert (Mod : forall b1 b2 b3 b4 : bool, xorb b1 b2 = xorb b3 b4 -> ((if b1 then 1 else 0) + (if b2 then 1 else 0) - ((if b3 then 1 else 0) + (if b4 then 1 else 0))) mod 2 = 0)
    by (intros [|] [|] [|] [|]; cbn; congruence).
  apply Mod. clear Mod.
  destruct (Nat.eqb_spec v a), (Nat.eqb_spec v b); cbn [xorb]; try lia;
    destruct (Nat.leb_spec (Nat.min a b) (2 * u + 1)), (Nat.leb_spec (2 * u + 2) (Nat.max a b)), (Nat.ltb_spec 1 v), (Nat.leb_spec (Nat.min a b) (2 * w + 2)), (Nat.leb_spec (2 * w + 3) (Nat.max a b));
    cbn [andb xorb negb]; try reflexivity; exfalso; lia.
Qed.
