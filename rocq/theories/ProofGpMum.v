(** Proofs about the matrices of homology bases of the GP scripts. *)
From Coq Require Import Setoid Morphisms.
From Verif Require Import Base ModelGpMum SpecGpMum ProofGpSymp.

#[export] Instance meq_equiv n : Equivalence (meq n).
Proof. split; [intros A i j _ _; reflexivity|intros A B H i j Li Lj; now rewrite H|intros A B D H1 H2 i j Li Lj; rewrite H1, H2; auto]. Qed.
#[export] Instance mmul_proper n : Proper (meq n ==> meq n ==> meq n) (mmul n).
Proof. intros A A' HA B B' HB i j Li Lj. apply zsum_ext. intros k Lk. now rewrite HA, HB. Qed.
#[export] Instance transpose_proper n : Proper (meq n ==> meq n) transpose.
Proof. intros A A' HA i j Li Lj. now apply HA. Qed.

Lemma meqb_spec n A B : meqb n A B = true <-> meq n A B.
Proof.
  unfold meqb. rewrite forallb_forall. split.
  - intros H i j Li Lj. specialize (H i ltac:(apply in_seq; lia)). rewrite forallb_forall in H. apply Z.eqb_eq, H, in_seq. lia.
  - intros H i Hi. apply in_seq in Hi. apply forallb_forall. intros j Hj. apply in_seq in Hj. apply Z.eqb_eq, H; lia.
Qed.
Lemma mmul_assoc n A B D : meq n (mmul n (mmul n A B) D) (mmul n A (mmul n B D)).
Proof.
  intros i j _ _. unfold mmul. rewrite (zsum_ext n _ (fun k => zsum n (fun l => A i l * B l k * D k j))).
  2:{ intros k _. rewrite Z.mul_comm, <- zsum_scal. apply zsum_ext. intros; ring. }
  rewrite zsum_swap. apply zsum_ext. intros l _. rewrite <- zsum_scal. apply zsum_ext. intros; ring.
Qed.
Lemma transpose_mmul n A B : meq n (transpose (mmul n A B)) (mmul n (transpose B) (transpose A)).
Proof. intros i j _ _. unfold transpose, mmul. apply zsum_ext. intros; ring. Qed.
Lemma zpick n (f : nat -> Z) i : (i < n)%nat -> zsum n (fun a => (if (i =? a)%nat then 1 else 0) * f a) = f i.
Proof.
  intros L. assert (G : forall k, zsum k (fun a => (if (i =? a)%nat then 1 else 0) * f a) = if (i <? k)%nat then f i else 0).
  { induction k as [|k IHk]; [reflexivity|]. cbn [zsum]. rewrite IHk. destruct (Nat.ltb_spec i k), (Nat.ltb_spec i (S k)), (Nat.eqb_spec i k); try lia; subst; lia. }
  rewrite G. destruct (Nat.ltb_spec i n); [reflexivity|lia].
Qed.
Lemma ident_l n A : meq n (mmul n ident A) A.
Proof. intros i j Li _. unfold mmul, ident. exact (zpick n (fun k => A k j) i Li). Qed.
Lemma ident_r n A : meq n (mmul n A ident) A.
Proof.
  intros i j _ Lj. unfold mmul, ident. rewrite (zsum_ext n _ (fun k => (if (j =? k)%nat then 1 else 0) * A i k)); [now apply zpick|].
  intros k _. rewrite Nat.eqb_sym. ring.
Qed.

(** ** A, B and B' *)
Lemma inverse_bases g : meq (2 * g) (mmul (2 * g) (transpose (ABptoAB g)) (ABtoABp g)) ident.
Proof.
  intros i j Li Lj. unfold mmul, transpose.
  (* column i of ABptoAB: 1 in row i and, if i > g, -1 in row i-1 *)
  rewrite (zsum_ext (2 * g) _ (fun k => (if (i =? k)%nat then 1 else 0) * ABtoABp g k j + (if (i - 1 =? k)%nat then 1 else 0) * (if (g <? i)%nat then - ABtoABp g k j else 0))).
  2:{ intros k Lk. unfold ABptoAB. destruct (Nat.leb_spec g k), (Nat.eqb_spec i (S k)), (Nat.eqb_spec k i), (Nat.eqb_spec i k), (Nat.eqb_spec (i - 1) k), (Nat.ltb_spec g i); cbn [andb]; subst; try lia. }
  rewrite zsum_add, !zpick by lia. unfold ABtoABp, ident.
  destruct (Nat.ltb_spec j g), (Nat.ltb_spec g i), (Nat.eqb_spec i j), (Nat.eqb_spec (i - 1) j), (Nat.leb_spec j i), (Nat.leb_spec j (i - 1)); subst; try lia.
Qed.

Lemma ref_ok g : meq (2 * g) (pullback (2 * g) (ABtoABp g) (int_ABp_ref g)) (matJ g).
Proof.
  unfold pullback, int_ABp_ref. set (n := (2 * g)%nat). set (L := ABtoABp g). set (K := ABptoAB g).
  pose proof (inverse_bases g) as H. fold n L K in H.
  assert (H' : meq n (mmul n (transpose L) K) ident).
  { transitivity (transpose (mmul n (transpose K) L)).
    - rewrite transpose_mmul. reflexivity.
    - rewrite H. intros i j _ _. unfold transpose, ident. now rewrite Nat.eqb_sym. }
  rewrite !mmul_assoc. rewrite H, ident_r. rewrite <- mmul_assoc, H', ident_l. reflexivity.
Qed.

(** ** Signs *)
Lemma place_some l i j s : place l i j = Some s -> In (i, j) l /\ (s < length l)%nat.
Proof.
  revert s. induction l as [|[a b] l IH]; intros s; cbn [place]; [discriminate|].
  destruct (Nat.eqb_spec a i), (Nat.eqb_spec b j); cbn [andb];
    try (destruct (place l i j) as [s'|]; cbn [option_map]; [|discriminate]; intros H; injection H as <-; destruct (IH s' eq_refl); cbn [length]; split; [now right|lia]).
  intros H; injection H as <-. subst. split; [now left|cbn; lia].
Qed.
Lemma place_none l i j : place l i j = None -> ~ In (i, j) l.
Proof.
  induction l as [|[a b] l IH]; cbn [place]; [intros _ []|].
  destruct (Nat.eqb_spec a i), (Nat.eqb_spec b j); cbn [andb]; try discriminate;
    (destruct (place l i j); cbn [option_map]; [discriminate|]; intros _ [H|H]; [injection H; lia|now apply IH]).
Qed.

(** a number with given bits *)
Fixpoint number (n : nat) (f : nat -> bool) : nat :=
  match n with O => O | S n => (Nat.b2n (f O) + 2 * number n (fun k => f (S k)))%nat end.
Lemma number_bits n : forall f s, (s < n)%nat -> Nat.testbit (number n f) s = f s.
Proof.
  induction n as [|n IH]; intros f s L; [lia|]. cbn [number]. destruct s as [|s].
  - apply Nat.add_b2n_double_bit0.
  - cbn [Nat.testbit]. rewrite Nat.div2_div. rewrite Nat.add_b2n_double_div2. apply (IH (fun k => f (S k)) s). lia.
Qed.
Lemma number_lt n : forall f, (number n f < 2 ^ n)%nat.
Proof. induction n as [|n IH]; intros f; cbn [number Nat.pow]; [lia|]. specialize (IH (fun k => f (S k))). destruct (f O); cbn [Nat.b2n]; lia. Qed.

Lemma place_nth l i j s : place l i j = Some s -> nth s l (O, O) = (i, j).
Proof.
  revert s. induction l as [|[a b] l IH]; intros s; cbn [place]; [discriminate|].
  destruct (Nat.eqb_spec a i), (Nat.eqb_spec b j); cbn [andb];
    try (destruct (place l i j) as [s'|]; cbn [option_map]; [|discriminate]; intros H; injection H as <-; cbn [nth]; now apply IH).
  intros H; injection H as <-. now subst.
Qed.

Section Signs.
Variables (n : nat) (A : gmat).
Hypothesis bits : forall i j, A i j = 0 \/ A i j = 1.
Lemma places_in i j : In (i, j) (sign_places n A) <-> (i < n)%nat /\ (j < n)%nat /\ A i j = 1.
Proof.
  unfold sign_places. rewrite filter_In, in_prod_iff, !in_seq. cbn [fst snd]. rewrite negb_true_iff, Z.eqb_neq. specialize (bits i j). intuition lia.
Qed.
Lemma signs_signed k : signed n A (with_signs n A k).
Proof.
  intros i j Li Lj. unfold with_signs. destruct (place (sign_places n A) i j) as [s|] eqn:E; [|now left].
  apply place_some in E as [E _]. apply places_in in E as (_ & _ & ->). destruct (Nat.testbit k s); lia.
Qed.
Lemma signs_all T : signed n A T -> exists k, (k < 2 ^ length (sign_places n A))%nat /\ meq n (with_signs n A k) T.
Proof.
  intros HT. set (l := sign_places n A). set (f := fun s => T (fst (nth s l (O, O))) (snd (nth s l (O, O))) =? -1).
  exists (number (length l) f). split; [apply number_lt|]. intros i j Li Lj. unfold with_signs. fold l.
  destruct (place l i j) as [s|] eqn:E.
  - pose proof (place_nth _ _ _ _ E) as En. apply place_some in E as [E Ls]. rewrite number_bits by assumption. unfold f. rewrite En. cbn [fst snd].
    apply places_in in E as (_ & _ & E). destruct (HT i j Li Lj) as [H|H]; rewrite H, E; reflexivity.
  - apply place_none in E. destruct (HT i j Li Lj) as [H|H]; destruct (bits i j) as [B|B]; try lia; exfalso; apply E, places_in; auto.
Qed.
End Signs.

Lemma CtoABp_bits g tree i j : CtoABp g tree i j = 0 \/ CtoABp g tree i j = 1.
Proof. unfold CtoABp, CtoABp_entry. cbv zeta. match goal with |- context [if ?b then 1 else 0] => destruct b end; auto. Qed.

Lemma search_found g tree Ic T : test_all_signs g tree Ic = Some T ->
  signed (2 * g) (CtoABp g tree) T /\ meq (2 * g) (pullback (2 * g) T (int_ABp_ref g)) Ic.
Proof.
  unfold test_all_signs. cbv zeta. destruct (find _ _) as [k|] eqn:E; cbn [option_map]; [|discriminate]. intros H; injection H as <-.
  split; [apply signs_signed, CtoABp_bits|]. apply find_some in E as [_ E]. now apply meqb_spec in E.
Qed.
Lemma search_none g tree Ic : test_all_signs g tree Ic = None ->
  forall T, signed (2 * g) (CtoABp g tree) T -> ~ meq (2 * g) (pullback (2 * g) T (int_ABp_ref g)) Ic.
Proof.
  unfold test_all_signs. cbv zeta. destruct (find _ _) as [k|] eqn:E; cbn [option_map]; [discriminate|]. intros _ T HT H.
  destruct (signs_all (2 * g) (CtoABp g tree) (CtoABp_bits g tree) T HT) as (k & Lk & Hk).
  pose proof (find_none _ _ E k ltac:(apply in_seq; lia)) as Hn. cbv beta in Hn.
  assert (F : meqb (2 * g) (mmul (2 * g) (mmul (2 * g) (transpose (with_signs (2 * g) (CtoABp g tree) k)) (int_ABp_ref g)) (with_signs (2 * g) (CtoABp g tree) k)) Ic = true); [|congruence].
  apply meqb_spec. rewrite Hk. exact H.
Qed.

Lemma mumford_ok inverse g tree Ic R : (forall T Q, inverse T = Some Q -> meq (2 * g) (mmul (2 * g) T Q) ident) ->
  MumfordABtoC inverse g tree Ic = Done R -> meq (2 * g) (pullback (2 * g) R Ic) (matJ g).
Proof.
  intros Hinv. unfold MumfordABtoC. destruct (test_all_signs g tree Ic) as [T|] eqn:E; [|discriminate].
  destruct (inverse T) as [Q|] eqn:EQ; [|discriminate]. intros H; injection H as <-.
  apply search_found in E as [_ E]. specialize (Hinv T Q EQ). set (n := (2 * g)%nat) in *. set (L := ABtoABp g).
  assert (Hinv' : meq n (mmul n (transpose Q) (transpose T)) ident).
  { rewrite <- transpose_mmul, Hinv. intros i j _ _. unfold transpose, ident. now rewrite Nat.eqb_sym. }
  transitivity (pullback n L (int_ABp_ref g)); [|exact (ref_ok g)].
  change (g + (g + 0))%nat with n. unfold pullback in *. rewrite <- E. rewrite transpose_mmul. rewrite !mmul_assoc.
  apply mmul_proper; [reflexivity|]. rewrite <- !mmul_assoc. rewrite Hinv', ident_l. rewrite !mmul_assoc.
  apply mmul_proper; [reflexivity|]. rewrite <- !mmul_assoc. rewrite Hinv, ident_l. reflexivity.
Qed.
