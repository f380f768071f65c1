(** The rank of a form with a symplectic basis. *)
From Verif Require Import Base CArg ModelTree ModelPeriod ModelSymp SpecSymp SpecInter ModelMaSymp SpecMaSymp SpecMaPeriod ProofSymp ProofSympMain ProofSympRank ProofLat1.
Local Open Scope Z_scope.

Section Rank.
Context (r g : nat) (k b : mat).
Hypothesis Hu : unimodular r b.
Hypothesis Hg : (2 * g <= r)%nat.
Hypothesis Hb : is_symplectic_basis r g k b.

Lemma standard_sum (c : nat -> Z) : (forall j, (j < 2 * g)%nat -> zsum (2 * g) (fun i => c i * standard g i j) = 0) -> forall i, (i < 2 * g)%nat -> c i = 0.
Proof using Hg.
  intros H i Hi. destruct (Nat.lt_ge_cases i g) as [L|L].
  - specialize (H (i + g)%nat ltac:(lia)). rewrite (zsum_one _ _ i Hi) in H. rewrite zsum_zero in H.
    + unfold standard in H. destruct (Nat.ltb_spec i g); [|lia]. rewrite Nat.eqb_refl in H. cbn [andb] in H. lia.
    + intros l Hl. destruct (Nat.eqb_spec l i); [reflexivity|]. unfold standard. destruct (Nat.eqb_spec (i + g) (l + g)); [lia|]. rewrite andb_false_r. destruct (Nat.ltb_spec (i + g) g); [lia|]. cbn. lia.
  - specialize (H (i - g)%nat ltac:(lia)). rewrite (zsum_one _ _ i Hi) in H. rewrite zsum_zero in H.
    + unfold standard in H. destruct (Nat.ltb_spec i g); [lia|]. cbn [andb] in H. destruct (Nat.ltb_spec (i - g) g); [|lia]. destruct (Nat.eqb_spec i (i - g + g)); [|lia]. cbn [andb] in H. lia.
    + intros l Hl. destruct (Nat.eqb_spec l i); [reflexivity|]. unfold standard. destruct (Nat.eqb_spec (i - g) (l + g)); [lia|]. rewrite andb_false_r. destruct (Nat.eqb_spec l (i - g + g)); [lia|]. rewrite andb_false_r. lia.
Qed.
(** the form on the basis *)
Lemma on_basis a c : (a < r)%nat -> (c < r)%nat -> zsum r (fun l => zsum r (fun i => get b a i * get k i l) * get b c l) = standard g a c.
Proof using Hb.
  intros Ha Hc. destruct Hb as (j & HC & HJ). rewrite <- (HJ a c Ha Hc). rewrite (HC a c Ha Hc).
  rewrite (zsum_swap r r (fun i l => get b a i * get k i l * get b c l)). apply zsum_ext. intros l Hl. symmetry. apply zsum_scal_r.
Qed.
(** a vector that every vector of the basis kills is zero *)
Lemma basis_kills (u : nat -> Z) : (forall c, (c < r)%nat -> zsum r (fun l => u l * get b c l) = 0) -> forall l, (l < r)%nat -> u l = 0.
Proof using Hu.
  intros H l Hl. destruct Hu as (q & _ & Hq). rewrite <- (zsum_delta_r r l u Hl).
  transitivity (zsum r (fun c => zsum r (fun l' => u l' * get b c l') * get q l c)).
  - transitivity (zsum r (fun l' => zsum r (fun c => u l' * get b c l' * get q l c))).
    + apply zsum_ext. intros l' Hl'. destruct (Hq l l' Hl Hl') as [_ E]. rewrite delta_sym, <- E, <- zsum_scal. apply zsum_ext. intros. ring.
    + rewrite (zsum_swap r r (fun l' c => u l' * get b c l' * get q l c)). apply zsum_ext. intros c Hc. symmetry. rewrite <- zsum_scal_r. reflexivity.
  - apply zsum_zero. intros c Hc. rewrite H by exact Hc. reflexivity.
Qed.
Lemma basis_radical c i : (2 * g <= c < r)%nat -> (i < r)%nat -> zsum r (fun l => get k i l * get b c l) = 0.
Proof using Hb Hg Hu.
  intros Hc Hi. destruct Hu as (q & _ & Hq).
  assert (Z0 : forall a, (a < r)%nat -> zsum r (fun i => get b a i * zsum r (fun l => get k i l * get b c l)) = 0).
  { intros a Ha. transitivity (standard g a c).
    - rewrite <- (on_basis a c Ha ltac:(lia)). transitivity (zsum r (fun i => zsum r (fun l => get b a i * get k i l * get b c l))).
      + apply zsum_ext. intros i' _. rewrite <- zsum_scal. apply zsum_ext. intros. ring.
      + rewrite (zsum_swap r r (fun i l => get b a i * get k i l * get b c l)). apply zsum_ext. intros l _. apply zsum_scal_r.
    - unfold standard. destruct (Nat.ltb_spec a g), (Nat.eqb_spec c (a + g)), (Nat.ltb_spec c g); cbn [andb]; try lia; reflexivity. }
  rewrite <- (zsum_delta_l r i (fun i => zsum r (fun l => get k i l * get b c l)) Hi).
  transitivity (zsum r (fun i' => zsum r (fun a => get q i a * (get b a i' * zsum r (fun l => get k i' l * get b c l))))).
  - apply zsum_ext. intros i' Hi'. destruct (Hq i i' Hi Hi') as [_ E]. rewrite <- E, <- zsum_scal_r. apply zsum_ext. intros. ring.
  - rewrite (zsum_swap r r (fun i' a => get q i a * (get b a i' * zsum r (fun l => get k i' l * get b c l)))). apply zsum_zero. intros a Ha. rewrite zsum_scal, Z0 by exact Ha. ring.
Qed.

Lemma rank_lower : rank_at_least r (2 * g) k.
Proof using Hb Hg.
  exists (fun i l => get b i l). intros c H. apply standard_sum. intros j Hj.
  transitivity (zsum r (fun l => zsum (2 * g) (fun i => c i * zsum r (fun l' => get b i l' * get k l' l)) * get b j l)).
  - transitivity (zsum (2 * g) (fun i => zsum r (fun l => c i * zsum r (fun l' => get b i l' * get k l' l) * get b j l))).
    + apply zsum_ext. intros i Hi. rewrite <- (on_basis i j ltac:(lia) ltac:(lia)), <- zsum_scal. apply zsum_ext. intros. ring.
    + rewrite (zsum_swap (2 * g) r). apply zsum_ext. intros l _. apply zsum_scal_r.
  - apply zsum_zero. intros l Hl. rewrite H by exact Hl. ring.
Qed.
Lemma rank_upper n : (2 * g < n)%nat -> ~ rank_at_least r n k.
Proof using Hb Hg Hu.
  intros Hn (v & H). set (u := fun i j => zsum r (fun l => v i l * get k l j)).
  destruct (homogeneous (2 * g) n (fun i e => zsum r (fun l => u i l * get b e l)) Hn) as (c & (a & Ha & Na) & Hc). apply Na. revert a Ha Na. intros a Ha Na. apply (H c); [|exact Ha].
  change (forall j, (j < r)%nat -> zsum n (fun i => c i * u i j) = 0). apply basis_kills. intros e He.
  transitivity (zsum n (fun i => c i * zsum r (fun l => u i l * get b e l))).
  - transitivity (zsum r (fun l => zsum n (fun i => c i * u i l * get b e l))).
    + apply zsum_ext. intros l _. rewrite <- zsum_scal_r. reflexivity.
    + rewrite (zsum_swap r n). apply zsum_ext. intros i _. rewrite <- zsum_scal. apply zsum_ext. intros. ring.
  - destruct (Nat.lt_ge_cases e (2 * g)) as [L|L]; [apply Hc, L|]. apply zsum_zero. intros i Hi.
    assert (E : zsum r (fun l => u i l * get b e l) = 0); [|rewrite E; ring].
    transitivity (zsum r (fun l => zsum r (fun l' => v i l' * (get k l' l * get b e l)))).
    + apply zsum_ext. intros l _. unfold u. rewrite <- zsum_scal_r. apply zsum_ext. intros. ring.
    + rewrite (zsum_swap r r (fun l l' => v i l' * (get k l' l * get b e l))). apply zsum_zero. intros l' Hl'. rewrite zsum_scal, basis_radical by lia. ring.
Qed.
End Rank.

Lemma rank_less r n n' k : (n' <= n)%nat -> rank_at_least r n k -> rank_at_least r n' k.
Proof.
  intros Hn (v & H). exists v. intros c Hc i Hi. set (c' := fun i => if (i <? n')%nat then c i else 0).
  assert (E : c' i = c i) by (unfold c'; destruct (Nat.ltb_spec i n'); [reflexivity|lia]). rewrite <- E. apply (H c'); [|lia].
  intros j Hj. rewrite <- (Hc j Hj). clear - Hn. induction Hn as [|n Hn IH].
  - apply zsum_ext. intros i Hi. unfold c'. destruct (Nat.ltb_spec i n'); [reflexivity|lia].
  - cbn [zsum]. rewrite IH. unfold c' at 1. destruct (Nat.ltb_spec n n'); [lia|]. ring.
Qed.
Lemma rank_is rank r g k b : rank_ok rank -> square r k -> unimodular r b -> (2 * g <= r)%nat -> is_symplectic_basis r g k b -> rank k = (2 * g)%nat.
Proof.
  intros Hr Hk Hu Hg Hb. destruct (Hr r k Hk) as [H1 H2]. destruct (lt_eq_lt_dec (rank k) (2 * g)) as [[L|E]|L]; [|exact E|].
  - exfalso. apply H2. apply (rank_less r (2 * g)); [lia|]. apply (rank_lower r g k b); assumption.
  - exfalso. apply (rank_upper r g k b Hu Hg Hb _ L H1).
Qed.
