(** The concrete extended gcd, the self check and the witnesses. *)
From Verif Require Import Base ModelSymp SpecSymp ProofSymp ProofSympRed ProofSympMain ProofSympRank.

(* ------------------------------------------------------------------ *)
(** * [egcd] meets the contract of fmpz_xgcd *)

Lemma egcd_pos_lin : forall f a b, let '(g, u, v) := egcd_pos f a b in u * a + v * b = g.
Proof.
  induction f as [|f IH]; intros a b; cbn [egcd_pos]; [ring|].
  destruct (Z.eqb_spec b 0) as [->|Hb]; [ring|].
  specialize (IH b (a mod b)). destruct (egcd_pos f b (a mod b)) as [[g u] v].
  rewrite <- IH. rewrite (Z.div_mod a b Hb) at 1. ring.
Qed.

Lemma egcd_pos_gcd : forall k f a b, 0 <= a -> 0 <= b < 2 ^ Z.of_nat k -> (2 * k < f)%nat ->
  fst (fst (egcd_pos f a b)) = Z.gcd a b.
Proof.
  induction k as [|k IH]; intros f a b Ha Hb Hf.
  - change (2 ^ Z.of_nat 0) with 1 in Hb. replace b with 0 by lia.
    destruct f; [lia|]. cbn. rewrite Z.gcd_0_r. lia.
  - destruct f as [|f]; [lia|]. cbn [egcd_pos].
    destruct (Z.eqb_spec b 0) as [->|Hb0]; [cbn; rewrite Z.gcd_0_r; lia|].
    pose proof (Z.mod_pos_bound a b ltac:(lia)) as H1.
    assert (Hg1 : Z.gcd a b = Z.gcd b (a mod b)).
    { rewrite (Z.gcd_comm b), Z.gcd_mod by lia. apply Z.gcd_comm. }
    set (c := a mod b) in *.
    enough (E : fst (fst (egcd_pos f b c)) = Z.gcd b c).
    { destruct (egcd_pos f b c) as [[g u] v]. cbn in *. congruence. }
    destruct f as [|f]; [lia|]. cbn [egcd_pos].
    destruct (Z.eqb_spec c 0) as [->|Hc0]; [cbn; rewrite Z.gcd_0_r; lia|].
    pose proof (Z.mod_pos_bound b c ltac:(lia)) as H2.
    assert (Hhalf : 2 * (b mod c) < b).
    { pose proof (Z.div_mod b c ltac:(lia)) as E.
      assert (1 <= b / c) by (apply Z.div_le_lower_bound; lia).
      assert (c <= c * (b / c)) by (rewrite <- (Z.mul_1_r c) at 1; apply Z.mul_le_mono_nonneg_l; lia).
      lia. }
    assert (Hg2 : Z.gcd b c = Z.gcd c (b mod c)).
    { rewrite (Z.gcd_comm c), Z.gcd_mod by lia. apply Z.gcd_comm. }
    rewrite Hg2.
    rewrite Nat2Z.inj_succ, Z.pow_succ_r in Hb by lia.
    specialize (IH f c (b mod c) ltac:(lia) ltac:(lia) ltac:(lia)).
    destruct (egcd_pos f c (b mod c)) as [[g u] v]. exact IH.
Qed.

Lemma egcd_ok : xgcd_ok egcd.
Proof.
  intros a b. unfold egcd.
  set (f := S (Z.to_nat (2 * (1 + Z.log2 (Z.abs b))))).
  pose proof (egcd_pos_lin f (Z.abs a) (Z.abs b)) as H1.
  assert (H2 : fst (fst (egcd_pos f (Z.abs a) (Z.abs b))) = Z.gcd (Z.abs a) (Z.abs b)).
  { apply (egcd_pos_gcd (Z.to_nat (1 + Z.log2 (Z.abs b)))).
    - lia.
    - pose proof (Z.log2_nonneg (Z.abs b)). rewrite Z2Nat.id by lia. split; [lia|].
      destruct (Z.eq_dec b 0) as [->|]; [reflexivity|].
      rewrite Z.add_1_l. apply Z.log2_spec. lia.
    - unfold f. pose proof (Z.log2_nonneg (Z.abs b)). lia. }
  destruct (egcd_pos f (Z.abs a) (Z.abs b)) as [[g u] v]. cbn [fst] in H2.
  split.
  - rewrite H2. rewrite Z.gcd_abs_l, Z.gcd_abs_r. reflexivity.
  - rewrite <- H1. rewrite <- (Z.sgn_abs a), <- (Z.sgn_abs b). ring.
Qed.

(* ------------------------------------------------------------------ *)
(** * The self check *)
Lemma is_symplectic_j_spec m g g2 : is_symplectic_j m g g2 = true <->
  forall i, (i < g)%nat ->
    (forall j, (j < g2)%nat -> j <> (2 * i + 1)%nat -> get m (2 * i) j = 0) /\
    (forall j, (j < g2)%nat -> j <> (2 * i)%nat -> get m (2 * i + 1) j = 0) /\
    get m (2 * i + 1) (2 * i) = - get m (2 * i) (2 * i + 1).
Proof.
  unfold is_symplectic_j. rewrite forallb_forall. split.
  - intros H i Hi. specialize (H i). rewrite in_seq in H. specialize (H ltac:(lia)).
    apply andb_true_iff in H. destruct H as [H1 H2]. rewrite forallb_forall in H1.
    conj.
    + intros j Hj Hne. specialize (H1 j). rewrite in_seq in H1. specialize (H1 ltac:(lia)).
      apply andb_true_iff in H1. destruct H1 as [H1 _].
      apply orb_true_iff in H1. destruct H1 as [H1|H1].
      * apply Nat.eqb_eq in H1. contradiction.
      * apply Z.eqb_eq in H1. exact H1.
    + intros j Hj Hne. specialize (H1 j). rewrite in_seq in H1. specialize (H1 ltac:(lia)).
      apply andb_true_iff in H1. destruct H1 as [_ H1].
      apply orb_true_iff in H1. destruct H1 as [H1|H1].
      * apply Nat.eqb_eq in H1. contradiction.
      * apply Z.eqb_eq in H1. exact H1.
    + apply Z.eqb_eq in H2. symmetry. exact H2.
  - intros H i Hi. rewrite in_seq in Hi. destruct (H i ltac:(lia)) as (H1 & H2 & H3).
    apply andb_true_iff. split; [|apply Z.eqb_eq; symmetry; exact H3].
    rewrite forallb_forall. intros j Hj. rewrite in_seq in Hj.
    apply andb_true_iff. split; apply orb_true_iff.
    + destruct (Nat.eq_dec j (2 * i + 1)); [left; apply Nat.eqb_eq; assumption|right].
      apply Z.eqb_eq, H1; [lia|assumption].
    + destruct (Nat.eq_dec j (2 * i)); [left; apply Nat.eqb_eq; assumption|right].
      apply Z.eqb_eq, H2; [lia|assumption].
Qed.

(* ------------------------------------------------------------------ *)
(** * A form on which the reduction returns a block of value -1 *)
Definition m_sign : mat := [[0; 2; 0]; [-2; 0; 3]; [0; -3; 0]].

Lemma square_check r m : (length m =? r)%nat && forallb (fun row => (length row =? r)%nat) m = true ->
  square r m.
Proof.
  intros H. apply andb_true_iff in H. destruct H as [H1 H2]. split.
  - apply Nat.eqb_eq, H1.
  - rewrite forallb_forall in H2. intros row Hr. apply Nat.eqb_eq, H2, Hr.
Qed.

(** check a statement on all pairs of indices below r by computation *)
Lemma all2_check (F : nat -> nat -> bool) r :
  forallb (fun i => forallb (F i) (seq 0 r)) (seq 0 r) = true ->
  forall i j, (i < r)%nat -> (j < r)%nat -> F i j = true.
Proof.
  intros H i j Hi Hj. rewrite forallb_forall in H. specialize (H i).
  rewrite in_seq in H. specialize (H ltac:(lia)). rewrite forallb_forall in H.
  apply H, in_seq. lia.
Qed.

Lemma antisym_check r m :
  forallb (fun i => forallb (fun j => get m i j =? - get m j i) (seq 0 r)) (seq 0 r) = true ->
  antisymmetric r m.
Proof.
  intros H i j Hi Hj. apply Z.eqb_eq.
  exact (all2_check (fun i j => get m i j =? - get m j i) r H i j Hi Hj).
Qed.

Lemma m_sign_saturated : saturated 3 m_sign.
Proof.
  exists [[0; 1; 0]; [-1; 0; -1]; [0; 1; 0]].
  intros a b Ha Hb. apply Z.eqb_eq. revert a b Ha Hb. apply all2_check. vm_compute. reflexivity.
Qed.

Lemma m_sign_rank : independent_rows 3 2 m_sign.
Proof.
  exists (fun a => a). split; [lia|]. intros c Hc a Ha.
  pose proof (Hc 0%nat ltac:(lia)) as H0. pose proof (Hc 1%nat ltac:(lia)) as H1.
  cbn in H0, H1. destruct a as [|[|]]; lia.
Qed.

Lemma m_sign_minus xgcd : xgcd_ok xgcd ->
  exists s, symplectic_reduction xgcd m_sign 1 = Done s /\ get (stM s) 0 1 = -1.
Proof.
  intros Hx. pose proof (Hx (-2) 3) as H. destruct (xgcd (-2) 3) as [[g u] v] eqn:Ex.
  change (Z.gcd (-2) 3) with 1 in H. destruct H as [-> Huv].
  set (s0 := {| stP := mat_one 3; stM := m_sign |}).
  assert (E0 : symplectic_reduction xgcd m_sign 1 = clear_loop xgcd 2 0 1 3 s0).
  { unfold symplectic_reduction, main_loop.
    change (find_pivot (nrows m_sign) {| stP := mat_one (nrows m_sign); stM := m_sign |} 0)
      with (Done (s0, Some (3%nat, 1%nat))).
    cbn [bind]. unfold reduce_block. cbn [Nat.eqb Nat.add Nat.mul bind].
    change (get (stM s0) 0 1 <? 0) with false. cbn [bind].
    change (S (Z.to_nat (Z.log2 (Z.abs (get (stM s0) 0 1))))) with 2%nat.
    destruct (clear_loop xgcd 2 0 1 3 s0); reflexivity. }
  rewrite E0. cbn [clear_loop].
  change (for_each (range (1 + 1) 3) (clear_i_body xgcd 0 1) s0) with (Done s0). cbn [bind].
  set (s1 := {| stP := row_bezout (mat_one 3) 0 2 u v (-3) (-2);
                stM := col_bezout (row_bezout m_sign 0 2 u v (-3) (-2)) 0 2 u v (-3) (-2) |}).
  assert (E1 : for_each (range (1 + 1) 3) (clear_j_body xgcd 0 1) (s0, true) = Done (s1, false)).
  { change (range (1 + 1) 3) with [2%nat]. cbn [for_each clear_j_body].
    change (get (stM s0) 1 2) with 3. change (get (stM s0) 0 1) with 2.
    change (get (stM s0) 1 0) with (-2).
    change (3 =? 0) with false. change (2 =? 0) with false. change (divisible 3 2) with false.
    cbv iota. unfold bezout_step. rewrite Ex. reflexivity. }
  rewrite E1. cbn [bind].
  assert (M02 : get (stM s1) 0 2 = 0) by (cbn -[Z.mul Z.add]; ring).
  assert (M12 : get (stM s1) 1 2 = 0) by (cbn -[Z.mul Z.add]; ring).
  assert (E2 : for_each (range (1 + 1) 3) (clear_i_body xgcd 0 1) s1 = Done s1).
  { change (range (1 + 1) 3) with [2%nat]. cbn [for_each]. unfold clear_i_body. rewrite M02. reflexivity. }
  rewrite E2. cbn [bind].
  assert (E3 : for_each (range (1 + 1) 3) (clear_j_body xgcd 0 1) (s1, true) = Done (s1, true)).
  { change (range (1 + 1) 3) with [2%nat]. cbn [for_each]. unfold clear_j_body. rewrite M12. reflexivity. }
  rewrite E3. cbn [bind]. exists s1. split; [reflexivity|]. cbn -[Z.mul Z.add]. lia.
Qed.

(** A form of too small rank on which the pivot search leaves the matrix. *)
Definition m_small : mat := [[0;0;0;0]; [0;0;1;0]; [0;-1;0;0]; [0;0;0;0]].
Lemma m_small_fault xgcd : symplectic_reduction xgcd m_small 2 = Fault OutOfBounds.
Proof. vm_compute. reflexivity. Qed.

Lemma saturated_reduction_final xgcd r g m : xgcd_ok xgcd -> square r m -> antisymmetric r m ->
  independent_rows r (2 * g) m -> saturated r m ->
  exists s, symplectic_reduction xgcd m g = Done s /\
    forall e, (e < g)%nat -> Z.abs (get (stM s) (2 * e) (2 * e + 1)) = 1.
Proof.
  intros Hx HS HA HR HN.
  destruct (reduction_full r m g xgcd Hx HS HA HR) as (s & len & E & _).
  exists s. split; [exact E|]. apply (reduction_saturated r g m xgcd s); assumption.
Qed.

Lemma unimodular_reduction_final xgcd g m : xgcd_ok xgcd -> square (2 * g) m ->
  antisymmetric (2 * g) m -> unimodular (2 * g) m ->
  exists s, symplectic_reduction xgcd m g = Done s /\ canonical (2 * g) g (stM s).
Proof.
  intros Hx HS HA HU.
  destruct (reduction_unimodular g m xgcd Hx HS HA HU) as (s & len & E & HC & HF).
  exists s. split; [exact E|]. intros e He. conj.
  - apply (fr_piv _ _ _ _ HF), He.
  - rewrite (co_anti _ _ _ HC). rewrite (fr_piv _ _ _ _ HF e He). reflexivity.
  - intros j _ Hj. apply (fr_even _ _ _ _ HF); assumption.
  - intros j _ Hj. apply (fr_odd _ _ _ _ HF); assumption.
Qed.

Lemma block_final xgcd r g m : xgcd_ok xgcd -> square r m -> antisymmetric r m ->
  independent_rows r (2 * g) m ->
  exists s, symplectic_reduction xgcd m g = Done s /\ block_rows r g (stM s) /\
    antisymmetric r (stM s).
Proof.
  intros Hx HS HA HR.
  destruct (reduction_full r m g xgcd Hx HS HA HR) as (s & len & E & HC & HF & _).
  exists s. conj; [exact E| |].
  - apply (frame_block r m (fun z => z <> 0) g len s HC); [auto|exact HF].
  - intros i j _ _. apply (co_anti _ _ _ HC).
Qed.

(** With fewer than 2g independent rows: still no division by zero, no
    exhaustion of fuel. *)
Lemma outcomes_final xgcd r g m : xgcd_ok xgcd -> square r m -> antisymmetric r m ->
  (exists s, symplectic_reduction xgcd m g = Done s) \/
  (symplectic_reduction xgcd m g = Fault OutOfBounds /\ ~ independent_rows r (2 * g) m).
Proof.
  intros Hx HS HA.
  destruct (reduction_cases r m g xgcd Hx HS HA)
    as [(s & len & E & _)|(s & d & Hd & Hdr & HC & HF & [E|E])].
  - left. exists s. exact E.
  - left. exists s. exact E.
  - right. split; [exact E|]. intros HR. apply (stuck_rank r m s _ d (2 * g) HC HF); [lia|exact HR].
Qed.

(** The self check accepts every matrix the reduction produces, and says nothing on
    the value of the blocks. *)
Lemma check_after_reduction xgcd r g m s : xgcd_ok xgcd -> square r m -> antisymmetric r m ->
  independent_rows r (2 * g) m -> symplectic_reduction xgcd m g = Done s ->
  is_symplectic_j (stM s) g r = true.
Proof.
  intros Hx HS HA HR E.
  destruct (block_final xgcd r g m Hx HS HA HR) as (s' & E' & HB & _).
  assert (s' = s) by congruence. subst. apply is_symplectic_j_spec.
  intros i Hi. destruct (HB i Hi) as (_ & H1 & H2 & H3). conj; assumption.
Qed.
