(** The symplectic reduction of a form which is unimodular modulo a radical of known rank. *)
From Verif Require Import Base ModelSymp SpecSymp ProofSymp ProofSympRed ProofSympMain ProofSympRank ProofLat1.

(** c M = 0 *)
Definition radical (r : nat) (m : mat) (c : nat -> Z) : Prop :=
  forall j, (j < r)%nat -> zsum r (fun i => c i * get m i j) = 0.
(** c M = 0 modulo d only if c is in the radical modulo d *)
Definition rad_full (r : nat) (m : mat) : Prop := forall d c,
  (forall j, (j < r)%nat -> (d | zsum r (fun i => c i * get m i j))) ->
  exists c', radical r m c' /\ forall i, (i < r)%nat -> (d | c i - c' i).
(** the radical has rank at most k *)
Definition rad_upper (r : nat) (m : mat) (k : nat) : Prop := exists phi : nat -> nat -> Z,
  forall c, radical r m c -> (forall a, (a < k)%nat -> zsum r (fun i => c i * phi i a) = 0) ->
  forall i, (i < r)%nat -> c i = 0.
(** the radical has rank at least k *)
Definition rad_lower (r : nat) (m : mat) (k : nat) : Prop := exists psi : nat -> nat -> Z,
  (forall a, (a < k)%nat -> radical r m (psi a)) /\
  forall x, (forall i, (i < r)%nat -> zsum k (fun a => x a * psi a i) = 0) -> forall a, (a < k)%nat -> x a = 0.

Lemma radical_comb r m n (x : nat -> Z) c : (forall a, (a < n)%nat -> radical r m (c a)) ->
  radical r m (fun i => zsum n (fun a => x a * c a i)).
Proof.
  intros H j Hj.
  rewrite (zsum_ext r _ (fun i => zsum n (fun a => x a * (c a i * get m i j)))).
  2:{ intros i _. rewrite <- zsum_scal_r. apply zsum_ext. intros; ring. }
  rewrite zsum_swap. apply zsum_zero. intros a Ha. rewrite zsum_scal, H by assumption. ring.
Qed.

Section State.
Variable r : nat.
Variable m0 : mat.
Variable s : st.
Hypothesis HC : Core r m0 s.
Variable Q : nat -> nat -> Z.
Hypothesis HQ : forall i j, (i < r)%nat -> (j < r)%nat ->
  dot r (get (stP s) i) (fun k => Q k j) = delta i j /\
  dot r (Q i) (fun k => get (stP s) k j) = delta i j.
Notation P := (get (stP s)).

(** coordinates in the basis of the rows of P *)
Definition coord (c : nat -> Z) (l : nat) : Z := zsum r (fun i => c i * Q i l).

Lemma coord_P c i : (i < r)%nat -> zsum r (fun l => coord c l * P l i) = c i.
Proof.
  intros Hi. unfold coord.
  rewrite (zsum_ext r _ (fun l => zsum r (fun k => c k * (Q k l * P l i)))).
  2:{ intros l _. rewrite <- zsum_scal_r. apply zsum_ext. intros; ring. }
  rewrite zsum_swap. rewrite (zsum_ext r _ (fun k => c k * delta k i)).
  - apply zsum_delta_r, Hi.
  - intros k Hk. rewrite zsum_scal. f_equal. apply (HQ k i Hk Hi).
Qed.
Lemma coord_row i l : (i < r)%nat -> (l < r)%nat -> coord (P i) l = delta i l.
Proof. intros Hi Hl. apply (HQ i l Hi Hl). Qed.
Lemma coord_comb n (x : nat -> Z) c l :
  coord (fun i => zsum n (fun a => x a * c a i)) l = zsum n (fun a => x a * coord (c a) l).
Proof.
  unfold coord. rewrite (zsum_ext r _ (fun i => zsum n (fun a => x a * (c a i * Q i l)))).
  2:{ intros i _. rewrite <- zsum_scal_r. apply zsum_ext. intros; ring. }
  rewrite zsum_swap. apply zsum_ext. intros a _. apply zsum_scal.
Qed.

(** the coordinates of a radical vector are in the radical of M' *)
Lemma coord_radical c b : radical r m0 c -> (b < r)%nat -> zsum r (fun l => coord c l * M s l b) = 0.
Proof.
  intros Hc Hb.
  rewrite (zsum_ext r _ (fun l => zsum r (fun k => coord c l * PM r m0 s l k * P b k))).
  2:{ intros l Hl. rewrite (M_PM r m0 s HC l b) by assumption. rewrite <- zsum_scal. apply zsum_ext. intros; ring. }
  rewrite zsum_swap. apply zsum_zero. intros k Hk. rewrite zsum_scal_r.
  rewrite (zsum_ext r _ (fun l => zsum r (fun a => (coord c l * P l a) * get m0 a k))).
  2:{ intros l _. unfold PM. rewrite <- zsum_scal. apply zsum_ext. intros; ring. }
  rewrite zsum_swap. rewrite (zsum_ext r _ (fun a => c a * get m0 a k)).
  - rewrite Hc by exact Hk. ring.
  - intros a Ha. rewrite zsum_scal_r, coord_P by exact Ha. reflexivity.
Qed.
Lemma coord_pair c i j : radical r m0 c -> (i < r)%nat -> (j < r)%nat ->
  (forall k, k <> i -> M s j k = 0) -> M s j i <> 0 -> coord c i = 0.
Proof.
  intros Hc Hi Hj H0 Hnz. pose proof (coord_radical c j Hc Hj) as E.
  rewrite (zsum_one r _ i Hi) in E. rewrite zsum_zero in E.
  - rewrite (co_anti _ _ _ HC i j) in E. nia.
  - intros k Hk. destruct (Nat.eqb_spec k i); [reflexivity|]. rewrite (co_anti _ _ _ HC k j), H0 by assumption. ring.
Qed.
Lemma row_radical i : (i < r)%nat -> (forall k, M s i k = 0) -> radical r m0 (P i).
Proof.
  intros Hi H0 j Hj. change (PM r m0 s i j = 0). rewrite (PM_M r m0 s HC Q HQ) by assumption.
  apply zsum_zero. intros l _. rewrite H0. ring.
Qed.

(** a finished block *)
Lemma full_block i j : rad_full r m0 -> (i < r)%nat -> (j < r)%nat ->
  (forall k, k <> j -> M s i k = 0) -> (forall k, k <> i -> M s j k = 0) -> M s i j <> 0 -> Z.abs (M s i j) = 1.
Proof.
  intros HF Hi Hj H0 H1 Hnz.
  destruct (HF (M s i j) (P i)) as (c & Hc & Hd).
  { intros b Hb. change (M s i j | PM r m0 s i b). rewrite (PM_single r m0 s HC Q HQ i j b) by assumption.
    apply Z.divide_factor_l. }
  assert (Hz : coord c i = 0).
  { apply (coord_pair c i j); try assumption. rewrite (co_anti _ _ _ HC). lia. }
  pose proof (coord_row i i Hi Hi) as E. unfold delta in E. rewrite Nat.eqb_refl in E.
  assert (Hdiv : (M s i j | coord (P i) i - coord c i)).
  { unfold coord. rewrite <- zsum_sub. apply zsum_div. intros k Hk.
    replace (P i k * Q k i - c k * Q k i) with ((P i k - c k) * Q k i) by ring.
    apply Z.divide_mul_l, Hd, Hk. }
  rewrite E, Hz in Hdiv. change (1 - 0) with 1 in Hdiv. apply Z.divide_1_r in Hdiv.
  destruct Hdiv as [->| ->]; reflexivity.
Qed.

(** a single non-zero entry in a row, when the radical is zero *)
Lemma full_row i j : rad_full r m0 -> rad_upper r m0 0 -> (i < r)%nat -> (j < r)%nat ->
  (forall k, k <> j -> M s i k = 0) -> Z.abs (M s i j) = 1.
Proof.
  intros HF (phi & HU) Hi Hj H0.
  destruct (HF (M s i j) (P i)) as (c & Hc & Hd).
  { intros b Hb. change (M s i j | PM r m0 s i b). rewrite (PM_single r m0 s HC Q HQ i j b) by assumption.
    apply Z.divide_factor_l. }
  assert (Hz : forall k, (k < r)%nat -> c k = 0) by (apply HU; [exact Hc|intros; lia]).
  pose proof (coord_row i i Hi Hi) as E. unfold delta in E. rewrite Nat.eqb_refl in E.
  assert (Hdiv : (M s i j | coord (P i) i)).
  { unfold coord. apply zsum_div. intros k Hk. apply Z.divide_mul_l.
    replace (P i k) with (P i k - c k) by (rewrite Hz by exact Hk; ring). apply Hd, Hk. }
  rewrite E in Hdiv. apply Z.divide_1_r in Hdiv. destruct Hdiv as [->| ->]; reflexivity.
Qed.

(** the reduction cannot stop early *)
Lemma upper_stuck Pv d k : Frame Pv d (2 * d) s -> (2 * d + k < r)%nat -> rad_upper r m0 k -> False.
Proof.
  intros HF Hd (phi & HU). set (n := (r - 2 * d)%nat).
  destruct (homogeneous k n (fun a e => zsum r (fun i => P (2 * d + a) i * phi i e))) as (x & (a & Ha & Hxa) & Hs).
  { unfold n. lia. }
  apply Hxa. set (c := fun i => zsum n (fun a => x a * P (2 * d + a) i)).
  assert (Hc : radical r m0 c).
  { apply radical_comb. intros b Hb. apply row_radical; [unfold n in Hb; lia|]. intros l.
    apply (fr_tail _ _ _ _ HF). lia. }
  assert (H0 : forall i, (i < r)%nat -> c i = 0).
  { apply HU; [exact Hc|]. intros e He. rewrite <- (Hs e He). unfold c.
    rewrite (zsum_ext r _ (fun i => zsum n (fun b => x b * (P (2 * d + b) i * phi i e)))).
    2:{ intros i _. rewrite <- zsum_scal_r. apply zsum_ext. intros; ring. }
    rewrite zsum_swap. apply zsum_ext. intros b _. apply zsum_scal. }
  assert (E : coord c (2 * d + a) = 0).
  { unfold coord. apply zsum_zero. intros i Hi. rewrite H0 by exact Hi. ring. }
  unfold c in E. rewrite coord_comb in E. rewrite (zsum_ext n _ (fun b => x b * delta b a)) in E.
  - rewrite (zsum_delta_r n a x Ha) in E. exact E.
  - intros b Hb. rewrite coord_row by (unfold n in *; lia). unfold delta. beq; try lia.
Qed.

(** the rows after the blocks are zero *)
Lemma lower_tail g k : (forall e, (e < g)%nat -> M s (2 * e) (2 * e + 1) <> 0 /\
    (forall l, l <> (2 * e + 1)%nat -> M s (2 * e)%nat l = 0) /\ (forall l, l <> (2 * e)%nat -> M s (2 * e + 1)%nat l = 0)) ->
  r = (2 * g + k)%nat -> rad_lower r m0 k ->
  forall i j, (2 * g <= i < r)%nat -> (j < r)%nat -> M s i j = 0.
Proof.
  intros HB Er (psi & Hpsi & HI) i j Hi Hj.
  destruct (Z.eq_dec (M s i j) 0) as [H|Hnz]; [exact H|exfalso].
  destruct k as [|k]; [lia|].
  set (i0 := (i - 2 * g)%nat).
  destruct (homogeneous k (S k) (fun a e => coord (psi a) (2 * g + skip i0 e))) as (x & (a & Ha & Hxa) & Hs); [lia|].
  apply Hxa. apply HI; [|exact Ha].
  set (c := fun i => zsum (S k) (fun a => x a * psi a i)).
  assert (Hc : radical r m0 c) by (apply radical_comb; exact Hpsi).
  assert (H0 : forall l, (l < r)%nat -> l <> i -> coord c l = 0).
  { intros l Hl Hne. destruct (Nat.lt_ge_cases l (2 * g)) as [H|H].
    - destruct (Nat.Even_or_Odd l) as [[e Ee]|[e Ee]]; destruct (HB e ltac:(lia)) as (B1 & B2 & B3); subst l.
      + apply (coord_pair c (2 * e) (2 * e + 1)); try assumption; try lia. rewrite (co_anti _ _ _ HC). lia.
      + apply (coord_pair c (2 * e + 1) (2 * e)); try assumption; try lia.
    - unfold c. rewrite coord_comb.
      assert (Hex : exists e, (e < k)%nat /\ (2 * g + skip i0 e = l)%nat).
      { destruct (Nat.lt_ge_cases l i).
        - exists (l - 2 * g)%nat. split; [lia|]. unfold skip, i0. destruct (Nat.ltb_spec (l - 2 * g) (i - 2 * g)); lia.
        - exists (l - 2 * g - 1)%nat. split; [lia|]. unfold skip, i0. destruct (Nat.ltb_spec (l - 2 * g - 1) (i - 2 * g)); lia. }
      destruct Hex as (e & He & <-). apply Hs, He. }
  assert (Hci : coord c i = 0).
  { pose proof (coord_radical c j Hc Hj) as E. rewrite (zsum_one r _ i) in E by lia. rewrite zsum_zero in E; [nia|].
    intros l Hl. destruct (Nat.eqb_spec l i) as [|Hne]; [reflexivity|]. rewrite H0 by assumption. ring. }
  intros l Hl. change (c l = 0). rewrite <- (coord_P c l Hl). apply zsum_zero. intros b Hb.
  destruct (Nat.eq_dec b i) as [->|]; [rewrite Hci|rewrite H0 by assumption]; ring.
Qed.
End State.

(** The reduction of such a form. *)
Lemma reduction_radical r g k m xgcd : xgcd_ok xgcd -> square r m -> antisymmetric r m ->
  r = (2 * g + k)%nat -> rad_full r m -> rad_upper r m k -> rad_lower r m k ->
  exists s, symplectic_reduction xgcd m g = Done s /\ Core r m s /\ block_rows r g (stM s) /\
    (forall e, (e < g)%nat -> Z.abs (get (stM s) (2 * e) (2 * e + 1)) = 1) /\
    (forall i j, (2 * g <= i < r)%nat -> (j < r)%nat -> get (stM s) i j = 0) /\
    (k = 0%nat -> canonical r g (stM s)).
Proof.
  intros Hx HS HA Er HF HU HL.
  destruct (reduction_cases r m g xgcd Hx HS HA) as [(s & len & E & HC & HFr & Hl)|(s & d & Hd & Hdr & HC & HFr & _)].
  2:{ exfalso. destruct (co_uni _ _ _ HC) as [Q HQ]. apply (upper_stuck r m s HC Q HQ _ d k HFr); [lia|exact HU]. }
  destruct (co_uni _ _ _ HC) as [Q HQ].
  assert (HBl : forall e, (e < g)%nat -> M s (2 * e) (2 * e + 1) <> 0 /\
    (forall l, l <> (2 * e + 1)%nat -> M s (2 * e)%nat l = 0) /\ (forall l, l <> (2 * e)%nat -> M s (2 * e + 1)%nat l = 0)).
  { intros e He. conj; [apply (fr_piv _ _ _ _ HFr), He| |];
      intros l Hl'; [apply (fr_even _ _ _ _ HFr)|apply (fr_odd _ _ _ _ HFr)]; assumption. }
  exists s. conj; try assumption.
  - apply (frame_block r m (fun z => z <> 0) g len); try assumption. intros z Hz; exact Hz.
  - intros e He. destruct (HBl e He) as (B1 & B2 & B3).
    apply (full_block r m s HC Q HQ (2 * e) (2 * e + 1)); try assumption; lia.
  - apply (lower_tail r m s HC Q HQ g k); assumption.
  - intros ->. 
    destruct (main_loop_spec (fun z => z = 1) r m xgcd Hx) with (todo := g) (d := O) (len := r)
      (s := {| stP := mat_one r; stM := m |}) as [(s' & len' & E' & HC' & HF' & _)|(s' & d & Hd & HC' & HF' & _)].
    + right. split; [reflexivity|]. intros d len1 s1 Hl1 HC1 HF1 H01. destruct (co_uni _ _ _ HC1) as [Q1 HQ1].
      apply (full_row r m s1 HC1 Q1 HQ1); try assumption; lia.
    + lia.
    + apply core_init; assumption.
    + apply frame_init, HS.
    + assert (s' = s). { unfold symplectic_reduction in E. rewrite (square_nrows r m HS) in E. congruence. }
      subst s'. intros e He. destruct (HBl e He) as (B1 & B2 & B3).
      pose proof (fr_piv _ _ _ _ HF' e ltac:(lia)) as Hp. cbn beta in Hp. conj.
      * exact Hp.
      * rewrite (co_anti _ _ _ HC). fold (M s (2 * e)%nat (2 * e + 1)%nat) in *. lia.
      * intros j _ Hj. apply B2, Hj.
      * intros j _ Hj. apply B3, Hj.
    + exfalso. destruct (co_uni _ _ _ HC') as [Q' HQ']. apply (upper_stuck r m s' HC' Q' HQ' _ d 0 HF'); [lia|exact HU].
Qed.
