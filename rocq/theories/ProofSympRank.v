(** Rank and unimodularity arguments for the symplectic reduction. *)
From Verif Require Import Base ModelSymp SpecSymp ProofSymp ProofSympRed ProofSympMain.

Lemma zsum_swap n k (f : nat -> nat -> Z) :
  zsum n (fun i => zsum k (fun j => f i j)) = zsum k (fun j => zsum n (fun i => f i j)).
Proof.
  induction n as [|n IH]; cbn [zsum].
  - symmetry. apply zsum_zero. reflexivity.
  - rewrite IH. rewrite <- zsum_add. reflexivity.
Qed.

Lemma zsum_scal_r n c f : zsum n (fun k => f k * c) = zsum n f * c.
Proof. rewrite Z.mul_comm, <- zsum_scal. apply zsum_ext. intros. ring. Qed.

Definition skip (p a : nat) : nat := if (a <? p)%nat then a else S a.

Lemma zsum_skip : forall n f p, (p <= n)%nat ->
  zsum (S n) f = f p + zsum n (fun a => f (skip p a)).
Proof.
  induction n as [|n IH]; intros f p Hp.
  - replace p with O by lia. cbn [zsum]. lia.
  - destruct (Nat.eq_dec p (S n)) as [->|Hne].
    + change (zsum (S (S n)) f) with (zsum (S n) f + f (S n)).
      rewrite (zsum_ext (S n) (fun a => f (skip (S n) a)) f); [lia|].
      intros a Ha. unfold skip. destruct (Nat.ltb_spec a (S n)); [reflexivity|lia].
    + change (zsum (S (S n)) f) with (zsum (S n) f + f (S n)).
      rewrite (IH f p) by lia.
      change (zsum (S n) (fun a => f (skip p a)))
        with (zsum n (fun a => f (skip p a)) + f (skip p n)).
      replace (skip p n) with (S n); [lia|].
      unfold skip. destruct (Nat.ltb_spec n p); [lia|reflexivity].
Qed.

(** A homogeneous linear system with more unknowns than equations has a non-zero
    integer solution. *)
Lemma homogeneous : forall E k (A : nat -> nat -> Z), (E < k)%nat ->
  exists c : nat -> Z, (exists a, (a < k)%nat /\ c a <> 0) /\
    forall e, (e < E)%nat -> zsum k (fun a => c a * A a e) = 0.
Proof.
  induction E as [|E IH]; intros k A Hk.
  - exists (fun _ => 1). split; [exists O; lia|]. intros; lia.
  - assert (Hdec : (forall a, (a < k)%nat -> A a E = 0) \/ exists p, (p < k)%nat /\ A p E <> 0).
    { clear - k. induction k as [|k [IH|[p Hp]]].
      - left. intros; lia.
      - destruct (Z.eq_dec (A k E) 0) as [H|H].
        + left. intros a Ha. destruct (Nat.eq_dec a k) as [->|]; [exact H|apply IH; lia].
        + right. exists k. split; [lia|exact H].
      - right. exists p. split; [lia|apply Hp]. }
    destruct Hdec as [H0|(p & Hp & Hnz)].
    + destruct (IH k A ltac:(lia)) as (c & Hc & Hs). exists c. split; [exact Hc|].
      intros e He. destruct (Nat.eq_dec e E) as [->|]; [|apply Hs; lia].
      apply zsum_zero. intros a Ha. rewrite H0 by exact Ha. lia.
    + destruct k as [|k]; [lia|].
      destruct (IH k (fun a e => A p E * A (skip p a) e - A (skip p a) E * A p e) ltac:(lia))
        as (c & (a0 & Ha0 & Hc0) & Hs).
      set (C := fun b => if (b =? p)%nat then - zsum k (fun a => c a * A (skip p a) E)
                         else if (b <? p)%nat then c b * A p E else c (b - 1)%nat * A p E).
      assert (HCs : forall a, C (skip p a) = c a * A p E).
      { intros a. unfold C, skip. destruct (Nat.ltb_spec a p) as [H|H].
        - destruct (Nat.eqb_spec a p); [lia|]. destruct (Nat.ltb_spec a p); [reflexivity|lia].
        - destruct (Nat.eqb_spec (S a) p); [lia|]. destruct (Nat.ltb_spec (S a) p); [lia|].
          replace (S a - 1)%nat with a by lia. reflexivity. }
      assert (HCp : C p = - zsum k (fun a => c a * A (skip p a) E)).
      { unfold C. rewrite Nat.eqb_refl. reflexivity. }
      exists C. split.
      * exists (skip p a0). split.
        { unfold skip. destruct (Nat.ltb_spec a0 p); lia. }
        rewrite HCs. apply Z.neq_mul_0. split; assumption.
      * intros e He. rewrite (zsum_skip k _ p) by lia. rewrite HCp.
        rewrite (zsum_ext k (fun a => C (skip p a) * A (skip p a) e)
                 (fun a => c a * (A p E * A (skip p a) e - A (skip p a) E * A p e)
                           + (c a * A (skip p a) E) * A p e)).
        2:{ intros a Ha. rewrite HCs. ring. }
        rewrite zsum_add, zsum_scal_r.
        destruct (Nat.eq_dec e E) as [->|].
        -- rewrite (zsum_zero k (fun a => c a * (A p E * A (skip p a) E - A (skip p a) E * A p E))); [ring|]. intros; ring.
        -- rewrite Hs by lia. ring.
Qed.

(* ------------------------------------------------------------------ *)
Section State.
Variable r : nat.
Variable m0 : mat.
Variable s : st.
Hypothesis HC : Core r m0 s.
Variable Q : nat -> nat -> Z.
Hypothesis HQ : forall i j, (i < r)%nat -> (j < r)%nat ->
  dot r (get (stP s) i) (fun k => Q k j) = delta i j /\
  dot r (Q i) (fun k => get (stP s) k j) = delta i j.
Notation P := (get (stP s)).
Notation m := (get m0).

(** P * m0 *)
Definition PM (i j : nat) : Z := zsum r (fun k => P i k * m k j).

Lemma M_PM i j : (i < r)%nat -> (j < r)%nat -> M s i j = zsum r (fun b => PM i b * P j b).
Proof using HC.
  intros Hi Hj. rewrite (co_cong _ _ _ HC) by assumption. unfold Bil, PM.
  rewrite zsum_swap. apply zsum_ext. intros b Hb. rewrite <- zsum_scal_r.
  apply zsum_ext. intros k Hk. ring.
Qed.

Lemma zsum_delta_r n i f : (i < n)%nat -> zsum n (fun k => f k * delta k i) = f i.
Proof.
  intros Hi. rewrite <- (zsum_delta_l n i f Hi). apply zsum_ext. intros k Hk.
  rewrite (delta_sym i k). ring.
Qed.

(** P m0 = M' Q^T *)
Lemma PM_M i j : (i < r)%nat -> (j < r)%nat -> PM i j = zsum r (fun l => M s i l * Q j l).
Proof using HC HQ.
  intros Hi Hj.
  rewrite (zsum_ext r (fun l => M s i l * Q j l)
             (fun l => zsum r (fun b => PM i b * (Q j l * P l b)))).
  2:{ intros l Hl. rewrite M_PM by assumption. rewrite <- zsum_scal_r.
      apply zsum_ext. intros; ring. }
  rewrite zsum_swap.
  rewrite (zsum_ext r _ (fun b => PM i b * delta b j)).
  2:{ intros b Hb. rewrite zsum_scal. f_equal. destruct (HQ j b Hj Hb) as [_ H].
      unfold dot in H. rewrite H. apply delta_sym. }
  symmetry. apply zsum_delta_r, Hj.
Qed.

(** m0 = Q (P m0) *)
Lemma m0_QPM i j : (i < r)%nat -> (j < r)%nat -> m i j = zsum r (fun k => Q i k * PM k j).
Proof using HQ.
  intros Hi Hj. unfold PM.
  rewrite (zsum_ext r _ (fun k => zsum r (fun a => (Q i k * P k a) * m a j))).
  2:{ intros k Hk. rewrite <- zsum_scal. apply zsum_ext. intros; ring. }
  rewrite zsum_swap.
  rewrite (zsum_ext r _ (fun a => delta i a * m a j)).
  2:{ intros a Ha. rewrite zsum_scal_r. f_equal. destruct (HQ i a Hi Ha) as [_ H]. exact H. }
  symmetry. apply (zsum_delta_l r i (fun a => m a j)), Hi.
Qed.

Lemma stuck_rank_aux Pv d k idx :
  Frame Pv d (2 * d) s -> (2 * d < k)%nat -> (forall a, (a < k)%nat -> (idx a < r)%nat) ->
  exists c : nat -> Z, (exists a, (a < k)%nat /\ c a <> 0) /\
    forall j, (j < r)%nat -> zsum k (fun a => c a * m (idx a) j) = 0.
Proof using HC HQ.
  intros HF Hk Hidx.
  destruct (homogeneous (2 * d) k (fun a e => Q (idx a) e) Hk) as (c & Hc & Hs).
  exists c. split; [exact Hc|]. intros j Hj.
  rewrite (zsum_ext k _ (fun a => zsum r (fun l => (c a * Q (idx a) l) * PM l j))).
  2:{ intros a Ha. rewrite m0_QPM by (try apply Hidx; assumption). rewrite <- zsum_scal.
      apply zsum_ext. intros; ring. }
  rewrite zsum_swap. apply zsum_zero. intros l Hl. rewrite zsum_scal_r.
  destruct (Nat.lt_ge_cases l (2 * d)) as [H|H].
  - rewrite Hs by exact H. reflexivity.
  - rewrite PM_M by assumption. rewrite (zsum_zero r (fun l0 => _)); [ring|].
    intros b Hb. rewrite (fr_tail _ _ _ _ HF) by exact H. reflexivity.
Qed.

(** a row of M' with a single non-zero entry *)
Lemma PM_single i j0 b : (i < r)%nat -> (j0 < r)%nat -> (b < r)%nat ->
  (forall k, k <> j0 -> M s i k = 0) -> PM i b = M s i j0 * Q b j0.
Proof using HC HQ.
  intros Hi Hj Hb H0. rewrite PM_M by assumption.
  rewrite (zsum_one r _ j0 Hj). rewrite zsum_zero; [lia|].
  intros k Hk. destruct (Nat.eqb_spec k j0); [reflexivity|]. rewrite H0 by assumption. reflexivity.
Qed.

Lemma unit_row_aux N i j0 : (i < r)%nat -> (j0 < r)%nat ->
  (forall a b, (a < r)%nat -> (b < r)%nat -> zsum r (fun k => m a k * N k b) = delta a b) ->
  (forall k, k <> j0 -> M s i k = 0) -> Z.abs (M s i j0) = 1.
Proof using HC HQ.
  intros Hi Hj HN H0.
  assert (HPi : forall c, (c < r)%nat -> P i c = M s i j0 * zsum r (fun b => Q b j0 * N b c)).
  { intros c Hc. rewrite <- zsum_scal.
    rewrite (zsum_ext r (fun k => M s i j0 * (Q k j0 * N k c))
              (fun b => zsum r (fun a => P i a * (m a b * N b c)))).
    2:{ intros b Hb. replace (M s i j0 * (Q b j0 * N b c)) with ((M s i j0 * Q b j0) * N b c) by ring.
        rewrite <- PM_single by assumption. unfold PM. rewrite <- zsum_scal_r.
        apply zsum_ext. intros; ring. }
    rewrite zsum_swap.
    rewrite (zsum_ext r _ (fun a => P i a * delta a c)).
    - symmetry. apply zsum_delta_r, Hc.
    - intros a Ha. rewrite zsum_scal. f_equal. apply HN; assumption. }
  destruct (HQ i i Hi Hi) as [H1 _]. unfold dot in H1.
  assert (Ed : delta i i = 1) by (unfold delta; rewrite Nat.eqb_refl; reflexivity).
  rewrite Ed in H1.
  rewrite (zsum_ext r _ (fun c => M s i j0 * (zsum r (fun b => Q b j0 * N b c) * Q c i))) in H1.
  2:{ intros c Hc. rewrite HPi by exact Hc. ring. }
  rewrite zsum_scal in H1.
  destruct (Z.mul_eq_1 _ _ H1) as [E|E]; rewrite E; reflexivity.
Qed.

(** a finished block when m0 N m0 = m0 *)
Lemma saturated_aux N i j0 : (i < r)%nat -> (j0 < r)%nat ->
  (forall a b, (a < r)%nat -> (b < r)%nat -> m a b = - m b a) ->
  (forall a b, (a < r)%nat -> (b < r)%nat ->
     zsum r (fun k => zsum r (fun l => m a k * N k l * m l b)) = m a b) ->
  (forall k, k <> j0 -> M s i k = 0) -> (forall k, k <> i -> M s j0 k = 0) ->
  M s i j0 <> 0 -> Z.abs (M s i j0) = 1.
Proof using HC HQ.
  intros Hi Hj HA HN H0 H1 Hnz.
  set (p := M s i j0) in *.
  assert (Hji : M s j0 i = - p) by apply (co_anti _ _ _ HC).
  (* p = sum_b PM i b * P j0 b, PM i b = sum_{k,l} PM i k N k l m l b *)
  assert (E1 : forall b, (b < r)%nat -> PM i b = zsum r (fun k => zsum r (fun l => PM i k * N k l * m l b))).
  { intros b Hb. unfold PM at 1.
    rewrite (zsum_ext r _ (fun a => zsum r (fun k => zsum r (fun l => P i a * m a k * N k l * m l b)))).
    2:{ intros a Ha. rewrite <- (HN a b Ha Hb). rewrite <- zsum_scal. apply zsum_ext. intros k Hk.
        rewrite <- zsum_scal. apply zsum_ext. intros; ring. }
    rewrite zsum_swap. apply zsum_ext. intros k Hk. rewrite zsum_swap. apply zsum_ext. intros l Hl.
    unfold PM. rewrite <- !zsum_scal_r. apply zsum_ext. intros; ring. }
  assert (E2 : forall l, (l < r)%nat -> zsum r (fun b => m l b * P j0 b) = p * Q l i).
  { intros l Hl.
    rewrite (zsum_ext r _ (fun b => (-1) * (P j0 b * m b l))).
    2:{ intros b Hb. rewrite (HA l b) by assumption. ring. }
    rewrite zsum_scal. change (zsum r (fun b => P j0 b * m b l)) with (PM j0 l).
    rewrite (PM_single j0 i l) by assumption. rewrite Hji. ring. }
  assert (E3 : p = p * (p * zsum r (fun k => zsum r (fun l => Q k j0 * N k l * Q l i)))).
  { unfold p at 1. rewrite M_PM by assumption.
    rewrite (zsum_ext r _ (fun b => zsum r (fun k => zsum r (fun l => PM i k * N k l * (m l b * P j0 b))))).
    2:{ intros b Hb. rewrite E1 by exact Hb. rewrite <- zsum_scal_r. apply zsum_ext. intros k Hk.
        rewrite <- zsum_scal_r. apply zsum_ext. intros; ring. }
    rewrite zsum_swap. rewrite <- !zsum_scal. apply zsum_ext. intros k Hk.
    rewrite zsum_swap. rewrite <- !zsum_scal. apply zsum_ext. intros l Hl.
    rewrite zsum_scal, E2 by exact Hl. rewrite (PM_single i j0 k) by assumption. fold p. ring. }
  set (t := zsum r _) in E3.
  assert (E4 : p * t = 1).
  { apply (Z.mul_reg_l _ _ p Hnz). rewrite <- E3. ring. }
  destruct (Z.mul_eq_1 _ _ E4) as [E|E]; rewrite E; reflexivity.
Qed.
End State.

(** [k] rows of m, with indices idx 0 .. idx (k-1), have no linear relation. *)
Lemma stuck_rank r m0 s (Pv : Z -> Prop) d k : Core r m0 s -> Frame Pv d (2 * d) s -> (2 * d < k)%nat ->
  independent_rows r k m0 -> False.
Proof.
  intros HC HF Hk (idx & Hidx & Hind).
  destruct (co_uni _ _ _ HC) as [Q HQ].
  destruct (stuck_rank_aux r m0 s HC Q HQ Pv d k idx HF Hk Hidx) as (c & (a & Ha & Hca) & Hs).
  apply Hca, (Hind c); assumption.
Qed.

Lemma reduction_full r m g xgcd : xgcd_ok xgcd -> square r m -> antisymmetric r m ->
  independent_rows r (2 * g) m ->
  exists s len, symplectic_reduction xgcd m g = Done s /\ Core r m s /\
     Frame (fun z => z <> 0) g len s /\ (2 * g <= len <= r)%nat.
Proof.
  intros Hx HS HA HR.
  destruct (reduction_cases r m g xgcd Hx HS HA) as [H|(s & d & Hd & Hdr & HC & HF & _)]; [exact H|].
  exfalso. apply (stuck_rank r m s _ d (2 * g) HC HF); [lia|exact HR].
Qed.

Lemma frame_lt (Pv : Z -> Prop) d len r m s : (forall z, Pv z -> z <> 0) -> Core r m s -> Frame Pv d len s ->
  forall e, (e < d)%nat -> (2 * e + 1 < r)%nat.
Proof.
  intros HPv HC HF e He. destruct (Nat.le_gt_cases r (2 * e + 1)) as [H|H]; [exfalso|exact H].
  apply (HPv _ (fr_piv _ _ _ _ HF e He)). apply (get_out_col r); [apply (co_M _ _ _ HC)|exact H].
Qed.

(** r = 2g and m invertible over Z: all blocks are +1. *)
Lemma reduction_unimodular g m xgcd : xgcd_ok xgcd -> square (2 * g) m -> antisymmetric (2 * g) m ->
  unimodular (2 * g) m ->
  exists s len, symplectic_reduction xgcd m g = Done s /\ Core (2 * g) m s /\
     Frame (fun z => z = 1) g len s.
Proof.
  intros Hx HS HA (N & _ & HN). unfold symplectic_reduction. rewrite (square_nrows _ m HS).
  destruct (main_loop_spec (fun z => z = 1) (2 * g) m xgcd Hx) with (todo := g) (d := O) (len := (2 * g)%nat)
    (s := {| stP := mat_one (2 * g); stM := m |}) as [(s & len & E & HC & HF & _)|(s & d & Hd & HC & HF & _)].
  - right. split; [reflexivity|]. intros d len s Hl HC HF H0.
    destruct (co_uni _ _ _ HC) as [Q HQ].
    apply (unit_row_aux (2 * g) m s HC Q HQ (get N)); try assumption; try lia.
    intros a b Ha Hb. apply (HN a b Ha Hb).
  - lia.
  - apply core_init; assumption.
  - apply frame_init, HS.
  - exists s, len. conj; assumption.
  - exfalso. apply (stuck_rank (2 * g) m s _ d (2 * g) HC HF); [lia|].
    exists (fun a => a). split; [intros; assumption|]. intros c Hc a Ha.
    (* c m = 0 and m N = 1 *)
    rewrite <- (zsum_delta_r (2 * g) a c Ha).
    rewrite (zsum_ext (2 * g) _ (fun b => zsum (2 * g) (fun k => c b * get m b k * get N k a))).
    2:{ intros b Hb. destruct (HN b a Hb Ha) as [H _]. rewrite <- H, <- zsum_scal.
        apply zsum_ext. intros; ring. }
    rewrite zsum_swap. apply zsum_zero. intros k Hk. rewrite zsum_scal_r.
    rewrite Hc by exact Hk. reflexivity.
Qed.

(** m N m = m for some integer N (the form is unimodular modulo its radical):
    all blocks are +1 or -1. *)
Lemma reduction_saturated r g m xgcd s : xgcd_ok xgcd -> square r m -> antisymmetric r m ->
  independent_rows r (2 * g) m -> saturated r m -> symplectic_reduction xgcd m g = Done s ->
  forall e, (e < g)%nat -> Z.abs (get (stM s) (2 * e) (2 * e + 1)) = 1.
Proof.
  intros Hx HS HA HR (N & HN) Hs e He.
  destruct (reduction_full r m g xgcd Hx HS HA HR) as (s' & len & E & HC & HF & Hl).
  assert (s' = s) by congruence. subst s'.
  destruct (co_uni _ _ _ HC) as [Q HQ].
  apply (saturated_aux r m s HC Q HQ (get N)); try assumption; try lia.
  - intros k Hk. apply (fr_even _ _ _ _ HF); assumption.
  - intros k Hk. apply (fr_odd _ _ _ _ HF); assumption.
  - apply (fr_piv _ _ _ _ HF), He.
Qed.
