(** The main loop of the symplectic reduction. *)
From Verif Require Import Base ModelSymp SpecSymp ProofSymp ProofSympRed.
From Coq Require Import Znumtheory.

(** When all lines are used up the search walks out of the matrix. *)
Lemma find_pivot_fault r : forall len s d,
  square r (stP s) -> square r (stM s) -> (len <= 2 * d)%nat ->
  find_pivot len s d = Fault OutOfBounds.
Proof.
  induction len as [|l IH]; intros s d HP HM Hl; cbn [find_pivot].
  - unfold pivot_line. cbn [Nat.sub seq pivot_scan]. rewrite Nat.eqb_refl. reflexivity.
  - cbv zeta. assert (E : pivot_line (stM s) (2 * d) (S l) = S l).
    { unfold pivot_line. replace (S l - (2 * d + 1))%nat with O by lia. reflexivity. }
    rewrite E, Nat.eqb_refl.
    assert (Hsw : swap_step s (2 * d) l = Fault OutOfBounds \/
      exists s', swap_step s (2 * d) l = Done s' /\ square r (stP s') /\ square r (stM s')).
    { destruct (Nat.lt_ge_cases (2 * d) r) as [H1|H1].
      - right. destruct (swap_step_rel r s HP HM (2 * d)%nat l) as (s' & Hs' & HR); try lia.
        exists s'. split; [exact Hs'|]. split.
        + apply (sr_sqP _ _ _ _ _ _ _ _ _ HR).
        + apply (sr_sqM _ _ _ _ _ _ _ _ _ HR).
      - left. unfold swap_step. destruct (Nat.eqb_spec (2 * d) l) as [?|_]; [lia|].
        unfold guard, inb. rewrite (square_nrows r _ HM).
        destruct (Nat.ltb_spec (2 * d) r) as [?|_]; [lia|]. reflexivity. }
    destruct Hsw as [Hs|(s' & Hs & HP' & HM')]; rewrite Hs; cbn [bind]; [reflexivity|].
    destruct (Nat.eqb_spec l (2 * d)) as [?|_]; [lia|].
    apply IH; try assumption; lia.
Qed.

Section Main.
Variable Pv : Z -> Prop.
Variable r : nat.
Variable m0 : mat.
Variable xgcd : Z -> Z -> Z * Z * Z.
Hypothesis Hx : xgcd_ok xgcd.
Hypothesis HPv : (forall z, z <> 0 -> Pv z) \/
  (Pv 1 /\ forall d len s, (2 * d + 1 < len <= r)%nat -> Core r m0 s -> Frame Pv d len s ->
     (forall k, k <> (2 * d + 1)%nat -> M s (2 * d)%nat k = 0) ->
     Z.abs (M s (2 * d)%nat (2 * d + 1)%nat) = 1).

Lemma log2_fuel z : z <> 0 -> Z.abs z < 2 ^ Z.of_nat (S (Z.to_nat (Z.log2 (Z.abs z)))).
Proof.
  intros Hz. rewrite Nat2Z.inj_succ, Z2Nat.id by apply Z.log2_nonneg.
  apply Z.log2_spec. lia.
Qed.

Lemma reduce_block_spec d len j s :
  (2 * d < j < len)%nat -> (len <= r)%nat ->
  Core r m0 s -> Frame Pv d len s -> M s (2 * d)%nat j <> 0 ->
  exists s', reduce_block xgcd (2 * d) j len s = Done s' /\
    Core r m0 s' /\ Frame Pv (S d) len s'.
Proof using Hx HPv.
  intros Hj Hlr HC HF Hnz. unfold reduce_block.
  assert (H1 : exists s1, (if (j =? 2 * d + 1)%nat then Done s else swap_step s j (2 * d + 1)) = Done s1 /\
     Core r m0 s1 /\ Frame Pv d len s1 /\ M s1 (2 * d)%nat (2 * d + 1)%nat <> 0).
  { destruct (Nat.eqb_spec j (2 * d + 1)) as [E|Hne].
    - exists s. conj; try assumption; [reflexivity|]. rewrite <- E. exact Hnz.
    - destruct (swap_step_rel r s (co_P _ _ _ HC) (co_M _ _ _ HC) j (2 * d + 1)%nat Hne) as (s1 & Hs1 & HR); try lia.
      exists s1. conj; try assumption.
      + apply (core_step r m0 j (2 * d + 1) 0 1 1 0 s s1); try assumption; lia.
      + apply (frame_step Pv d len r j (2 * d + 1) 0 1 1 0 s s1); try assumption; lia.
      + rewrite (sr_M _ _ _ _ _ _ _ _ _ HR). unfold colc, rowc. beq; try lia. }
  destruct H1 as (s1 & E1 & HC1 & HF1 & Hnz1). rewrite E1. cbn [bind]. cbv zeta.
  assert (H2 : exists s2, (if M s1 (2 * d)%nat (2 * d + 1)%nat <? 0 then neg_step s1 (2 * d + 1) else Done s1) = Done s2 /\
     Core r m0 s2 /\ Frame Pv d len s2 /\ 0 < M s2 (2 * d)%nat (2 * d + 1)%nat).
  { destruct (Z.ltb_spec (M s1 (2 * d)%nat (2 * d + 1)%nat) 0) as [Hneg|Hpos].
    - destruct (neg_step_rel r s1 (co_P _ _ _ HC1) (co_M _ _ _ HC1) (2 * d + 1)%nat (2 * d)%nat) as (s2 & Hs2 & HR); try lia.
      exists s2. conj; try assumption.
      + apply (core_step r m0 (2 * d + 1) (2 * d) (-1) 0 0 1 s1 s2); try assumption; lia.
      + apply (frame_step Pv d len r (2 * d + 1) (2 * d) (-1) 0 0 1 s1 s2); try assumption; lia.
      + rewrite (sr_M _ _ _ _ _ _ _ _ _ HR). unfold colc, rowc. beq; try lia.
    - exists s1. conj; try assumption; [reflexivity|lia]. }
  destruct H2 as (s2 & E2 & HC2 & HF2 & Hpos2). rewrite E2. cbn [bind]. cbv zeta.
  destruct (clear_loop_spec Pv r m0 xgcd Hx d len ltac:(lia)
     (S (Z.to_nat (Z.log2 (Z.abs (M s2 (2 * d)%nat (2 * d + 1)%nat))))) s2 HC2 HF2)
     as (s3 & E3 & HC3 & HF3 & Hnz3 & Hrow & Hcol & _ & Hone).
  { lia. }
  { apply log2_fuel. lia. }
  exists s3. split; [exact E3|]. split; [exact HC3|].
  assert (HP3 : Pv (M s3 (2 * d)%nat (2 * d + 1)%nat)).
  { destruct HPv as [H|[HP1 H]]; [apply H, Hnz3|].
    rewrite Hone; [exact HP1|exact Hpos2|].
    intros sx HCx HFx Hxx. apply (H d len sx); try assumption. lia. }
  constructor.
  - intros e k He Hk. destruct (Nat.eq_dec e d) as [->|]; [|apply (fr_even _ _ _ _ HF3); lia].
    destruct (Nat.lt_ge_cases (2 * d + 1) k); [apply Hrow; assumption|].
    destruct (Nat.eq_dec k (2 * d)) as [->|]; [apply (core_diag _ _ _ _ HC3)|].
    apply (frame_col Pv d len r m0); try assumption; lia.
  - intros e k He Hk. destruct (Nat.eq_dec e d) as [->|]; [|apply (fr_odd _ _ _ _ HF3); lia].
    destruct (Nat.lt_ge_cases (2 * d + 1) k); [apply Hcol; assumption|].
    destruct (Nat.eq_dec k (2 * d + 1)) as [->|]; [apply (core_diag _ _ _ _ HC3)|].
    apply (frame_col Pv d len r m0); try assumption; lia.
  - intros e He. destruct (Nat.eq_dec e d) as [->|]; [exact HP3|]. apply (fr_piv _ _ _ _ HF3). lia.
  - apply (fr_tail _ _ _ _ HF3).
Qed.

Lemma main_loop_spec : forall todo d len s,
  (2 * d <= len <= r)%nat -> Core r m0 s -> Frame Pv d len s ->
  (exists s' len', main_loop xgcd todo d len s = Done s' /\ Core r m0 s' /\
     Frame Pv (d + todo) len' s' /\ (2 * (d + todo) <= len' <= r)%nat)
  \/ (exists s' d', (d <= d' < d + todo)%nat /\ Core r m0 s' /\ Frame Pv d' (2 * d') s' /\
      (main_loop xgcd todo d len s = Done s' \/ main_loop xgcd todo d len s = Fault OutOfBounds)).
Proof using Hx HPv.
  induction todo as [|todo IH]; intros d len s Hd HC HF; cbn [main_loop].
  - left. exists s, len. rewrite Nat.add_0_r. conj; try assumption; try reflexivity; lia.
  - destruct (Nat.eq_dec len (2 * d)) as [E|Hne].
    + right. exists s, d. rewrite (find_pivot_fault r len s d (co_P _ _ _ HC) (co_M _ _ _ HC)) by lia.
      cbn [bind]. rewrite E in HF. conj; try assumption; try lia. right. reflexivity.
    + destruct (find_pivot_spec Pv r m0 d len s ltac:(lia) HC HF)
        as [(s1 & E1 & HC1 & HF1)|(s1 & len1 & j & E1 & HC1 & HF1 & Hj & Hl1 & Hnz)].
      * rewrite E1. cbn [bind]. right. exists s1, d. conj; try assumption; try lia. left. reflexivity.
      * rewrite E1. cbn [bind].
        destruct (reduce_block_spec d len1 j s1 Hj ltac:(lia) HC1 HF1 Hnz) as (s2 & E2 & HC2 & HF2).
        rewrite E2. cbn [bind].
        destruct (IH (S d) len1 s2 ltac:(lia) HC2 HF2)
          as [(s3 & len3 & E3 & HC3 & HF3 & Hl3)|(s3 & d3 & Hd3 & HC3 & HF3 & Ho)].
        -- left. exists s3, len3. replace (d + S todo)%nat with (S d + todo)%nat by lia.
           conj; try assumption; lia.
        -- right. exists s3, d3. conj; try assumption; lia.
Qed.
End Main.

(* ------------------------------------------------------------------ *)
(** * The whole function *)

Lemma get_mat_one r i j : get (mat_one r) i j =
  if ((i <? r) && (j <? r))%nat then delta i j else 0.
Proof. unfold mat_one. rewrite get_tab. reflexivity. Qed.

Lemma zsum_delta_l n i f : (i < n)%nat -> zsum n (fun k => delta i k * f k) = f i.
Proof.
  intros Hi. rewrite (zsum_one n _ i Hi). rewrite zsum_zero.
  - unfold delta. rewrite Nat.eqb_refl. lia.
  - intros k Hk. unfold delta. destruct (Nat.eqb_spec k i); [reflexivity|].
    destruct (Nat.eqb_spec i k); [congruence|lia].
Qed.

Lemma delta_sym i j : delta i j = delta j i.
Proof. unfold delta. beq; congruence. Qed.

Lemma antisym_all r m : square r m -> antisymmetric r m -> forall i j, get m i j = - get m j i.
Proof.
  intros HS HA i j.
  destruct (Nat.lt_ge_cases i r) as [Hi|Hi].
  - destruct (Nat.lt_ge_cases j r) as [Hj|Hj].
    + apply HA; assumption.
    + rewrite (get_out_col r m i j), (get_out_row r m j i) by assumption. reflexivity.
  - rewrite (get_out_row r m i j), (get_out_col r m j i) by assumption. reflexivity.
Qed.

Lemma core_init r m : square r m -> antisymmetric r m ->
  Core r m {| stP := mat_one r; stM := m |}.
Proof.
  intros HS HA. constructor; cbn [stP stM].
  - apply square_tab.
  - exact HS.
  - apply (antisym_all r); assumption.
  - intros i j Hi Hj. unfold Bil.
    rewrite (zsum_ext r _ (fun k => delta i k * (zsum r (fun l => delta j l * get m k l)))).
    + rewrite zsum_delta_l by exact Hi. rewrite zsum_delta_l by exact Hj. reflexivity.
    + intros k Hk. rewrite <- zsum_scal. apply zsum_ext. intros l Hl.
      rewrite !get_mat_one. beq; try lia.
  - exists delta. intros i j Hi Hj. unfold dot. split.
    + rewrite (zsum_ext r _ (fun k => delta i k * delta k j)).
      * apply (zsum_delta_l r i (fun k => delta k j)), Hi.
      * intros k Hk. rewrite get_mat_one. beq; try lia.
    + rewrite (zsum_ext r _ (fun k => delta i k * delta k j)).
      * apply (zsum_delta_l r i (fun k => delta k j)), Hi.
      * intros k Hk. rewrite get_mat_one. beq; try lia.
Qed.

Lemma frame_init Pv r m : square r m -> Frame Pv 0 r {| stP := mat_one r; stM := m |}.
Proof.
  intros HS. constructor; cbn [stM]; intros; try lia. apply (get_out_row r); assumption.
Qed.

Lemma core_congruent r m s : Core r m s -> congruent r (stP s) m (stM s).
Proof. intros HC i j Hi Hj. apply (co_cong _ _ _ HC); assumption. Qed.

Lemma core_unimodular r m s : Core r m s -> unimodular r (stP s).
Proof.
  intros HC. destruct (co_uni _ _ _ HC) as [Q HQ].
  exists (tab r r Q). split; [apply square_tab|].
  intros i j Hi Hj. destruct (HQ i j Hi Hj) as [H1 H2]. split.
  - rewrite <- H1. apply zsum_ext. intros k Hk. rewrite get_tab. beq; try lia.
  - rewrite <- H2. apply zsum_ext. intros k Hk. rewrite get_tab. beq; try lia.
Qed.

Lemma frame_block r m (Pv : Z -> Prop) g len s : Core r m s -> (forall z, Pv z -> z <> 0) ->
  Frame Pv g len s -> block_rows r g (stM s).
Proof.
  intros HC HPv HF e He. conj.
  - apply HPv, (fr_piv _ _ _ _ HF), He.
  - apply (co_anti _ _ _ HC).
  - intros j _ Hj. apply (fr_even _ _ _ _ HF); assumption.
  - intros j _ Hj. apply (fr_odd _ _ _ _ HF); assumption.
Qed.

(** Complete description of the outcomes of the reduction. *)
Lemma reduction_cases r m g xgcd : xgcd_ok xgcd -> square r m -> antisymmetric r m ->
  (exists s len, symplectic_reduction xgcd m g = Done s /\ Core r m s /\
      Frame (fun z => z <> 0) g len s /\ (2 * g <= len <= r)%nat) \/
  (exists s d, (d < g)%nat /\ (2 * d <= r)%nat /\ Core r m s /\ Frame (fun z => z <> 0) d (2 * d) s /\
     (symplectic_reduction xgcd m g = Done s \/ symplectic_reduction xgcd m g = Fault OutOfBounds)).
Proof.
  intros Hx HS HA. unfold symplectic_reduction. rewrite (square_nrows r m HS).
  destruct (main_loop_spec (fun z => z <> 0) r m xgcd Hx (or_introl (fun z H => H)) g 0 r
     {| stP := mat_one r; stM := m |} ltac:(lia) (core_init r m HS HA) (frame_init _ r m HS))
    as [H|(s & d & Hd & HC & HF & Ho)].
  - left. exact H.
  - right. exists s, d. conj; try assumption; try lia.
    destruct (Nat.le_gt_cases (2 * d) r) as [|Hgt]; [assumption|exfalso].
    destruct d as [|d]; [lia|].
    pose proof (fr_piv _ _ _ _ HF d ltac:(lia)) as Hp. apply Hp.
    apply (get_out_col r); [apply (co_M _ _ _ HC)|]. lia.
Qed.

Lemma reduction_congruence r m g xgcd s : xgcd_ok xgcd -> square r m -> antisymmetric r m ->
  symplectic_reduction xgcd m g = Done s ->
  square r (stP s) /\ square r (stM s) /\ congruent r (stP s) m (stM s) /\
  unimodular r (stP s) /\ antisymmetric r (stM s).
Proof.
  intros Hx HS HA H.
  assert (HC : Core r m s).
  { destruct (reduction_cases r m g xgcd Hx HS HA) as [(s' & len & E & HC & _)|(s' & d & _ & _ & HC & _ & [E|E])].
    - assert (s' = s) by congruence. subst. exact HC.
    - assert (s' = s) by congruence. subst. exact HC.
    - congruence. }
  conj.
  - apply (co_P _ _ _ HC).
  - apply (co_M _ _ _ HC).
  - apply core_congruent, HC.
  - apply (core_unimodular r m), HC.
  - intros i j _ _. apply (co_anti _ _ _ HC).
Qed.
