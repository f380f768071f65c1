(** Structure of the matrix along the reduction, termination. *)
From Verif Require Import Base ModelSymp SpecSymp ProofSymp.
From Coq Require Import Znumtheory.

Notation M s := (get (stM s)).

(** Rows below 2d are finished blocks whose pivot satisfies [Pv], rows from [len]
    on are zero. *)
Record Frame (Pv : Z -> Prop) (d len : nat) (s : st) : Prop := {
  fr_even : forall e j, (e < d)%nat -> j <> (2 * e + 1)%nat -> M s (2 * e)%nat j = 0;
  fr_odd : forall e j, (e < d)%nat -> j <> (2 * e)%nat -> M s (2 * e + 1)%nat j = 0;
  fr_piv : forall e, (e < d)%nat -> Pv (M s (2 * e)%nat (2 * e + 1)%nat);
  fr_tail : forall i j, (len <= i)%nat -> M s i j = 0
}.

Lemma frame_col Pv d len r m0 s i j : Core r m0 s -> Frame Pv d len s ->
  (j < 2 * d)%nat -> (2 * d <= i)%nat -> M s i j = 0.
Proof.
  intros HC HF Hj Hi. rewrite (co_anti _ _ _ HC).
  destruct (Nat.Even_or_Odd j) as [[e He]|[e He]]; subst j.
  - rewrite (fr_even _ _ _ _ HF e i) by lia. reflexivity.
  - rewrite (fr_odd _ _ _ _ HF e i) by lia. reflexivity.
Qed.

Lemma frame_tail_col Pv d len r m0 s i j : Core r m0 s -> Frame Pv d len s ->
  (len <= j)%nat -> M s i j = 0.
Proof.
  intros HC HF Hj. rewrite (co_anti _ _ _ HC), (fr_tail _ _ _ _ HF j i Hj). reflexivity.
Qed.

Lemma frame_step Pv d len r x y a b c e s s' :
  (2 * d <= x < len)%nat -> (2 * d <= y < len)%nat ->
  step_rel r x y a b c e s s' -> Frame Pv d len s -> Frame Pv d len s'.
Proof.
  intros Hx Hy H HF. constructor.
  - intros k j Hk Hj. rewrite (sr_M _ _ _ _ _ _ _ _ _ H). unfold colc, rowc.
    beq; try lia; rewrite ?(fr_even _ _ _ _ HF) by lia; lia.
  - intros k j Hk Hj. rewrite (sr_M _ _ _ _ _ _ _ _ _ H). unfold colc, rowc.
    beq; try lia; rewrite ?(fr_odd _ _ _ _ HF) by lia; lia.
  - intros k Hk. rewrite (sr_M _ _ _ _ _ _ _ _ _ H). unfold colc, rowc.
    beq; try lia. apply (fr_piv _ _ _ _ HF k Hk).
  - intros i j Hi. rewrite (sr_M _ _ _ _ _ _ _ _ _ H). unfold colc, rowc.
    beq; try lia; rewrite ?(fr_tail _ _ _ _ HF) by lia; lia.
Qed.

(* ------------------------------------------------------------------ *)
(** * Pivot search *)

Lemma pivot_scan_spec row js v jv :
  let j := pivot_scan row js v jv in
  (In j js /\ row j <> 0) \/ (j = jv /\ (v = 0 -> forall k, In k js -> row k = 0)).
Proof.
  revert v jv. induction js as [|j js IH]; intros v jv; cbn [pivot_scan]; cbv zeta.
  - right. split; [reflexivity|]. intros _ k [].
  - destruct (Z.eqb_spec (row j) 0) as [E|E].
    + destruct (IH v jv) as [[H1 H2]|[H1 H2]].
      * left. split; [right; exact H1|exact H2].
      * right. split; [exact H1|]. intros Hv k [<-|Hk]; [exact E|]. apply H2; assumption.
    + destruct (Z.eqb_spec (Z.abs (row j)) 1).
      * left. split; [left; reflexivity|exact E].
      * destruct ((v =? 0) || (Z.abs (row j) <? Z.abs v)) eqn:Ev.
        -- destruct (IH (row j) j) as [[H1 H2]|[H1 H2]].
           ++ left. split; [right; exact H1|exact H2].
           ++ left. rewrite H1. split; [left; reflexivity|exact E].
        -- destruct (IH v jv) as [[H1 H2]|[H1 H2]].
           ++ left. split; [right; exact H1|exact H2].
           ++ right. split; [exact H1|]. intros Hv. subst v. cbn in Ev. discriminate.
Qed.

Lemma pivot_line_spec m i len :
  let j := pivot_line m i len in
  ((i < j < len)%nat /\ get m i j <> 0) \/
  (j = len /\ forall k, (i < k < len)%nat -> get m i k = 0).
Proof.
  cbv zeta. unfold pivot_line.
  destruct (pivot_scan_spec (get m i) (seq (i + 1) (len - (i + 1))) 0 len) as [[H1 H2]|[H1 H2]].
  - left. apply in_seq in H1. split; [lia|exact H2].
  - right. split; [exact H1|]. intros k Hk. apply H2; [reflexivity|]. apply in_seq. lia.
Qed.

(** The pivot is an entry of smallest absolute value, or +-1. *)
Lemma pivot_scan_min row js v jv : (v <> 0 -> row jv = v) ->
  let j := pivot_scan row js v jv in
  (In j js \/ v <> 0) -> row j <> 0 ->
  Z.abs (row j) = 1 \/
  ((forall k, In k js -> row k <> 0 -> Z.abs (row j) <= Z.abs (row k)) /\
   (v <> 0 -> Z.abs (row j) <= Z.abs v)).
Proof.
  revert v jv. induction js as [|j js IH]; intros v jv Hv; cbn [pivot_scan]; cbv zeta; intros Hin Hnz.
  - right. split; [intros k []|]. intros H. rewrite (Hv H). lia.
  - destruct (Z.eqb_spec (row j) 0) as [E|E].
    + destruct (pivot_scan_spec row js v jv) as [[H1 H2]|[H1 H2]].
      * destruct (IH v jv Hv (or_introl H1) Hnz) as [H3|[H3 H4]]; [left; exact H3|].
        right. split; [|exact H4]. intros k [<-|Hk] Hk0; [contradiction|]. apply H3; assumption.
      * assert (Hv0 : v <> 0 \/ v = 0) by lia. destruct Hv0 as [Hv0|Hv0].
        -- destruct (IH v jv Hv (or_intror Hv0) Hnz) as [H3|[H3 H4]]; [left; exact H3|].
           right. split; [|exact H4]. intros k [<-|Hk] Hk0; [contradiction|]. apply H3; assumption.
        -- specialize (H2 Hv0). right. split; [|intros; contradiction].
           intros k [<-|Hk] Hk0; [contradiction|]. rewrite H2 in Hk0 by exact Hk. contradiction.
    + destruct (Z.eqb_spec (Z.abs (row j)) 1) as [E1|E1]; [left; exact E1|].
      destruct ((v =? 0) || (Z.abs (row j) <? Z.abs v)) eqn:Ev.
      * destruct (IH (row j) j (fun _ => eq_refl) (or_intror E) Hnz) as [H3|[H3 H4]]; [left; exact H3|].
        right. specialize (H4 E). split.
        -- intros k [<-|Hk] Hk0; [exact H4|]. apply H3; assumption.
        -- intros Hv0. apply orb_true_iff in Ev. lia.
      * assert (Hv0 : v <> 0) by lia.
        destruct (IH v jv Hv (or_intror Hv0) Hnz) as [H3|[H3 H4]]; [left; exact H3|].
        right. specialize (H4 Hv0). split; [|intros; exact H4].
        intros k [<-|Hk] Hk0; [lia|]. apply H3; assumption.
Qed.

Lemma find_pivot_spec Pv r m0 d : forall len s,
  (2 * d < len <= r)%nat -> Core r m0 s -> Frame Pv d len s ->
  (exists s', find_pivot len s d = Done (s', None) /\ Core r m0 s' /\ Frame Pv d (2 * d) s')
  \/ (exists s' len' j, find_pivot len s d = Done (s', Some (len', j)) /\
        Core r m0 s' /\ Frame Pv d len' s' /\ (2 * d < j < len')%nat /\ (len' <= len)%nat /\
        M s' (2 * d)%nat j <> 0).
Proof.
  induction len as [|l IH]; intros s Hl HC HF; [lia|].
  cbn [find_pivot].
  destruct (pivot_line_spec (stM s) (2 * d)%nat (S l)) as [[H1 H2]|[H1 H2]].
  - cbv zeta. destruct (Nat.eqb_spec (pivot_line (stM s) (2 * d) (S l)) (S l)); [lia|].
    right. exists s, (S l), (pivot_line (stM s) (2 * d) (S l)).
    conj; try assumption. all: first [reflexivity | lia].
  - cbv zeta. rewrite H1, Nat.eqb_refl.
    set (i := (2 * d)%nat) in *.
    (* row i vanishes *)
    assert (Hrow : forall j, M s i j = 0).
    { intros j. destruct (Nat.lt_ge_cases j i) as [Hj|Hj].
      - apply (frame_col Pv d (S l) r m0); try assumption; lia.
      - destruct (Nat.eq_dec j i) as [->|Hne]; [apply (core_diag r m0), HC|].
        destruct (Nat.lt_ge_cases j (S l)) as [Hj2|Hj2].
        + apply H2. lia.
        + apply (frame_tail_col Pv d (S l) r m0); assumption. }
    assert (Hstep : exists s', swap_step s i l = Done s' /\ Core r m0 s' /\ Frame Pv d l s').
    { destruct (Nat.eq_dec i l) as [E|Hne].
      - exists s. unfold swap_step. rewrite E, Nat.eqb_refl. split; [reflexivity|]. split; [exact HC|].
        destruct HF as [F1 F2 F3 F4]. constructor; try assumption.
        intros a b Ha. destruct (Nat.eq_dec a l) as [->|]; [rewrite <- E; apply Hrow|].
        apply F4. lia.
      - destruct (swap_step_rel r s (co_P _ _ _ HC) (co_M _ _ _ HC) i l Hne) as (s' & Hs' & HR); try lia.
        exists s'. split; [exact Hs'|].
        assert (HF' := frame_step Pv d (S l) r i l 0 1 1 0 s s' ltac:(lia) ltac:(lia) HR HF).
        split; [apply (core_step r m0 i l 0 1 1 0 s s'); try assumption; lia|].
        destruct HF' as [F1 F2 F3 F4]. constructor; try assumption.
        intros a b Ha. destruct (Nat.eq_dec a l) as [->|]; [|apply F4; lia].
        rewrite (sr_M _ _ _ _ _ _ _ _ _ HR). unfold colc, rowc.
        beq; try congruence; rewrite ?Hrow; lia. }
    destruct Hstep as (s' & Hs' & HC' & HF'). rewrite Hs'. cbn [bind].
    destruct (Nat.eqb_spec l i) as [E|Hne].
    + left. exists s'. split; [reflexivity|]. split; [exact HC'|]. fold i. rewrite <- E. exact HF'.
    + destruct (IH s') as [(s2 & E2 & HC2 & HF2)|(s2 & len' & j & E2 & HC2 & HF2 & Hj & Hlen & Hnz)];
        try assumption; [lia| |].
      * left. exists s2. conj; assumption.
      * right. exists s2, len', j. conj; try assumption; lia.
Qed.

(* ------------------------------------------------------------------ *)
(** * Loops *)

Lemma for_each_inv {S} (I : nat -> S -> Prop) body a b s :
  (a <= b)%nat -> I a s ->
  (forall k s, (a <= k < b)%nat -> I k s -> exists s', body k s = Done s' /\ I (k + 1)%nat s') ->
  exists s', for_each (range a b) body s = Done s' /\ I b s'.
Proof.
  intros Hab HI Hstep. unfold range.
  remember (b - a)%nat as n eqn:Hn. revert a s Hab HI Hstep Hn.
  induction n as [|n IH]; intros a s Hab HI Hstep Hn; cbn [seq for_each].
  - exists s. split; [reflexivity|]. replace b with a by lia. exact HI.
  - destruct (Hstep a s ltac:(lia) HI) as (s1 & E1 & HI1). rewrite E1. cbn [bind].
    replace (Datatypes.S a) with (a + 1)%nat by lia.
    apply IH; try lia; [exact HI1|]. intros k s2 Hk HI2. apply Hstep; [lia|exact HI2].
Qed.

Lemma not_divisible_gcd x y : y <> 0 -> x mod y <> 0 ->
  2 * Z.gcd y x <= Z.abs y.
Proof.
  intros Hy Hnd.
  assert (Hg : 0 < Z.gcd y x).
  { pose proof (Z.gcd_nonneg y x). assert (Z.gcd y x <> 0); [|lia].
    intros E. apply Z.gcd_eq_0_l in E. contradiction. }
  destruct (Z.gcd_divide_l y x) as [k Hk].
  assert (Hk0 : k <> 0) by (intros ->; lia).
  assert (k <> 1 /\ k <> -1).
  { split; intros ->; apply Hnd; apply Z.mod_divide; try assumption.
    - rewrite Hk at 1. rewrite Z.mul_1_l. apply Z.gcd_divide_r.
    - rewrite Hk at 1. replace (-1 * Z.gcd y x) with (- Z.gcd y x) by lia.
      apply Z.divide_opp_l, Z.gcd_divide_r. }
  rewrite Hk at 2. rewrite Z.abs_mul. rewrite (Z.abs_eq (Z.gcd y x)) by lia. nia.
Qed.

Section Clear.
Variable Pv : Z -> Prop.
Variable r : nat.
Variable m0 : mat.
Variable xgcd : Z -> Z -> Z * Z * Z.
Hypothesis Hx : xgcd_ok xgcd.
Variables d len : nat.
Hypothesis Hlen : (2 * d + 1 < len <= r)%nat.
Let i := (2 * d)%nat.
Let j := (2 * d + 1)%nat.

(** Invariant of the loop on row i: the pivot p0 at the start is only replaced by
    a divisor, stays positive if it was, and entries before k are cleared. *)
Record InvI (p0 : Z) (k : nat) (s : st) : Prop := {
  ii_core : Core r m0 s;
  ii_frame : Frame Pv d len s;
  ii_nz : M s i j <> 0;
  ii_abs : Z.abs (M s i j) <= Z.abs p0;
  ii_pos : 0 < p0 -> 0 < M s i j;
  ii_clear : forall k', (j < k' < k)%nat -> M s i k' = 0
}.

Lemma clear_i_step p0 k s : (j + 1 <= k < len)%nat -> InvI p0 k s ->
  exists s', clear_i_body xgcd i j k s = Done s' /\ InvI p0 (k + 1) s'.
Proof using Hlen Hx.
  intros Hk [HC HF Hnz Habs Hpos Hcl].
  unfold clear_i_body.
  destruct (Z.eqb_spec (M s i k) 0) as [E|E].
  - exists s. split; [reflexivity|]. constructor; try assumption.
    intros k' Hk'. destruct (Nat.eq_dec k' k) as [->|]; [exact E|]. apply Hcl. lia.
  - destruct (Z.eqb_spec (M s i j) 0) as [?|_]; [contradiction|].
    unfold divisible.
    destruct (Z.eqb_spec (M s i k mod M s i j) 0) as [Ed|Ed].
    + destruct (transvect_step_rel r s (co_P _ _ _ HC) (co_M _ _ _ HC) k j (- (M s i k / M s i j)))
        as (s' & Hs' & HR); try (unfold i, j in *; lia).
      exists s'. split; [exact Hs'|].
      assert (Eij : M s' i j = M s i j).
      { rewrite (sr_M _ _ _ _ _ _ _ _ _ HR). unfold colc, rowc. unfold i, j in *. beq; try lia. }
      constructor.
      * apply (core_step r m0 k j 1 (- (M s i k / M s i j)) 0 1 s s'); try assumption; unfold i, j in *; lia.
      * apply (frame_step Pv d len r k j 1 (- (M s i k / M s i j)) 0 1 s s'); try assumption; unfold i, j in *; lia.
      * rewrite Eij. exact Hnz.
      * rewrite Eij. exact Habs.
      * rewrite Eij. exact Hpos.
      * intros k' Hk'. rewrite (sr_M _ _ _ _ _ _ _ _ _ HR). unfold colc, rowc.
        destruct (Nat.eqb_spec k' k) as [->|Hne].
        -- unfold i, j in *. beq; try lia.
        -- unfold i, j in *. beq; try lia. apply Hcl. lia.
    + destruct (bezout_step_rel r s (co_P _ _ _ HC) (co_M _ _ _ HC) xgcd j k (M s i j) (M s i k) Hx Hnz)
        as (u & v & s' & Hs' & Huv & HR); try (unfold i, j in *; lia).
      set (g := Z.gcd (M s i j) (M s i k)) in *.
      assert (Hg : 0 < g).
      { pose proof (Z.gcd_nonneg (M s i j) (M s i k)). fold g in H.
        assert (g <> 0); [|lia]. intros E0. apply Z.gcd_eq_0_l in E0. contradiction. }
      exists s'. split; [exact Hs'|].
      destruct (Z.gcd_divide_l (M s i j) (M s i k)) as [qa Hqa]. fold g in Hqa.
      destruct (Z.gcd_divide_r (M s i j) (M s i k)) as [qb Hqb]. fold g in Hqb.
      assert (Ea : M s i j / g = qa) by (rewrite Hqa; apply Z.div_mul; lia).
      assert (Eb : M s i k / g = qb) by (rewrite Hqb; apply Z.div_mul; lia).
      assert (Eij : M s' i j = g).
      { rewrite (sr_M _ _ _ _ _ _ _ _ _ HR). unfold colc, rowc. unfold i, j in *. beq; try lia. }
      assert (Hdet : u * (M s i j / g) - v * (- (M s i k / g)) = 1).
      { rewrite Ea, Eb. assert (g * (u * qa - v * - qb) = g * 1); [|apply (Z.mul_reg_l _ _ g); [clear - Hg; lia|assumption]].
        replace (g * (u * qa - v * - qb)) with (u * (qa * g) + v * (qb * g)) by ring.
        rewrite <- Hqa, <- Hqb, Huv. ring. }
      assert (Hgle : g <= Z.abs (M s i j)).
      { apply Z.divide_pos_le; [lia|]. apply Z.divide_abs_r. exists qa. exact Hqa. }
      constructor.
      * apply (core_step r m0 j k u v (- (M s i k / g)) (M s i j / g) s s'); try assumption; try (unfold i, j in *; lia).
      * apply (frame_step Pv d len r j k u v (- (M s i k / g)) (M s i j / g) s s'); try assumption; unfold i, j in *; lia.
      * rewrite Eij. lia.
      * rewrite Eij. lia.
      * rewrite Eij. lia.
      * intros k' Hk'. rewrite (sr_M _ _ _ _ _ _ _ _ _ HR). unfold colc, rowc.
        destruct (Nat.eqb_spec k' k) as [->|Hne].
        -- unfold i, j in *. beq; try lia.
        -- unfold i, j in *. beq; try lia. apply Hcl. lia.
Qed.

(** Invariant of the loop on row j.  While no Bezout step was done ([cleared] is
    true), row i stays clear and the pivot does not change; afterwards the
    pivot has been at least halved. *)
Record InvJ (p1 : Z) (k : nat) (sc : st * bool) : Prop := {
  ij_core : Core r m0 (fst sc);
  ij_frame : Frame Pv d len (fst sc);
  ij_nz : M (fst sc) i j <> 0;
  ij_clear : forall k', (j < k' < k)%nat -> M (fst sc) j k' = 0;
  ij_true : snd sc = true -> M (fst sc) i j = p1 /\
              forall k', (j < k' < len)%nat -> M (fst sc) i k' = 0;
  ij_false : snd sc = false -> 2 * Z.abs (M (fst sc) i j) <= Z.abs p1
}.

Lemma clear_j_step p1 k sc : (j + 1 <= k < len)%nat -> InvJ p1 k sc ->
  exists sc', clear_j_body xgcd i j k sc = Done sc' /\ InvJ p1 (k + 1) sc'.
Proof using Hlen Hx.
  intros Hk [HC HF Hnz Hcl Ht Hf]. destruct sc as [s cl]. cbn [fst snd] in *.
  unfold clear_j_body.
  destruct (Z.eqb_spec (M s j k) 0) as [E|E].
  - exists (s, cl). split; [reflexivity|]. constructor; cbn [fst snd]; try assumption.
    intros k' Hk'. destruct (Nat.eq_dec k' k) as [->|]; [exact E|]. apply Hcl. lia.
  - destruct (Z.eqb_spec (M s i j) 0) as [?|_]; [contradiction|].
    unfold divisible.
    assert (Eji : M s j i = - M s i j) by apply (co_anti _ _ _ HC).
    assert (Eii : M s i i = 0) by (apply (core_diag _ _ _ _ HC)).
    destruct (Z.eqb_spec (M s j k mod M s i j) 0) as [Ed|Ed].
    + destruct (transvect_step_rel r s (co_P _ _ _ HC) (co_M _ _ _ HC) k i (M s j k / M s i j))
        as (s' & Hs' & HR); try (unfold i, j in *; lia).
      rewrite Hs'. cbn [bind]. exists (s', cl). split; [reflexivity|].
      assert (Eij : M s' i j = M s i j).
      { rewrite (sr_M _ _ _ _ _ _ _ _ _ HR). unfold colc, rowc. unfold i, j in *. beq; try lia. }
      constructor; cbn [fst snd].
      * apply (core_step r m0 k i 1 (M s j k / M s i j) 0 1 s s'); try assumption; unfold i, j in *; lia.
      * apply (frame_step Pv d len r k i 1 (M s j k / M s i j) 0 1 s s'); try assumption; unfold i, j in *; lia.
      * rewrite Eij. exact Hnz.
      * intros k' Hk'. rewrite (sr_M _ _ _ _ _ _ _ _ _ HR). unfold colc, rowc.
        destruct (Nat.eqb_spec k' k) as [->|Hne].
        -- unfold i, j in *. beq; try lia.
        -- unfold i, j in *. beq; try lia. apply Hcl. lia.
      * intros Hc. destruct (Ht Hc) as [Hp Hrow]. rewrite Eij. split; [exact Hp|].
        intros k' Hk'. rewrite (sr_M _ _ _ _ _ _ _ _ _ HR). unfold colc, rowc.
        unfold i, j in *. beq; try lia; rewrite ?Eii, ?(Hrow k') by lia; try rewrite Hrow by lia; lia.
      * rewrite Eij. exact Hf.
    + assert (Hnz' : M s j i <> 0) by lia.
      destruct (bezout_step_rel r s (co_P _ _ _ HC) (co_M _ _ _ HC) xgcd i k (M s j i) (M s j k) Hx Hnz')
        as (u & v & s' & Hs' & Huv & HR); try (unfold i, j in *; lia).
      set (g := Z.gcd (M s j i) (M s j k)) in *.
      assert (Hg : 0 < g).
      { pose proof (Z.gcd_nonneg (M s j i) (M s j k)). fold g in H.
        assert (g <> 0); [|lia]. intros E0. apply Z.gcd_eq_0_l in E0. contradiction. }
      rewrite Hs'. cbn [bind]. exists (s', false). split; [reflexivity|].
      destruct (Z.gcd_divide_l (M s j i) (M s j k)) as [qa Hqa]. fold g in Hqa.
      destruct (Z.gcd_divide_r (M s j i) (M s j k)) as [qb Hqb]. fold g in Hqb.
      assert (Ea : M s j i / g = qa) by (rewrite Hqa; apply Z.div_mul; lia).
      assert (Eb : M s j k / g = qb) by (rewrite Hqb; apply Z.div_mul; lia).
      assert (Eij' : M s' j i = g).
      { rewrite (sr_M _ _ _ _ _ _ _ _ _ HR). unfold colc, rowc. unfold i, j in *. beq; try lia. }
      assert (Hdet : u * (M s j i / g) - v * (- (M s j k / g)) = 1).
      { rewrite Ea, Eb. assert (g * (u * qa - v * - qb) = g * 1); [|apply (Z.mul_reg_l _ _ g); [clear - Hg; lia|assumption]].
        replace (g * (u * qa - v * - qb)) with (u * (qa * g) + v * (qb * g)) by ring.
        rewrite <- Hqa, <- Hqb, Huv. ring. }
      assert (HC' : Core r m0 s').
      { apply (core_step r m0 i k u v (- (M s j k / g)) (M s j i / g) s s'); try assumption; try (unfold i, j in *; lia). }
      assert (Eij : M s' i j = - g) by (rewrite (co_anti _ _ _ HC'), Eij'; reflexivity).
      assert (Hhalf : 2 * g <= Z.abs (M s i j)).
      { unfold g. rewrite Eji. rewrite Z.gcd_opp_l. apply not_divisible_gcd; assumption. }
      constructor; cbn [fst snd].
      * exact HC'.
      * apply (frame_step Pv d len r i k u v (- (M s j k / g)) (M s j i / g) s s'); try assumption; unfold i, j in *; lia.
      * lia.
      * intros k' Hk'. rewrite (sr_M _ _ _ _ _ _ _ _ _ HR). unfold colc, rowc.
        destruct (Nat.eqb_spec k' k) as [->|Hne].
        -- unfold i, j in *. beq; try lia.
        -- unfold i, j in *. beq; try lia. apply Hcl. lia.
      * discriminate.
      * intros _. destruct cl.
        -- destruct (Ht eq_refl) as [Hp _]. rewrite <- Hp. lia.
        -- specialize (Hf eq_refl). lia.
Qed.

(** With a unit pivot no Bezout step is ever done. *)
Lemma clear_j_unit : forall ks s s' cl,
  for_each ks (clear_j_body xgcd i j) (s, true) = Done (s', cl) ->
  (forall k, In k ks -> (j + 1 <= k < len)%nat) ->
  Core r m0 s -> M s i j = 1 -> cl = true /\ M s' i j = 1.
Proof using Hlen Hx.
  induction ks as [|k ks IH]; intros s s' cl H Hks HC H1; cbn [for_each] in H.
  - injection H as <- <-. split; [reflexivity|exact H1].
  - assert (Hk : (j + 1 <= k < len)%nat) by (apply Hks; left; reflexivity).
    cbn [clear_j_body] in H. rewrite H1 in H. unfold divisible in H.
    rewrite Z.mod_1_r, Z.div_1_r in H. cbn [Z.eqb] in H.
    destruct (M s j k =? 0).
    + cbn [bind] in H. apply (IH s s' cl H); try assumption. intros; apply Hks; right; assumption.
    + destruct (transvect_step_rel r s (co_P _ _ _ HC) (co_M _ _ _ HC) k i (M s j k))
        as (s2 & Hs2 & HR); try (unfold i, j in *; lia).
      rewrite Hs2 in H. cbn [bind] in H.
      apply (IH s2 s' cl H).
      * intros; apply Hks; right; assumption.
      * apply (core_step r m0 k i 1 (M s j k) 0 1 s s2); try assumption; unfold i, j in *; lia.
      * rewrite (sr_M _ _ _ _ _ _ _ _ _ HR). unfold colc, rowc. unfold i, j in *. beq; try lia.
Qed.

(** The while loop terminates with the logarithmic fuel. *)
Lemma clear_loop_spec : forall fuel s,
  Core r m0 s -> Frame Pv d len s -> M s i j <> 0 ->
  Z.abs (M s i j) < 2 ^ Z.of_nat fuel ->
  exists s', clear_loop xgcd fuel i j len s = Done s' /\
    Core r m0 s' /\ Frame Pv d len s' /\ M s' i j <> 0 /\
    (forall k, (j < k)%nat -> M s' i k = 0) /\
    (forall k, (j < k)%nat -> M s' j k = 0) /\
    Z.abs (M s' i j) <= Z.abs (M s i j) /\
    (0 < M s i j ->
     (forall s1, Core r m0 s1 -> Frame Pv d len s1 ->
        (forall k, k <> j -> M s1 i k = 0) -> Z.abs (M s1 i j) = 1) -> M s' i j = 1).
Proof using Hlen Hx.
  induction fuel as [|fuel IH]; intros s HC HF Hnz Hb.
  - change (2 ^ Z.of_nat 0) with 1 in Hb. lia.
  - cbn [clear_loop].
    destruct (for_each_inv (InvI (M s i j)) (clear_i_body xgcd i j) (j + 1) len s)
      as (s1 & E1 & [HC1 HF1 Hnz1 Habs1 Hpos1 Hcl1]).
    { unfold j. lia. }
    { constructor; try assumption; try lia. }
    { intros k s1 Hk HI. apply clear_i_step; assumption. }
    rewrite E1. cbn [bind].
    assert (Hcl1' : forall k, (j < k)%nat -> M s1 i k = 0).
    { intros k Hk. destruct (Nat.lt_ge_cases k len); [apply Hcl1; lia|].
      apply (frame_tail_col Pv d len r m0); assumption. }
    destruct (for_each_inv (InvJ (M s1 i j)) (clear_j_body xgcd i j) (j + 1) len (s1, true))
      as ([s2 cl] & E2 & [HC2 HF2 Hnz2 Hcl2 Ht2 Hf2]).
    { unfold j. lia. }
    { constructor; cbn [fst snd]; try assumption; try lia; try discriminate.
      intros _. split; [reflexivity|]. intros k Hk. apply Hcl1'. lia. }
    { intros k sc Hk HI. apply clear_j_step; assumption. }
    rewrite E2. cbn [bind fst snd] in *.
    assert (Hcl2' : forall k, (j < k)%nat -> M s2 j k = 0).
    { intros k Hk. destruct (Nat.lt_ge_cases k len); [apply Hcl2; lia|].
      apply (frame_tail_col Pv d len r m0); assumption. }
    destruct cl.
    + destruct (Ht2 eq_refl) as [Hp2 Hrow2].
      assert (Hrow2' : forall k, (j < k)%nat -> M s2 i k = 0).
      { intros k Hk. destruct (Nat.lt_ge_cases k len); [apply Hrow2; lia|].
        apply (frame_tail_col Pv d len r m0); assumption. }
      exists s2. conj; try assumption; try lia; [reflexivity|].
      intros Hp Hu.
      assert (Hu2 : Z.abs (M s2 i j) = 1).
      { apply Hu; try assumption. intros k Hk.
        destruct (Nat.lt_ge_cases j k) as [Hk1|Hk1]; [apply Hrow2', Hk1|].
        destruct (Nat.eq_dec k i) as [->|]; [apply (core_diag _ _ _ _ HC2)|].
        apply (frame_col Pv d len r m0); try assumption; unfold i, j in *; lia. }
      specialize (Hpos1 Hp). lia.
    + specialize (Hf2 eq_refl).
      destruct (IH s2 HC2 HF2 Hnz2) as (s3 & E3 & HC3 & HF3 & Hnz3 & Hr3 & Hc3 & Habs3 & _).
      { rewrite Nat2Z.inj_succ, Z.pow_succ_r in Hb by lia. lia. }
      exists s3. conj; try assumption; try lia.
      intros Hp Hu. exfalso.
      assert (Hu1 : Z.abs (M s1 i j) = 1).
      { apply Hu; try assumption. intros k Hk.
        destruct (Nat.lt_ge_cases j k) as [Hk1|Hk1]; [apply Hcl1', Hk1|].
        destruct (Nat.eq_dec k i) as [->|]; [apply (core_diag _ _ _ _ HC1)|].
        apply (frame_col Pv d len r m0); try assumption; unfold i, j in *; lia. }
      specialize (Hpos1 Hp).
      destruct (clear_j_unit _ _ _ _ E2) as [Hfalse _]; try assumption; try lia; try discriminate.
Qed.
End Clear.
