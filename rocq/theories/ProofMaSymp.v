(** The Magma symplectic reduction. *)
From Verif Require Import Base ModelSymp SpecSymp ProofSymp ProofSympRed ProofSympMain ModelMaSymp SpecMaSymp.
From Coq Require Import Permutation.

Definition sw (x y a : nat) : nat := if (a =? x)%nat then y else if (a =? y)%nat then x else a.

Section Loop.
Variable r : nat.
Variable m0 : mat.
Notation one := (fun z : Z => z = 1).

Lemma swap_spec d s x y : Core r m0 s -> Frame one d r s ->
  (2 * d <= x < r)%nat -> (2 * d <= y < r)%nat ->
  exists s', swap_step s x y = Done s' /\ Core r m0 s' /\ Frame one d r s' /\
    forall a b, M s' a b = M s (sw x y a) (sw x y b).
Proof using All.
  intros HC HF Hx Hy. destruct (Nat.eq_dec x y) as [->|Hne].
  - exists s. unfold swap_step. rewrite Nat.eqb_refl. conj; try assumption; [reflexivity|].
    intros a b. unfold sw. beq; reflexivity.
  - destruct (swap_step_rel r s (co_P _ _ _ HC) (co_M _ _ _ HC) x y Hne ltac:(lia) ltac:(lia)) as (s' & E & HR).
    exists s'. conj; [exact E| | |].
    + apply (core_step r m0 x y 0 1 1 0 s s'); try assumption; lia.
    + apply (frame_step one d r r x y 0 1 1 0 s s'); try assumption.
    + intros a b. rewrite (sr_M _ _ _ _ _ _ _ _ _ HR). unfold colc, rowc, sw. beq; lia.
Qed.

Lemma swap_spec2 d s x y x' y' : Core r m0 s -> Frame one d r s ->
  (2 * d <= x < r)%nat -> (2 * d <= y < r)%nat -> (2 * d <= x' < r)%nat -> (2 * d <= y' < r)%nat ->
  exists s', (do s <- swap_step s x y; swap_step s x' y') = Done s' /\ Core r m0 s' /\ Frame one d r s' /\
    forall a b, M s' a b = M s (sw x y (sw x' y' a)) (sw x y (sw x' y' b)).
Proof using All.
  intros HC HF Hx Hy Hx' Hy'.
  destruct (swap_spec d s x y HC HF Hx Hy) as (s1 & E1 & HC1 & HF1 & G1).
  destruct (swap_spec d s1 x' y' HC1 HF1 Hx' Hy') as (s2 & E2 & HC2 & HF2 & G2).
  exists s2. rewrite E1. cbn [bind]. conj; try assumption. intros a b. rewrite G2, G1. reflexivity.
Qed.

Lemma fix_sign d s v : Core r m0 s -> Frame one d r s -> (2 * d + 1 < r)%nat ->
  (M s (2 * d + 1)%nat (2 * d)%nat = v \/ M s (2 * d + 1)%nat (2 * d)%nat = - v) -> v = -1 ->
  exists s', (if negb (M s (2 * d + 1)%nat (2 * d)%nat =? v) && negb false
              then swap_step s (2 * d) (2 * d + 1) else Done s) = Done s' /\
    Core r m0 s' /\ Frame one d r s' /\ M s' (2 * d)%nat (2 * d + 1)%nat = 1.
Proof using All.
  intros HC HF Hd Hv ->. pose proof (co_anti _ _ _ HC (2 * d) (2 * d + 1)) as HA.
  destruct (Z.eqb_spec (M s (2 * d + 1)%nat (2 * d)%nat) (-1)) as [E|E]; cbn [negb andb].
  - exists s. conj; try assumption; [reflexivity|]. lia.
  - destruct (swap_spec d s (2 * d) (2 * d + 1) HC HF ltac:(lia) ltac:(lia)) as (s1 & E1 & HC1 & HF1 & G1).
    exists s1. conj; try assumption. rewrite G1. unfold sw. beq; lia.
Qed.

Lemma move_spec d s i j : Core r m0 s -> Frame one d r s -> (2 * d + 1 < r)%nat ->
  (2 * d <= i < r)%nat -> (2 * d <= j < r)%nat -> M s j i = 1 ->
  exists s', move_to_pivot i j (2 * d) s = Done s' /\ Core r m0 s' /\ Frame one d r s' /\
    M s' (2 * d)%nat (2 * d + 1)%nat = 1.
Proof using All.
  intros HC HF Hd Hi Hj HM.
  pose proof (co_anti _ _ _ HC i j) as HA.
  assert (Hij : i <> j) by (intros ->; pose proof (core_diag _ _ _ j HC); lia).
  unfold move_to_pivot.
  replace (((i =? 2 * d + 1) && (j =? 2 * d))%nat && negb (M s (2 * d + 1)%nat (2 * d)%nat =? M s i j)) with false.
  2:{ destruct (Nat.eqb_spec i (2 * d + 1)) as [->|]; [|reflexivity].
      destruct (Nat.eqb_spec j (2 * d)) as [->|]; [|reflexivity]. rewrite Z.eqb_refl. reflexivity. }
  assert (Hv : M s i j = -1) by lia.
  assert (K : forall o s1, o = Done s1 -> Core r m0 s1 -> Frame one d r s1 ->
    (M s1 (2 * d + 1)%nat (2 * d)%nat = M s i j \/ M s1 (2 * d + 1)%nat (2 * d)%nat = - M s i j) ->
    exists s', (do s1 <- o; if negb (M s1 (2 * d + 1)%nat (2 * d)%nat =? M s i j) && negb false
              then swap_step s1 (2 * d) (2 * d + 1) else Done s1) = Done s' /\
    Core r m0 s' /\ Frame one d r s' /\ M s' (2 * d)%nat (2 * d + 1)%nat = 1).
  { intros o s1 -> HC1 HF1 H1. cbn [bind]. exact (fix_sign d s1 _ HC1 HF1 Hd H1 Hv). }
  assert (One : forall x y, (2 * d <= x < r)%nat -> (2 * d <= y < r)%nat ->
     (M s (sw x y (2 * d + 1)) (sw x y (2 * d)) = -1 \/ M s (sw x y (2 * d + 1)) (sw x y (2 * d)) = 1) ->
    exists s', (do s1 <- swap_step s x y; if negb (M s1 (2 * d + 1)%nat (2 * d)%nat =? M s i j) && negb false
              then swap_step s1 (2 * d) (2 * d + 1) else Done s1) = Done s' /\
    Core r m0 s' /\ Frame one d r s' /\ M s' (2 * d)%nat (2 * d + 1)%nat = 1).
  { intros x y Hx Hy Hs. destruct (swap_spec d s x y HC HF Hx Hy) as (s1 & E1 & HC1 & HF1 & G1).
    apply (K _ s1 E1 HC1 HF1). rewrite G1. lia. }
  cbv iota. unfold sw in One.
  destruct (Nat.eqb_spec i (2 * d)) as [Ei|Ei]; destruct (Nat.eqb_spec j (2 * d + 1)) as [Ej|Ej]; cbn [andb].
  - apply One; try lia. beq; try lia.
  - destruct (Nat.eqb_spec j (2 * d)) as [?|_]; [lia|]. cbn [negb andb].
    apply One; try lia. beq; try lia.
  - destruct (Nat.eqb_spec j (2 * d)) as [?|_]; [lia|]. cbn [negb andb].
    apply One; try lia. beq; try lia.
  - destruct (Nat.eqb_spec j (2 * d)) as [Ej'|Ej']; cbn [negb andb].
    + apply One; try lia. beq; try lia.
    + destruct (Nat.eqb_spec i (2 * d + 1)) as [Ei'|Ei']; cbn [negb andb].
      * apply One; try lia. beq; try lia.
      * destruct (swap_spec2 d s (2 * d) j (2 * d + 1) i HC HF ltac:(lia) ltac:(lia) ltac:(lia) ltac:(lia))
          as (s1 & E1 & HC1 & HF1 & G1).
        apply (K _ s1 E1 HC1 HF1). rewrite G1.
        replace (sw (2 * d + 1) i (2 * d + 1)) with i by (unfold sw; beq; lia).
        replace (sw (2 * d + 1) i (2 * d)) with (2 * d)%nat by (unfold sw; beq; lia).
        replace (sw (2 * d) j i) with i by (unfold sw; beq; lia).
        replace (sw (2 * d) j (2 * d)) with j by (unfold sw; beq; lia).
        left. reflexivity.
Qed.

(** cleaning *)
Definition clean_a d k (sa : st * bool) : Prop :=
  Core r m0 (fst sa) /\ Frame one d r (fst sa) /\ M (fst sa) (2 * d)%nat (2 * d + 1)%nat = 1 /\
  forall k', (2 * d + 1 < k' < k)%nat -> M (fst sa) (2 * d)%nat k' = 0.

Lemma clean_row_spec d sa : (2 * d + 1 < r)%nat -> clean_a d (2 * d + 2) sa ->
  exists sa', for_each (range (2 * d + 2) r) (clean_row (2 * d)) sa = Done sa' /\ clean_a d r sa'.
Proof using All.
  intros Hd H. apply for_each_inv; [lia|exact H|].
  intros k [s az] Hk (HC & HF & H1 & Hz). cbn [fst] in *. unfold clean_row.
  destruct (Z.eqb_spec (- M s (2 * d)%nat k) 0) as [E|E].
  - exists (s, az). split; [reflexivity|]. unfold clean_a. cbn [fst]. conj; try assumption.
    intros k' Hk'. destruct (Nat.eq_dec k' k) as [->|]; [lia|]. apply Hz. lia.
  - destruct (transvect_step_rel r s (co_P _ _ _ HC) (co_M _ _ _ HC) k (2 * d + 1) (- M s (2 * d)%nat k))
      as (s' & Hs' & HR); try lia.
    rewrite Hs'. cbn [bind]. exists (s', false). split; [reflexivity|]. unfold clean_a. cbn [fst]. conj.
    + apply (core_step r m0 k (2 * d + 1) 1 (- M s (2 * d)%nat k) 0 1 s s'); try assumption; lia.
    + apply (frame_step one d r r k (2 * d + 1) 1 (- M s (2 * d)%nat k) 0 1 s s'); try assumption; lia.
    + rewrite (sr_M _ _ _ _ _ _ _ _ _ HR). unfold colc, rowc. beq; lia.
    + intros k' Hk'. rewrite (sr_M _ _ _ _ _ _ _ _ _ HR). unfold colc, rowc.
      destruct (Nat.eq_dec k' k) as [->|].
      * beq; try lia; rewrite ?H1; lia.
      * beq; try lia; apply Hz; lia.
Qed.

Definition clean_b d k (sa : st * bool) : Prop :=
  clean_a d r sa /\ forall k', (2 * d + 1 < k' < k)%nat -> M (fst sa) (2 * d + 1)%nat k' = 0.

Lemma clean_next_spec d sa : (2 * d + 1 < r)%nat -> clean_b d (2 * d + 2) sa ->
  exists sa', for_each (range (2 * d + 2) r) (clean_next (2 * d)) sa = Done sa' /\ clean_b d r sa'.
Proof using All.
  intros Hd H. apply for_each_inv; [lia|exact H|].
  intros k [s az] Hk [(HC & HF & H1 & Hz) Hy]. cbn [fst] in *. unfold clean_next.
  destruct (Z.eqb_spec (M s (2 * d + 1)%nat k) 0) as [E|E].
  - exists (s, az). split; [reflexivity|]. unfold clean_b, clean_a. cbn [fst]. conj; try assumption.
    intros k' Hk'. destruct (Nat.eq_dec k' k) as [->|]; [lia|]. apply Hy. lia.
  - destruct (transvect_step_rel r s (co_P _ _ _ HC) (co_M _ _ _ HC) k (2 * d) (M s (2 * d + 1)%nat k))
      as (s' & Hs' & HR); try lia.
    pose proof (core_diag _ _ _ (2 * d) HC) as D0.
    pose proof (co_anti _ _ _ HC (2 * d + 1) (2 * d)) as A0.
    rewrite Hs'. cbn [bind]. exists (s', false). split; [reflexivity|]. unfold clean_b, clean_a. cbn [fst]. conj.
    + apply (core_step r m0 k (2 * d) 1 (M s (2 * d + 1)%nat k) 0 1 s s'); try assumption; lia.
    + apply (frame_step one d r r k (2 * d) 1 (M s (2 * d + 1)%nat k) 0 1 s s'); try assumption; lia.
    + rewrite (sr_M _ _ _ _ _ _ _ _ _ HR). unfold colc, rowc. beq; lia.
    + intros k' Hk'. rewrite (sr_M _ _ _ _ _ _ _ _ _ HR). unfold colc, rowc.
      pose proof (Hz k' Hk'). pose proof (Hz k ltac:(lia)).
      beq; try lia; rewrite ?D0; lia.
    + intros k' Hk'. rewrite (sr_M _ _ _ _ _ _ _ _ _ HR). unfold colc, rowc.
      destruct (Nat.eq_dec k' k) as [->|].
      * beq; try lia.
      * beq; try lia; apply Hy; lia.
Qed.

Lemma for_each_id {S} ks (body : nat -> S -> outcome S) s :
  (forall k, In k ks -> body k s = Done s) -> for_each ks body s = Done s.
Proof using.
  induction ks as [|k ks IH]; intros H; [reflexivity|]. cbn [for_each].
  rewrite H by (left; reflexivity). cbn [bind]. apply IH. intros k' Hk'. apply H. right. exact Hk'.
Qed.

Lemma in_range k a b : In k (range a b) <-> (a <= k < b)%nat.
Proof using. unfold range. rewrite in_seq. lia. Qed.

Lemma find_one_some p s i j : find_one (stM s) p r = Some (i, j) ->
  (p <= i < r)%nat /\ (p <= j < r)%nat /\ M s i j = 1.
Proof using.
  intros H. apply find_some in H. destruct H as [H1 H2]. cbn [fst snd] in H2.
  apply in_prod_iff in H1. rewrite !in_range in H1. lia.
Qed.

Lemma find_one_none p s : find_one (stM s) p r = None <->
  forall i j, (p <= i < r)%nat -> (p <= j < r)%nat -> M s i j <> 1.
Proof using.
  unfold find_one. split.
  - intros H i j Hi Hj.
    pose proof (find_none _ _ H (i, j)) as E. cbn [fst snd] in E.
    rewrite in_prod_iff, !in_range in E. specialize (E ltac:(lia)). lia.
  - intros H. destruct (find _ _) as [[i j]|] eqn:E; [|reflexivity]. exfalso.
    apply find_some in E. destruct E as [H1 H2]. cbn [fst snd] in H2.
    rewrite in_prod_iff, !in_range in H1. apply (H i j); lia.
Qed.

Lemma find_app {A} f (l1 l2 : list A) : find f (l1 ++ l2) = match find f l1 with Some x => Some x | None => find f l2 end.
Proof using. induction l1 as [|x l1 IH]; [reflexivity|]. cbn. destruct (f x); [reflexivity|exact IH]. Qed.

Lemma find_clean d s : (2 * d + 1 < r)%nat -> clean_b d r (s, true) ->
  find_one (stM s) (2 * d) r = Some (2 * d, 2 * d + 1)%nat.
Proof using All.
  intros Hd [(HC & HF & H1 & Hz) _]. cbn [fst] in *.
  pose proof (core_diag _ _ _ (2 * d) HC) as D0.
  unfold find_one. set (q := range (2 * d) r) at 2. unfold range.
  replace (r - 2 * d)%nat with (S (r - 2 * d - 1)) by lia. cbn [seq list_prod].
  rewrite find_app. unfold q, range.
  replace (r - 2 * d)%nat with (S (S (r - 2 * d - 2))) by lia. cbn [seq map find fst snd].
  rewrite D0. cbn [Z.eqb]. replace (S (2 * d)) with (2 * d + 1)%nat by lia. rewrite H1. reflexivity.
Qed.

Lemma move_clean d s : move_to_pivot (2 * d + 1) (2 * d) (2 * d) s = Done s.
Proof using.
  unfold move_to_pivot. rewrite !Nat.eqb_refl, Z.eqb_refl. cbn [negb andb].
  destruct (Nat.eqb_spec (2 * d + 1) (2 * d)) as [?|_]; [lia|]. cbn [negb andb].
  unfold swap_step. rewrite Nat.eqb_refl. cbn [bind]. rewrite Z.eqb_refl. reflexivity.
Qed.

Lemma seq_app' a n k : seq a (n + k) = seq a n ++ seq (a + n) k.
Proof using. apply seq_app. Qed.

(** the remaining indices are all declared zeros *)
Lemma none_loop s ps : forall fuel p zeros, (p <= r)%nat -> (r - p + 1 <= fuel)%nat ->
  find_one (stM s) p r = None ->
  basis_loop fuel p r s ps zeros = Done (s, ps, zeros ++ seq p (r - p)).
Proof using.
  induction fuel as [|fuel IH]; intros p zeros Hp Hf HN; [lia|].
  cbn [basis_loop]. destruct (Nat.leb_spec r p) as [Hle|Hlt].
  - replace (r - p)%nat with O by lia. cbn [seq]. rewrite app_nil_r. reflexivity.
  - rewrite HN. rewrite IH; [| lia | lia |].
    + rewrite <- app_assoc. cbn [app]. replace (r - p)%nat with (S (r - (p + 1))) by lia. cbn [seq].
      replace (S p) with (p + 1)%nat by lia. reflexivity.
    + apply find_one_none. intros i j Hi Hj. apply (proj1 (find_one_none p s) HN); lia.
Qed.

Definition pivots (d k : nat) : list (Z * nat) := map (fun e => (-1, (2 * e)%nat)) (seq d (k - d)).

Lemma frame_grow d s : clean_b d r (s, true) -> Frame one (d + 1) r s.
Proof using All.
  intros [(HC & HF & H1 & Hz) Hy]. cbn [fst] in *.
  pose proof (core_diag _ _ _ (2 * d) HC) as D0. pose proof (core_diag _ _ _ (2 * d + 1) HC) as D1.
  pose proof (co_anti _ _ _ HC (2 * d + 1) (2 * d)) as A0.
  assert (Sq := co_M _ _ _ HC).
  constructor.
  - intros e j He Hj. destruct (Nat.eq_dec e d) as [->|]; [|apply (fr_even _ _ _ _ HF); lia].
    destruct (Nat.lt_ge_cases j (2 * d)); [apply (frame_col one d r r m0 s); try assumption; lia|].
    destruct (Nat.eq_dec j (2 * d)) as [->|]; [exact D0|].
    destruct (Nat.lt_ge_cases j r); [apply Hz; lia|]. apply (get_out_col r); assumption.
  - intros e j He Hj. destruct (Nat.eq_dec e d) as [->|]; [|apply (fr_odd _ _ _ _ HF); lia].
    destruct (Nat.lt_ge_cases j (2 * d)); [apply (frame_col one d r r m0 s); try assumption; lia|].
    destruct (Nat.eq_dec j (2 * d + 1)) as [->|]; [exact D1|].
    destruct (Nat.lt_ge_cases j r); [apply Hy; lia|]. apply (get_out_col r); assumption.
  - intros e He. destruct (Nat.eq_dec e d) as [->|]; [exact H1|]. apply (fr_piv _ _ _ _ HF). lia.
  - apply (fr_tail _ _ _ _ HF).
Qed.

Lemma basis_loop_spec : forall fuel d s ps zeros, (2 * d <= r)%nat -> (r - 2 * d + 1 <= fuel)%nat ->
  Core r m0 s -> Frame one d r s ->
  exists s' k, (d <= k)%nat /\ (2 * k <= r)%nat /\
    basis_loop fuel (2 * d) r s ps zeros = Done (s', ps ++ pivots d k, zeros ++ seq (2 * k) (r - 2 * k)) /\
    Core r m0 s' /\ Frame one k r s' /\
    forall i j, (2 * k <= i < r)%nat -> (2 * k <= j < r)%nat -> M s' i j <> 1.
Proof using All.
  induction fuel as [fuel IH] using (well_founded_induction lt_wf).
  intros d s ps zeros Hd Hf HC HF.
  destruct (find_one (stM s) (2 * d) r) as [[j i]|] eqn:EF.
  2:{ exists s, d. conj; try assumption; try lia.
      - rewrite none_loop by (try assumption; lia). unfold pivots. rewrite Nat.sub_diag. cbn [seq map].
        rewrite app_nil_r. reflexivity.
      - apply find_one_none, EF. }
  destruct (find_one_some _ _ _ _ EF) as (Hj & Hi & HM).
  assert (Hij : i <> j) by (intros ->; pose proof (core_diag _ _ _ j HC); lia).
  assert (Hd1 : (2 * d + 1 < r)%nat) by lia.
  assert (Next : forall f s1 zs, (f < fuel)%nat -> (r - 2 * d <= f + 1)%nat -> clean_b d r (s1, true) ->
    exists s' k, (d <= k)%nat /\ (2 * k <= r)%nat /\
    basis_loop f (2 * d + 2) r s1 (ps ++ [(M s1 (2 * d + 1)%nat (2 * d)%nat, (2 * d)%nat)]) zs =
      Done (s', ps ++ pivots d k, zs ++ seq (2 * k) (r - 2 * k)) /\
    Core r m0 s' /\ Frame one k r s' /\
    forall i j, (2 * k <= i < r)%nat -> (2 * k <= j < r)%nat -> M s' i j <> 1).
  { intros f s1 zs Hlt Hge HB. pose proof (frame_grow d s1 HB) as HF1.
    destruct HB as [(HC1 & _ & H1 & _) _]. cbn [fst] in *.
    pose proof (co_anti _ _ _ HC1 (2 * d + 1) (2 * d)) as A0.
    replace (M s1 (2 * d + 1)%nat (2 * d)%nat) with (-1) by lia.
    destruct (IH f Hlt (d + 1)%nat s1 (ps ++ [(-1, (2 * d)%nat)]) zs ltac:(lia) ltac:(lia) HC1 HF1)
      as (s' & k & Hk & Hk2 & E & HC' & HF' & HN).
    exists s', k. conj; try assumption; try lia.
    replace (2 * d + 2)%nat with (2 * (d + 1))%nat by lia. rewrite E. rewrite <- app_assoc.
    unfold pivots. replace (k - d)%nat with (S (k - (d + 1))) by lia. cbn [seq map app].
    replace (S d) with (d + 1)%nat by lia. reflexivity. }
  destruct fuel as [|fuel]; [lia|]. cbn [basis_loop].
  destruct (Nat.leb_spec r (2 * d)) as [?|_]; [lia|]. rewrite EF.
  destruct (move_spec d s i j HC HF Hd1 Hi Hj HM) as (s1 & E1 & HC1 & HF1 & HM1). rewrite E1. cbn [bind].
  destruct (clean_row_spec d (s1, true) Hd1) as (sa2 & E2 & H2).
  { unfold clean_a. cbn [fst]. conj; try assumption. intros; lia. }
  rewrite E2. cbn [bind].
  destruct (clean_next_spec d sa2 Hd1) as (sa3 & E3 & H3).
  { split; [exact H2|]. intros; lia. }
  rewrite E3. cbn [bind]. destruct sa3 as [s3 az].
  assert (HB : clean_b d r (s3, true)) by exact H3.
  destruct az.
  - apply Next; [lia|lia|exact HB].
  - (* second pass over the same pivot *)
    destruct fuel as [|fuel]; [lia|]. cbn [basis_loop].
    destruct (Nat.leb_spec r (2 * d)) as [?|_]; [lia|].
    rewrite (find_clean d s3 Hd1 HB). rewrite move_clean. cbn [bind].
    destruct HB as [(HC3 & HF3 & HM3 & Hz) Hy] eqn:EB. clear EB. cbn [fst] in *.
    rewrite (for_each_id _ (clean_row (2 * d)) (s3, true)).
    2:{ intros k Hk. apply in_range in Hk. unfold clean_row. rewrite Hz by lia. reflexivity. }
    cbn [bind].
    rewrite (for_each_id _ (clean_next (2 * d)) (s3, true)).
    2:{ intros k Hk. apply in_range in Hk. unfold clean_next. rewrite Hy by lia. reflexivity. }
    cbn [bind]. apply Next; [lia|lia|]. exact H3.
Qed.
End Loop.

(* ------------------------------------------------------------------ *)
(** * The whole function *)

Lemma sort_pivots : forall n d, sort_pairs (map (fun e => (-1, (2 * e)%nat)) (seq d n)) = map (fun e => (-1, (2 * e)%nat)) (seq d n).
Proof.
  induction n as [|n IH]; intros d; [reflexivity|]. cbn [seq map sort_pairs fold_right].
  fold (sort_pairs (map (fun e => (-1, (2 * e)%nat)) (seq (S d) n))). rewrite IH.
  destruct n as [|n]; [reflexivity|]. cbn [seq map insert]. unfold pair_le. cbn [fst snd].
  destruct (Nat.leb_spec (2 * d) (2 * S d)); [reflexivity|lia].
Qed.

(** row of B at position i of the result *)
Definition place (k i : nat) : nat :=
  if (i <? k)%nat then (2 * (k - 1 - i))%nat
  else if (i <? 2 * k)%nat then (2 * (2 * k - 1 - i) + 1)%nat else i.

Definition order (k r : nat) : list nat :=
  map snd (rev (pivots 0 k)) ++ map (fun p => (snd p + 1)%nat) (rev (pivots 0 k)) ++ seq (2 * k) (r - 2 * k).

Lemma order_eq k r : (2 * k <= r)%nat -> order k r = map (place k) (seq 0 r).
Proof.
  intros Hk. unfold order, pivots. rewrite Nat.sub_0_r, <- !map_rev, !map_map. cbn [snd].
  replace r with (k + (k + (r - 2 * k)))%nat at 2 by lia. rewrite !seq_app, !map_app.
  assert (R : forall (f g : nat -> nat) s, (forall i, (i < k)%nat -> f (k - 1 - i)%nat = g (s + i)%nat) ->
     map f (rev (seq 0 k)) = map g (seq s k)).
  { intros f g s H. apply (nth_ext _ _ O O); rewrite !map_length, rev_length, !seq_length; [reflexivity|].
    intros i Hi.
    rewrite (nth_indep _ O (f O)) by (rewrite map_length, rev_length, seq_length; lia).
    rewrite map_nth, rev_nth, seq_length by (rewrite seq_length; lia).
    rewrite seq_nth by lia. rewrite (nth_indep _ O (g O)) by (rewrite map_length, seq_length; lia).
    rewrite map_nth, seq_nth by lia. cbn [Nat.add]. rewrite <- H by lia. f_equal. lia. }
  f_equal; [|f_equal].
  - apply R. intros i Hi. unfold place. cbn [Nat.add].
    destruct (Nat.ltb_spec i k); [|lia]. reflexivity.
  - apply R. intros i Hi. unfold place. cbn [Nat.add].
    destruct (Nat.ltb_spec (k + i) k); [lia|]. destruct (Nat.ltb_spec (k + i) (2 * k)); [|lia]. lia.
  - cbn [Nat.add]. replace (k + k)%nat with (2 * k)%nat by lia.
    rewrite <- (map_id (seq (2 * k) (r - 2 * k))) at 1. apply map_ext_in.
    intros i Hi. apply in_seq in Hi. unfold place.
    destruct (Nat.ltb_spec i k); [lia|]. destruct (Nat.ltb_spec i (2 * k)); [lia|]. reflexivity.
Qed.

Lemma place_lt k r i : (2 * k <= r)%nat -> (i < r)%nat -> (place k i < r)%nat.
Proof. intros Hk Hi. unfold place. beq; lia. Qed.

Lemma place_inj k i j : place k i = place k j -> i = j.
Proof. unfold place. beq; lia. Qed.

Lemma zsum_perm r (p : nat -> nat) f : (forall i, (i < r)%nat -> (p i < r)%nat) ->
  (forall i j, p i = p j -> i = j) -> zsum r (fun i => f (p i)) = zsum r f.
Proof.
  intros Hr Hi.
  assert (HP : Permutation (map p (seq 0 r)) (seq 0 r)).
  { apply NoDup_Permutation_bis.
    - apply FinFun.Injective_map_NoDup; [exact Hi|apply seq_NoDup].
    - rewrite map_length. lia.
    - intros x Hx. apply in_map_iff in Hx. destruct Hx as (y & <- & Hy). apply in_seq in Hy. apply in_seq.
      specialize (Hr y ltac:(lia)). lia. }
  assert (E : forall g, zsum r g = fold_right Z.add 0 (map g (seq 0 r))).
  { intros g. rewrite fold_right_seq_zsum. apply zsum_ext. reflexivity. }
  rewrite !E. rewrite <- (map_map p f).
  assert (PS : forall l l', Permutation l l' -> fold_right Z.add 0 l = fold_right Z.add 0 l').
  { induction 1; cbn; lia. }
  apply PS, Permutation_map, HP.
Qed.

Lemma antisymmetric_b_true r k : square r k -> antisymmetric r k -> antisymmetric_b (nrows k) k = true.
Proof.
  intros HS HA. unfold antisymmetric_b. rewrite (square_nrows r k HS), (square_ncols r k HS), Nat.eqb_refl.
  cbn [andb]. apply forallb_forall. intros i Hi. apply forallb_forall. intros j Hj.
  apply in_seq in Hi. apply in_seq in Hj. pose proof (HA i j ltac:(lia) ltac:(lia)). lia.
Qed.

Lemma antisymmetric_b_spec r k : square r k -> (antisymmetric_b (nrows k) k = true <-> antisymmetric r k).
Proof.
  intros HS. split; [|apply antisymmetric_b_true, HS].
  unfold antisymmetric_b. rewrite (square_nrows r k HS). intros H. apply andb_prop in H. destruct H as [_ H].
  intros i j Hi Hj. rewrite forallb_forall in H. specialize (H i). rewrite in_seq in H. specialize (H ltac:(lia)).
  rewrite forallb_forall in H. specialize (H j). rewrite in_seq in H. specialize (H ltac:(lia)). lia.
Qed.

Lemma basis_not_anti r k : square r k -> ~ antisymmetric r k -> symplectic_basis k = Abort.
Proof.
  intros HS HA. unfold symplectic_basis.
  destruct (antisymmetric_b (nrows k) k) eqn:E; [|reflexivity].
  exfalso. apply HA, (antisymmetric_b_spec r k HS), E.
Qed.

Lemma basis_of_loop r k s g : square r k -> antisymmetric r k -> (2 * g <= r)%nat ->
  basis_loop (2 * r + 1) 0 r {| stP := mat_one r; stM := k |} [] [] = Done (s, pivots 0 g, seq (2 * g) (r - 2 * g)) ->
  Core r k s -> Frame (fun z => z = 1) g r s ->
  exists b j, symplectic_basis k = Done b /\ square r b /\ unimodular r b /\ congruent r b k j /\
    (forall x y, (x < r)%nat -> (y < r)%nat -> (x < 2 * g)%nat \/ (y < 2 * g)%nat -> get j x y = standard g x y) /\
    (forall x y, (2 * g <= x < r)%nat -> (2 * g <= y < r)%nat -> get j x y = M s x y).
Proof.
  intros HS HA Hg E HC HF. unfold symplectic_basis. rewrite (antisymmetric_b_true r) by assumption. cbn [negb].
  rewrite (square_nrows r k HS).
  rewrite E. cbn [bind]. unfold pivots at 1 2. rewrite sort_pivots.
  fold (pivots 0 g). fold (order g r). rewrite order_eq by exact Hg. rewrite map_map.
  set (b := map (fun x => nth (place g x) (stP s) []) (seq 0 r)).
  assert (Gb : forall x y, (x < r)%nat -> get b x y = get (stP s) (place g x) y).
  { intros x y Hx. unfold get, b. rewrite nth_map_seq by exact Hx. reflexivity. }
  assert (Sb : square r b).
  { split; [unfold b; rewrite map_length, seq_length; reflexivity|].
    intros row Hrow. unfold b in Hrow. apply in_map_iff in Hrow. destruct Hrow as (x & <- & Hx).
    apply in_seq in Hx. destruct (co_P _ _ _ HC) as [HL HW]. apply HW. apply nth_In. rewrite HL.
    apply place_lt; lia. }
  exists b, (tab r r (fun x y => M s (place g x) (place g y))).
  split; [reflexivity|]. split; [exact Sb|]. split.
  { destruct (co_uni _ _ _ HC) as [Q HQ].
    exists (tab r r (fun i j => Q i (place g j))). split; [apply square_tab|].
    intros i j Hi Hj. split.
    - destruct (HQ (place g i) (place g j)) as [H1 _]; try (apply place_lt; lia).
      rewrite (zsum_ext r _ (fun k0 => get (stP s) (place g i) k0 * Q k0 (place g j))).
      + unfold dot in H1. rewrite H1. unfold delta.
        destruct (Nat.eqb_spec i j) as [->|Hne]; [rewrite Nat.eqb_refl; reflexivity|].
        destruct (Nat.eqb_spec (place g i) (place g j)) as [Ep|]; [|reflexivity].
        exfalso. apply Hne, (place_inj g), Ep.
      + intros l Hl. rewrite Gb by exact Hi. rewrite get_tab. beq; try lia.
    - destruct (HQ i j) as [_ H2]; try lia. rewrite <- H2. unfold dot.
      rewrite <- (zsum_perm r (place g) (fun l => Q i l * get (stP s) l j)).
      + apply zsum_ext. intros l Hl. rewrite get_tab, Gb by exact Hl. beq; try lia.
      + intros l Hl. apply place_lt; lia.
      + apply place_inj. }
  split; [|split].
  - intros x y Hx Hy. rewrite get_tab. destruct (Nat.ltb_spec x r); [|lia]. destruct (Nat.ltb_spec y r); [|lia].
    cbn [andb]. rewrite (co_cong _ _ _ HC) by (apply place_lt; lia). unfold Bil.
    apply zsum_ext. intros a Ha. apply zsum_ext. intros c Hc. rewrite !Gb by assumption. reflexivity.
  - intros x y Hx Hy Hor. rewrite get_tab. destruct (Nat.ltb_spec x r); [|lia]. destruct (Nat.ltb_spec y r); [|lia].
    cbn [andb]. unfold standard.
    assert (Row : forall x y, (x < 2 * g)%nat -> M s (place g x) (place g y) =
       if ((x <? g) && (y =? x + g))%nat then 1 else if ((y <? g) && (x =? y + g))%nat then -1 else 0).
    { clear x y Hx Hy Hor H H0. intros x y Hx.
      pose proof (co_anti _ _ _ HC) as CA.
      unfold place at 1. destruct (Nat.ltb_spec x g) as [Hxg|Hxg].
      - cbn [andb]. destruct (Nat.eqb_spec y (x + g)) as [->|Hne].
        + unfold place. destruct (Nat.ltb_spec (x + g) g); [lia|]. destruct (Nat.ltb_spec (x + g) (2 * g)); [|lia].
          replace (2 * g - 1 - (x + g))%nat with (g - 1 - x)%nat by lia.
          apply (fr_piv _ _ _ _ HF (g - 1 - x)%nat). lia.
        + rewrite (fr_even _ _ _ _ HF (g - 1 - x)%nat); [|lia|unfold place; beq; lia].
          destruct (Nat.ltb_spec y g); [|reflexivity]. destruct (Nat.eqb_spec x (y + g)); [lia|reflexivity].
      - cbn [andb]. destruct (Nat.ltb_spec x (2 * g)); [|lia].
        destruct (Nat.ltb_spec y g) as [Hy|Hy]; destruct (Nat.eqb_spec x (y + g)) as [E'|E']; cbn [andb].
        + unfold place. destruct (Nat.ltb_spec y g); [|lia]. rewrite CA.
          replace (2 * g - 1 - x)%nat with (g - 1 - y)%nat by lia.
          rewrite (fr_piv _ _ _ _ HF (g - 1 - y)%nat) by lia. reflexivity.
        + apply (fr_odd _ _ _ _ HF (2 * g - 1 - x)%nat); [lia|unfold place; beq; lia].
        + apply (fr_odd _ _ _ _ HF (2 * g - 1 - x)%nat); [lia|unfold place; beq; lia].
        + apply (fr_odd _ _ _ _ HF (2 * g - 1 - x)%nat); [lia|unfold place; beq; lia]. }
    destruct (Nat.lt_ge_cases x (2 * g)) as [Hxg|Hxg]; [apply Row; exact Hxg|].
    rewrite (co_anti _ _ _ HC), Row by lia.
    destruct (Nat.ltb_spec y g); destruct (Nat.ltb_spec x g); try lia; cbn [andb];
    destruct (Nat.eqb_spec x (y + g)); destruct (Nat.eqb_spec y (x + g)); lia.
  - intros x y Hx Hy. rewrite get_tab. destruct (Nat.ltb_spec x r); [|lia]. destruct (Nat.ltb_spec y r); [|lia].
    cbn [andb].
    assert (Pl : forall z, (2 * g <= z)%nat -> place g z = z) by (intros z Hz; unfold place; beq; lia).
    rewrite !Pl by lia. reflexivity.
Qed.

Theorem basis_spec r k : square r k -> antisymmetric r k ->
  exists b g j, symplectic_basis k = Done b /\ square r b /\ unimodular r b /\ (2 * g <= r)%nat /\
    congruent r b k j /\
    (forall x y, (x < r)%nat -> (y < r)%nat -> (x < 2 * g)%nat \/ (y < 2 * g)%nat -> get j x y = standard g x y) /\
    (forall x y, (2 * g <= x < r)%nat -> (2 * g <= y < r)%nat -> get j x y <> 1 /\ get j x y <> -1).
Proof.
  intros HS HA.
  destruct (basis_loop_spec r k (2 * r + 1) 0 {| stP := mat_one r; stM := k |} [] [] ltac:(lia) ltac:(lia)
    (core_init r k HS HA) (frame_init _ r k HS)) as (s & g & _ & Hg & E & HC & HF & HN).
  destruct (basis_of_loop r k s g HS HA Hg E HC HF) as (b & j & E' & Sb & Ub & Cb & H1 & H2).
  exists b, g, j. conj; try assumption. intros x y Hx Hy. rewrite H2 by assumption. split; [apply HN; lia|].
  rewrite (co_anti _ _ _ HC). specialize (HN y x ltac:(lia) ltac:(lia)). lia.
Qed.

(** leftover entries, if any, are at least 2 *)
Theorem basis_dichotomy r k : square r k -> antisymmetric r k ->
  exists b g, symplectic_basis k = Done b /\ square r b /\ unimodular r b /\ (2 * g <= r)%nat /\
    (is_symplectic_basis r g k b \/
     exists j, congruent r b k j /\
      (forall x y, (x < r)%nat -> (y < r)%nat -> (x < 2 * g)%nat \/ (y < 2 * g)%nat -> get j x y = standard g x y) /\
      (forall x y, (2 * g <= x < r)%nat -> (2 * g <= y < r)%nat -> Z.abs (get j x y) <> 1) /\
      (exists x y, (2 * g <= x < r)%nat /\ (2 * g <= y < r)%nat /\ 2 <= Z.abs (get j x y))).
Proof.
  intros HS HA. destruct (basis_spec r k HS HA) as (b & g & j & E & Sb & Ub & Hg & HC & Hs & Hn).
  exists b, g. conj; try assumption.
  destruct (forallb (fun x => forallb (fun y => get j x y =? 0) (seq (2 * g) (r - 2 * g))) (seq (2 * g) (r - 2 * g))) eqn:F.
  - left. exists j. split; [exact HC|]. intros x y Hx Hy.
    destruct (Nat.lt_ge_cases x (2 * g)); [apply Hs; lia|]. destruct (Nat.lt_ge_cases y (2 * g)); [apply Hs; lia|].
    rewrite forallb_forall in F. specialize (F x). rewrite in_seq in F. specialize (F ltac:(lia)).
    rewrite forallb_forall in F. specialize (F y). rewrite in_seq in F. specialize (F ltac:(lia)).
    apply Z.eqb_eq in F. rewrite F. unfold standard. beq; try lia.
  - right. exists j. conj; try assumption.
    + intros x y Hx Hy. destruct (Hn x y Hx Hy). lia.
    + assert (N : ~ forall x y, (2 * g <= x < r)%nat -> (2 * g <= y < r)%nat -> get j x y = 0).
      { intros H. enough (false = true) by discriminate. rewrite <- F. apply forallb_forall. intros x Hx.
        apply forallb_forall. intros y Hy. apply in_seq in Hx. apply in_seq in Hy. apply Z.eqb_eq, H; lia. }
      destruct (existsb (fun x => existsb (fun y => 2 <=? Z.abs (get j x y)) (seq (2 * g) (r - 2 * g))) (seq (2 * g) (r - 2 * g))) eqn:X.
      * apply existsb_exists in X. destruct X as (x & Hx & X). apply existsb_exists in X. destruct X as (y & Hy & X).
        apply in_seq in Hx. apply in_seq in Hy. exists x, y. lia.
      * exfalso. apply N. intros x y Hx Hy. destruct (Hn x y Hx Hy).
        destruct (Z.le_gt_cases 2 (Z.abs (get j x y))) as [H2|H2]; [|lia]. exfalso.
        enough (true = false) by discriminate. rewrite <- X. symmetry. apply existsb_exists. exists x.
        split; [apply in_seq; lia|]. apply existsb_exists. exists y. split; [apply in_seq; lia|lia].
Qed.
