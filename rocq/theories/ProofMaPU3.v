(** The Magma reduction succeeds when every set of loops has a radical or is saturated. *)
From Verif Require Import Base ModelSymp SpecSymp ProofSymp ProofSympRed ProofSympMain ProofSympRank ModelMaSymp SpecMaSymp ProofMaSymp ProofMaPU1 ProofMaPU2.

Section Loop.
Variable r : nat.
Variable m0 : mat.
Notation one := (fun z : Z => z = 1).
Definition Ok q (s : st) : Prop := Core r m0 s /\ Inv r q (get (stP s)).

Lemma swap_ok q s s' x y : (q <= r)%nat -> Ok q s -> (q <= x < r)%nat -> (q <= y < r)%nat -> swap_step s x y = Done s' -> Ok q s'.
Proof using.
  intros Hq [HC HI] Hx Hy E. destruct (Nat.eq_dec x y) as [->|N].
  - unfold swap_step in E. rewrite Nat.eqb_refl in E. injection E as <-. split; assumption.
  - destruct (swap_step_rel r s (co_P _ _ _ HC) (co_M _ _ _ HC) x y N ltac:(lia) ltac:(lia)) as (s1 & E1 & HR).
    rewrite E1 in E. injection E as <-. split.
    + apply (core_step r m0 x y 0 1 1 0 s s1); try assumption; lia.
    + apply (inv_ext r q (fun i => get (stP s) (sw x y i))); [exact Hq| |apply inv_swap; assumption].
      intros i t Hi Ht. rewrite (step_row _ _ _ _ _ _ _ _ _ HR). unfold sw. beq; lia.
Qed.
Lemma add_ok q s s' j c v : (q <= r)%nat -> Ok q s -> (q <= j < r)%nat -> (c < q)%nat -> transvect_step s j c v = Done s' -> Ok q s'.
Proof using.
  intros Hq [HC HI] Hj Hc E.
  destruct (transvect_step_rel r s (co_P _ _ _ HC) (co_M _ _ _ HC) j c v ltac:(lia) ltac:(lia) ltac:(lia)) as (s1 & E1 & HR).
  rewrite E1 in E. injection E as <-. split.
  - apply (core_step r m0 j c 1 v 0 1 s s1); try assumption; lia.
  - apply (inv_ext r q (fun i t => if (i =? j)%nat then get (stP s) j t + v * get (stP s) c t else get (stP s) i t)); [exact Hq| |apply inv_add; assumption].
    intros i t Hi Ht. rewrite (step_row _ _ _ _ _ _ _ _ _ HR). beq; lia.
Qed.
Lemma move_ok p s s' i j : (p + 1 < r)%nat -> (p <= i < r)%nat -> (p <= j < r)%nat -> Ok p s -> move_to_pivot i j p s = Done s' -> Ok p s'.
Proof using.
  intros Hp Hi Hj HO E. unfold move_to_pivot in E.
  assert (Fin : forall o, (forall s1, o = Done s1 -> Ok p s1) -> forall f : st -> bool, (do s1 <- o; if f s1 then swap_step s1 p (p + 1) else Done s1) = Done s' -> Ok p s').
  { intros o Ho f E'. destruct o as [s1| | |]; cbn [bind] in E'; try discriminate. specialize (Ho s1 eq_refl).
    destruct (f s1); [|injection E' as <-; exact Ho]. apply (swap_ok p s1 s' p (p + 1)); try assumption; lia. }
  revert E. apply Fin. intros s1 E.
  repeat match type of E with (if ?b then _ else _) = _ => destruct b end;
    try (apply (swap_ok p s s1 _ _ ltac:(lia) HO) in E; [exact E|lia|lia]).
  - destruct (swap_step s p j) as [s2| | |] eqn:E2; cbn [bind] in E; try discriminate.
    apply (swap_ok p s s2) in E2; try assumption; try lia. apply (swap_ok p s2 s1) in E; try assumption; lia.
  - injection E as <-. exact HO.
Qed.
Lemma for_each_keep {A} (I : A -> Prop) ks (body : nat -> A -> outcome A) : forall a a',
  (forall k a a', In k ks -> I a -> body k a = Done a' -> I a') -> I a -> for_each ks body a = Done a' -> I a'.
Proof using.
  induction ks as [|k ks IH]; intros a a' H Ha E; cbn [for_each] in E; [injection E as <-; exact Ha|].
  destruct (body k a) as [a1| | |] eqn:E1; cbn [bind] in E; try discriminate.
  apply (IH a1 a'); [intros k' b b' Ik; apply H; right; exact Ik| |exact E]. apply (H k a a1); [left; reflexivity|exact Ha|exact E1].
Qed.
Lemma row_ok p sa sa' : (p + 1 < r)%nat -> Ok (p + 2) (fst sa) -> for_each (range (p + 2) r) (clean_row p) sa = Done sa' -> Ok (p + 2) (fst sa').
Proof using.
  intros Hp. apply (for_each_keep (fun sa => Ok (p + 2) (fst sa))). intros k [s b] sa1 Hk HO E. apply in_range in Hk. cbn [fst] in *. unfold clean_row in E.
  destruct (- get (stM s) p k =? 0); [injection E as <-; exact HO|].
  destruct (transvect_step _ _ _ _) as [s1| | |] eqn:E1; cbn [bind] in E; try discriminate. injection E as <-. cbn [fst].
  apply (add_ok (p + 2) s s1) in E1; try assumption; lia.
Qed.
Lemma next_ok p sa sa' : (p + 1 < r)%nat -> Ok (p + 2) (fst sa) -> for_each (range (p + 2) r) (clean_next p) sa = Done sa' -> Ok (p + 2) (fst sa').
Proof using.
  intros Hp. apply (for_each_keep (fun sa => Ok (p + 2) (fst sa))). intros k [s b] sa1 Hk HO E. apply in_range in Hk. cbn [fst] in *. unfold clean_next in E.
  destruct (get (stM s) (p + 1) k =? 0); [injection E as <-; exact HO|].
  destruct (transvect_step _ _ _ _) as [s1| | |] eqn:E1; cbn [bind] in E; try discriminate. injection E as <-. cbn [fst].
  apply (add_ok (p + 2) s s1) in E1; try assumption; lia.
Qed.

Lemma loop_ok : forall fuel d s ps zeros, (2 * d <= r)%nat -> (r - 2 * d + 1 <= fuel)%nat ->
  Core r m0 s -> Frame one d r s -> Inv r (2 * d) (get (stP s)) ->
  exists s' k, (d <= k)%nat /\ (2 * k <= r)%nat /\
    basis_loop fuel (2 * d) r s ps zeros = Done (s', ps ++ pivots d k, zeros ++ seq (2 * k) (r - 2 * k)) /\
    Core r m0 s' /\ Frame one k r s' /\ Inv r (2 * k) (get (stP s')) /\
    forall i j, (2 * k <= i < r)%nat -> (2 * k <= j < r)%nat -> M s' i j <> 1.
Proof using All.
  induction fuel as [fuel IH] using (well_founded_induction lt_wf).
  intros d s ps zeros Hd Hf HC HF HI.
  destruct (find_one (stM s) (2 * d) r) as [[j i]|] eqn:EF.
  2:{ exists s, d. conj; try assumption; try lia.
      - rewrite none_loop by (try assumption; lia). unfold pivots. rewrite Nat.sub_diag. cbn [seq map].
        rewrite app_nil_r. reflexivity.
      - apply find_one_none, EF. }
  destruct (find_one_some r _ _ _ _ EF) as (Hj & Hi & HM).
  assert (Hij : i <> j) by (intros ->; pose proof (core_diag _ _ _ j HC); lia).
  assert (Hd1 : (2 * d + 1 < r)%nat) by lia.
  assert (Next : forall f s1 zs, (f < fuel)%nat -> (r - 2 * d <= f + 1)%nat -> clean_b r m0 d r (s1, true) -> Inv r (2 * d + 2) (get (stP s1)) ->
    exists s' k, (d <= k)%nat /\ (2 * k <= r)%nat /\
    basis_loop f (2 * d + 2) r s1 (ps ++ [(M s1 (2 * d + 1)%nat (2 * d)%nat, (2 * d)%nat)]) zs =
      Done (s', ps ++ pivots d k, zs ++ seq (2 * k) (r - 2 * k)) /\
    Core r m0 s' /\ Frame one k r s' /\ Inv r (2 * k) (get (stP s')) /\
    forall i j, (2 * k <= i < r)%nat -> (2 * k <= j < r)%nat -> M s' i j <> 1).
  { intros f s1 zs Hlt Hge HB HI1. pose proof (frame_grow r m0 d s1 HB) as HF1.
    destruct HB as [(HC1 & _ & H1 & _) _]. cbn [fst] in *.
    pose proof (co_anti _ _ _ HC1 (2 * d + 1) (2 * d)) as A0.
    replace (M s1 (2 * d + 1)%nat (2 * d)%nat) with (-1) by lia.
    replace (2 * d + 2)%nat with (2 * (d + 1))%nat in * by lia.
    destruct (IH f Hlt (d + 1)%nat s1 (ps ++ [(-1, (2 * d)%nat)]) zs ltac:(lia) ltac:(lia) HC1 HF1 HI1)
      as (s' & k & Hk & Hk2 & E & HC' & HF' & HI' & HN).
    exists s', k. conj; try assumption; try lia.
    rewrite E. rewrite <- app_assoc.
    unfold pivots. replace (k - d)%nat with (S (k - (d + 1))) by lia. cbn [seq map app].
    replace (S d) with (d + 1)%nat by lia. reflexivity. }
  destruct fuel as [|fuel]; [lia|]. cbn [basis_loop].
  destruct (Nat.leb_spec r (2 * d)) as [?|_]; [lia|]. rewrite EF.
  destruct (move_spec r m0 d s i j HC HF Hd1 Hi Hj HM) as (s1 & E1 & HC1 & HF1 & HM1). rewrite E1. cbn [bind].
  destruct (move_ok (2 * d) s s1 i j Hd1 Hi Hj (conj HC HI) E1) as [_ HI1].
  assert (HI1' : Inv r (2 * d + 2) (get (stP s1))).
  { replace (2 * d + 2)%nat with (S (S (2 * d))) by lia. apply inv_grow; [lia|]. apply inv_grow; [lia|exact HI1]. }
  destruct (clean_row_spec r m0 d (s1, true) Hd1) as (sa2 & E2 & H2).
  { unfold clean_a. cbn [fst]. conj; try assumption. intros; lia. }
  pose proof (row_ok (2 * d) (s1, true) sa2 Hd1 (conj HC1 HI1') E2) as O2.
  rewrite E2. cbn [bind].
  destruct (clean_next_spec r m0 d sa2 Hd1) as (sa3 & E3 & H3).
  { split; [exact H2|]. intros; lia. }
  pose proof (next_ok (2 * d) sa2 sa3 Hd1 O2 E3) as [_ O3].
  rewrite E3. cbn [bind]. destruct sa3 as [s3 az]. cbn [fst] in O3.
  assert (HB : clean_b r m0 d r (s3, true)) by exact H3.
  destruct az.
  - apply Next; [lia|lia|exact HB|exact O3].
  - destruct fuel as [|fuel]; [lia|]. cbn [basis_loop].
    destruct (Nat.leb_spec r (2 * d)) as [?|_]; [lia|].
    rewrite (find_clean r m0 d s3 Hd1 HB). rewrite move_clean. cbn [bind].
    destruct HB as [(HC3 & HF3 & HM3 & Hz) Hy] eqn:EB. clear EB. cbn [fst] in *.
    rewrite (for_each_id _ (clean_row (2 * d)) (s3, true)).
    2:{ intros k Hk. apply in_range in Hk. unfold clean_row. rewrite Hz by lia. reflexivity. }
    cbn [bind].
    rewrite (for_each_id _ (clean_next (2 * d)) (s3, true)).
    2:{ intros k Hk. apply in_range in Hk. unfold clean_next. rewrite Hy by lia. reflexivity. }
    cbn [bind]. apply Next; [lia|lia|exact H3|exact O3].
Qed.
End Loop.

Theorem basis_complete r k : square r k -> antisymmetric r k ->
  (forall S0, (forall i, In i S0 -> (i < r)%nat) -> degenerate r (get k) S0 \/ saturated r (get k) S0) ->
  exists b g, symplectic_basis k = Done b /\ square r b /\ unimodular r b /\ (2 * g <= r)%nat /\ is_symplectic_basis r g k b /\
    exists s, Core r k s /\ Frame (fun z => z = 1) g (2 * g) s.
Proof.
  intros HS HA Hpu.
  destruct (loop_ok r k (2 * r + 1) 0 {| stP := mat_one r; stM := k |} [] [] ltac:(lia) ltac:(lia)
    (core_init r k HS HA) (frame_init _ r k HS)) as (s & g & _ & Hg & E & HC & HF & HI & HN).
  { apply inv_init. intros i t Hi Ht. cbn [stP]. unfold mat_one. rewrite get_tab. unfold delta. destruct (Nat.ltb_spec i r); [|lia]. destruct (Nat.ltb_spec t r); [|lia]. reflexivity. }
  destruct (basis_of_loop r k s g HS HA Hg E HC HF) as (b & j & E' & Sb & Ub & Cb & H1 & H2).
  assert (Z : forall x y, (2 * g <= x < r)%nat -> (2 * g <= y < r)%nat -> M s x y = 0).
  { intros x y Hx Hy. destruct (leftover r k Hpu s g x y HC HF Hg HI ltac:(lia) ltac:(lia)) as [Z0|[Z0|Z0]]; [exact Z0| |].
    - exfalso. apply (HN x y); lia.
    - exfalso. pose proof (co_anti _ _ _ HC x y). apply (HN y x); lia. }
  exists b, g. conj; try assumption.
  - exists j. split; [exact Cb|]. intros x y Hx Hy.
    destruct (Nat.lt_ge_cases x (2 * g)); [apply H1; lia|]. destruct (Nat.lt_ge_cases y (2 * g)); [apply H1; lia|].
    rewrite H2, Z by lia. unfold standard; beq; lia.
  - exists s. split; [exact HC|]. destruct HF as [F1 F2 F3 F4]. constructor; try assumption.
    intros i j0 Hi. destruct (Nat.lt_ge_cases i r) as [Hr|Hr]; [|apply F4; exact Hr].
    destruct (Nat.lt_ge_cases j0 (2 * g)) as [H0|H0].
    + rewrite (co_anti _ _ _ HC). destruct (Nat.Even_or_Odd j0) as [[a ->]|[a ->]]; [rewrite F1 by lia|rewrite F2 by lia]; reflexivity.
    + destruct (Nat.lt_ge_cases j0 r); [apply Z; lia|]. rewrite (co_anti _ _ _ HC), F4 by lia. reflexivity.
Qed.
