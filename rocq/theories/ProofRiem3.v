From Coq Require Import ZArith Lia List Bool.
From Verif Require Import Base ModelSymp SpecSymp ProofSymp.
Import ListNotations.
Local Open Scope Z_scope.

Definition link (d a b : nat) : bool := ((b =? a + 1) && negb (Nat.odd a && (a <? 2 * d)))%nat.
Definition linkM (d a b : nat) : Z := if link d a b then 1 else if link d b a then -1 else 0.
Definition linkP (d a p : nat) : Z :=
  if (p =? a)%nat then 1 else if (Nat.even a && Nat.even p && (p <? a)%nat && (a <=? 2 * d)%nat)%bool then 1 else 0.

Record inv (r d : nat) (s : st) : Prop := {
  iv_P : square r (stP s); iv_M : square r (stM s);
  iv_m : forall a b, (a < r)%nat -> (b < r)%nat -> get (stM s) a b = linkM d a b;
  iv_p : forall a p, (a < r)%nat -> (p < r)%nat -> get (stP s) a p = linkP d a p }.

Lemma odd_2d d : Nat.odd (2 * d) = false.
Proof. rewrite <- Nat.negb_even. rewrite Nat.even_mul. reflexivity. Qed.
Lemma odd_2d1 d : Nat.odd (2 * d + 1) = true.
Proof. rewrite Nat.odd_add, odd_2d. reflexivity. Qed.
Lemma even_2d d : Nat.even (2 * d) = true.
Proof. rewrite Nat.even_mul. reflexivity. Qed.
Lemma odd_form a : Nat.odd a = true -> exists e, a = (2 * e + 1)%nat.
Proof. intro H. apply Nat.odd_spec in H. exact H. Qed.
Lemma even_form a : Nat.even a = true -> exists e, a = (2 * e)%nat.
Proof. intro H. apply Nat.even_spec in H. exact H. Qed.

Lemma link_spec d a b : link d a b = true <-> b = (a + 1)%nat /\ (forall e, (e < d)%nat -> a <> (2 * e + 1)%nat).
Proof.
  unfold link. rewrite andb_true_iff, Nat.eqb_eq, negb_true_iff, andb_false_iff. split.
  - intros [H1 H2]. split; [exact H1|]. intros e He ->. rewrite odd_2d1 in H2. destruct H2 as [H2|H2]; [discriminate|].
    apply Nat.ltb_ge in H2. lia.
  - intros [H1 H2]. split; [exact H1|]. destruct (Nat.odd a) eqn:O; [right|left; reflexivity].
    apply Nat.ltb_ge. destruct (odd_form _ O) as (e & ->). destruct (Nat.lt_ge_cases e d); [|lia]. now elim (H2 e H).
Qed.

Lemma linkM_cases d a b :
  (linkM d a b = 1 /\ b = (a + 1)%nat /\ forall e, (e < d)%nat -> a <> (2 * e + 1)%nat) \/
  (linkM d a b = -1 /\ a = (b + 1)%nat /\ forall e, (e < d)%nat -> b <> (2 * e + 1)%nat) \/
  (linkM d a b = 0 /\ (b <> (a + 1)%nat \/ exists e, (e < d)%nat /\ a = (2 * e + 1)%nat) /\
     (a <> (b + 1)%nat \/ exists e, (e < d)%nat /\ b = (2 * e + 1)%nat)).
Proof.
  unfold linkM. destruct (link d a b) eqn:L1.
  - left. apply link_spec in L1. tauto.
  - destruct (link d b a) eqn:L2.
    + right; left. apply link_spec in L2. tauto.
    + right; right. split; [reflexivity|].
      assert (Q : forall x y, link d x y = false -> y <> (x + 1)%nat \/ exists e, (e < d)%nat /\ x = (2 * e + 1)%nat).
      { clear. intros x y H. destruct (Nat.eq_dec y (x + 1)) as [->|Ne]; [|left; exact Ne]. right.
        unfold link in H. rewrite Nat.eqb_refl in H. cbn in H. apply negb_false_iff, andb_true_iff in H. destruct H as [H1 H2].
        destruct (odd_form _ H1) as (e & ->). apply Nat.ltb_lt in H2. exists e. split; [lia|reflexivity]. }
      split; apply Q; assumption.
Qed.

Lemma half a : a = (2 * Nat.div2 a)%nat \/ a = (2 * Nat.div2 a + 1)%nat.
Proof. assert (H := Nat.div2_odd a). destruct (Nat.odd a); cbn in H; lia. Qed.

Lemma linkM_lin d a b :
  (linkM d a b = 1 /\ b = (a + 1)%nat /\ (2 * d <= a \/ a = 2 * Nat.div2 a)%nat) \/
  (linkM d a b = -1 /\ a = (b + 1)%nat /\ (2 * d <= b \/ b = 2 * Nat.div2 b)%nat) \/
  (linkM d a b = 0 /\ (b <> (a + 1) \/ (a < 2 * d /\ a = 2 * Nat.div2 a + 1))%nat /\
     (a <> b + 1 \/ (b < 2 * d /\ b = 2 * Nat.div2 b + 1))%nat).
Proof.
  assert (Ha := half a). assert (Hb := half b).
  destruct (linkM_cases d a b) as [(-> & B & F)|[(-> & B & F)|(-> & B & F)]].
  - left. split; [reflexivity|]. split; [exact B|]. destruct Ha as [Ha|Ha]; [right; exact Ha|]. left.
    destruct (Nat.lt_ge_cases (Nat.div2 a) d) as [L|L]; [now elim (F _ L)|lia].
  - right; left. split; [reflexivity|]. split; [exact B|]. destruct Hb as [Hb|Hb]; [right; exact Hb|]. left.
    destruct (Nat.lt_ge_cases (Nat.div2 b) d) as [L|L]; [now elim (F _ L)|lia].
  - right; right. split; [reflexivity|]. split.
    + destruct B as [B|(e & He & Ee)]; [left; exact B|right]. lia.
    + destruct F as [B'|(e & He & Ee)]; [left; exact B'|right]. lia.
Qed.

Lemma linkP_lin d a p :
  (linkP d a p = 1 /\ (p = a \/ (a = 2 * Nat.div2 a /\ p = 2 * Nat.div2 p /\ p < a /\ a <= 2 * d))%nat) \/
  (linkP d a p = 0 /\ p <> a /\ (a = 2 * Nat.div2 a + 1 \/ p = 2 * Nat.div2 p + 1 \/ a <= p \/ 2 * d < a)%nat).
Proof.
  unfold linkP. destruct (Nat.eqb_spec p a); [left; split; [reflexivity|left; assumption]|].
  destruct (Nat.even a) eqn:Qa; cbn [andb].
  2:{ right. split; [reflexivity|]. split; [assumption|]. left. destruct (half a) as [H|H]; [|exact H]. rewrite H, even_2d in Qa. discriminate. }
  destruct (Nat.even p) eqn:Qp; cbn [andb].
  2:{ right. split; [reflexivity|]. split; [assumption|]. right; left. destruct (half p) as [H|H]; [|exact H]. rewrite H, even_2d in Qp. discriminate. }
  apply even_form in Qa, Qp. destruct Qa as (ea & Ea), Qp as (ep & Ep). assert (Ha := half a). assert (Hp := half p).
  destruct (Nat.ltb_spec p a); cbn [andb]; [|right; split; [reflexivity|lia]].
  destruct (Nat.leb_spec a (2 * d)); [left|right]; (split; [reflexivity|lia]).
Qed.

Lemma for_each_id {S} (ks : list nat) (body : nat -> S -> outcome S) (s : S) :
  (forall k, In k ks -> body k s = Done s) -> for_each ks body s = Done s.
Proof.
  induction ks as [|k ks IH]; intros H; [reflexivity|]. cbn [for_each]. rewrite (H k) by (now left). cbn [bind].
  apply IH. intros; apply H; now right.
Qed.

Section Chain.
Variable xgcd : Z -> Z -> Z * Z * Z.
Variable r : nat.

Lemma find_pivot_eq len s d : find_pivot len s d =
  (let i := (2 * d)%nat in
  let j := pivot_line (stM s) i len in
  if (j =? len)%nat then
    match len with
    | O => Fault OutOfBounds
    | S l =>
        do s <- swap_step s i l;
        if (l =? 2 * d)%nat then Done (s, None) else find_pivot l s d
    end
  else Done (s, Some (len, j))).
Proof. destruct len; reflexivity. Qed.

Lemma chain_pivot d s : inv r d s -> (2 * d + 2 <= r)%nat -> find_pivot r s d = Done (s, Some (r, (2 * d + 1)%nat)).
Proof.
  intros I H. assert (E : pivot_line (stM s) (2 * d) r = (2 * d + 1)%nat).
  { unfold pivot_line. replace (r - (2 * d + 1))%nat with (S (r - (2 * d + 2))) by lia. cbn [seq pivot_scan].
    rewrite (iv_m _ _ _ I) by lia.
    destruct (linkM_cases d (2 * d) (2 * d + 1)) as [(-> & _)|[(_ & B & _)|(_ & [B|(e & _ & B)] & _)]]; [reflexivity|lia|lia|lia]. }
  rewrite find_pivot_eq. cbv zeta. rewrite E. destruct (Nat.eqb_spec (2 * d + 1) r); [lia|reflexivity].
Qed.

Lemma chain_clear d s : inv r d s -> (2 * d + 2 <= r)%nat -> forall fuel,
  exists s', clear_loop xgcd (S fuel) (2 * d) (2 * d + 1) r s = Done s' /\ inv r (S d) s'.
Proof.
  intros I H fuel. cbn [clear_loop].
  assert (Mij : get (stM s) (2 * d) (2 * d + 1) = 1).
  { rewrite (iv_m _ _ _ I) by lia.
    destruct (linkM_cases d (2 * d) (2 * d + 1)) as [(-> & _)|[(_ & B & _)|(_ & [B|(e & _ & B)] & _)]]; [reflexivity|lia|lia|lia]. }
  rewrite for_each_id.
  2:{ intros k Hk. unfold range in Hk. apply in_seq in Hk. unfold clear_i_body.
      rewrite (iv_m _ _ _ I _ k) by lia.
      destruct (linkM_cases d (2 * d) k) as [(_ & B & _)|[(_ & B & _)|(-> & _)]]; [lia|lia|reflexivity]. }
  cbn [bind]. unfold range. replace (2 * d + 1 + 1)%nat with (2 * d + 2)%nat by lia.
  destruct (Nat.eq_dec r (2 * d + 2)) as [Er|Er].
  - replace (r - (2 * d + 2))%nat with O by lia. cbn [seq for_each bind]. exists s. split; [reflexivity|].
    constructor; [apply I|apply I| |].
    + intros a b Ha Hb. rewrite (iv_m _ _ _ I) by assumption.
      assert (L1 := linkM_lin d a b). assert (L2 := linkM_lin (S d) a b). assert (H1 := half a). assert (H2 := half b). lia.
    + intros a p Ha Hp. rewrite (iv_p _ _ _ I) by assumption.
      assert (L1 := linkP_lin d a p). assert (L2 := linkP_lin (S d) a p). assert (H1 := half a). assert (H2 := half p). lia.
  - replace (r - (2 * d + 2))%nat with (S (r - (2 * d + 3))) by lia. cbn [seq for_each].
    set (k := (2 * d + 2)%nat).
    assert (Mjk : get (stM s) (2 * d + 1) k = 1).
    { rewrite (iv_m _ _ _ I) by (unfold k; lia).
      destruct (linkM_cases d (2 * d + 1) k) as [(-> & _)|[(_ & B & _)|(_ & [B|(e & He & B)] & _)]]; [reflexivity|unfold k in *; lia|unfold k in *; lia|lia]. }
    destruct (transvect_step_rel r s (iv_P _ _ _ I) (iv_M _ _ _ I) k (2 * d)%nat 1 ltac:(unfold k; lia) ltac:(unfold k; lia) ltac:(lia)) as (s1 & E1 & R1).
    unfold clear_j_body at 1. fold k. rewrite Mjk, Mij. cbn [Z.eqb Pos.eqb]. change (divisible 1 1) with true. cbv iota. change (1 / 1) with 1. rewrite E1. cbn [bind].
    assert (I1 : inv r (S d) s1).
    { constructor; [apply R1|apply R1| |].
      - intros a b Ha Hb. rewrite (sr_M _ _ _ _ _ _ _ _ _ R1). unfold colc, rowc.
        assert (Q : forall a b, (a < r)%nat -> (b < r)%nat -> get (stM s) a b = linkM d a b) by apply I.
        assert (K : (k =? 2 * d)%nat = false) by (apply Nat.eqb_neq; unfold k; lia).
        assert (K' : (2 * d =? k)%nat = false) by (apply Nat.eqb_neq; unfold k; lia).
        rewrite ?K, ?K'. clear K K'.
        assert (T : get (stM s) a b + (if (a =? k)%nat then get (stM s) (2 * d) b else 0) + (if (b =? k)%nat then get (stM s) a (2 * d) else 0) +
                    (if ((a =? k) && (b =? k))%nat then get (stM s) (2 * d) (2 * d) else 0) = linkM (S d) a b).
        { rewrite !Q by lia.
          assert (L3 : linkM d (2 * d) b = if (b =? 2 * d + 1)%nat then 1 else 0).
          { assert (L := linkM_lin d (2 * d) b). assert (H1 := half (2 * d)). assert (H2 := half b). destruct (Nat.eqb_spec b (2 * d + 1)); lia. }
          assert (L4 : linkM d a (2 * d) = if (a =? 2 * d + 1)%nat then -1 else 0).
          { assert (L := linkM_lin d a (2 * d)). assert (H1 := half (2 * d)). assert (H2 := half a). destruct (Nat.eqb_spec a (2 * d + 1)); lia. }
          assert (L5 : linkM d (2 * d) (2 * d) = 0).
          { assert (L := linkM_lin d (2 * d) (2 * d)). lia. }
          rewrite L3, L4, L5. clear L3 L4 L5. assert (H1 := half a). assert (H2 := half b). unfold k.
          assert (L1 := linkM_lin d a b). assert (L2 := linkM_lin (S d) a b). clear - H1 H2 L1 L2.
          destruct L1 as [(-> & L1)|[(-> & L1)|(-> & L1)]]; destruct L2 as [(-> & L2)|[(-> & L2)|(-> & L2)]];
          destruct (Nat.eqb_spec a (2 * d + 2)), (Nat.eqb_spec b (2 * d + 2)); cbn [andb];
          destruct (Nat.eqb_spec b (2 * d + 1)), (Nat.eqb_spec a (2 * d + 1)); try reflexivity; exfalso; lia. }
        rewrite <- T. clear T Q.
        destruct (Nat.eqb_spec b k) as [->|Nb]; destruct (Nat.eqb_spec a k) as [->|Na]; cbn [andb]; rewrite ?Nat.eqb_refl.
        all: try (destruct (Nat.eqb_spec b (2 * d)) as [->|Nb']).
        all: try (destruct (Nat.eqb_spec a (2 * d)) as [->|Na']).
        all: try lia.
      - intros a p Ha Hp. rewrite (sr_P _ _ _ _ _ _ _ _ _ R1). unfold rowc.
        assert (T : get (stP s) a p + (if (a =? k)%nat then get (stP s) (2 * d) p else 0) = linkP (S d) a p).
        { rewrite !(iv_p _ _ _ I) by lia.
          assert (L1 := linkP_lin d a p). assert (L2 := linkP_lin (S d) a p). assert (H1 := half a). assert (H2 := half p).
          assert (L3 := linkP_lin d (2 * d) p). assert (H3 := half (2 * d)). unfold k. destruct (Nat.eqb_spec a (2 * d + 2)); lia. }
        rewrite <- T. destruct (Nat.eqb_spec a k) as [->|Na]; [lia|]. destruct (Nat.eqb_spec a (2 * d)) as [->|Na']; lia. }
    rewrite for_each_id.
    2:{ intros q Hq. apply in_seq in Hq. unfold clear_j_body.
        rewrite (iv_m _ _ _ I1 _ q) by lia.
        destruct (linkM_cases (S d) (2 * d + 1) q) as [(_ & B & F)|[(_ & B & _)|(-> & _)]]; [|lia|reflexivity].
        elim (F d); lia. }
    cbn [bind]. exists s1. split; [reflexivity|exact I1].
Qed.

Lemma chain_main : forall todo d s, (2 * (d + todo) <= r)%nat -> inv r d s ->
  exists s', main_loop xgcd todo d r s = Done s' /\ inv r (d + todo) s'.
Proof.
  induction todo as [|todo IH]; intros d s H I; cbn [main_loop].
  { exists s. split; [reflexivity|]. now rewrite Nat.add_0_r. }
  rewrite (chain_pivot d s I) by lia. cbn [bind]. unfold reduce_block. rewrite Nat.eqb_refl. cbn [bind].
  assert (Mij : get (stM s) (2 * d) (2 * d + 1) = 1).
  { rewrite (iv_m _ _ _ I) by lia. assert (L := linkM_lin d (2 * d) (2 * d + 1)). assert (H1 := half (2 * d)). lia. }
  rewrite Mij. change (1 <? 0) with false. cbv iota. cbn [bind]. rewrite Mij.
  destruct (chain_clear d s I ltac:(lia) (Z.to_nat (Z.log2 (Z.abs 1)))) as (s1 & E1 & I1). rewrite E1. cbn [bind].
  destruct (IH (S d) s1 ltac:(lia) I1) as (s2 & E2 & I2). exists s2. split; [exact E2|]. now replace (d + S todo)%nat with (S d + todo)%nat by lia.
Qed.

(** a chain of r cycles, each meeting the next one once *)
Definition chain (k : mat) : Prop := square r k /\
  forall a b, (a < r)%nat -> (b < r)%nat -> get k a b = if (b =? a + 1)%nat then 1 else if (a =? b + 1)%nat then -1 else 0.

Lemma chain_reduction g k : chain k -> (2 * g <= r)%nat ->
  exists s, symplectic_reduction xgcd k g = Done s /\ inv r g s.
Proof.
  intros [Hs Hk] H. unfold symplectic_reduction. rewrite (square_nrows r k Hs).
  apply (chain_main g 0 {| stP := mat_one r; stM := k |} H). constructor; cbn [stP stM].
  - apply square_tab.
  - exact Hs.
  - intros a b Ha Hb. rewrite Hk by assumption. assert (L := linkM_lin 0 a b). assert (H1 := half a). assert (H2 := half b).
    destruct (Nat.eqb_spec b (a + 1)), (Nat.eqb_spec a (b + 1)); lia.
  - intros a p Ha Hp. unfold mat_one. rewrite get_tab. assert (L := linkP_lin 0 a p). assert (H1 := half a). assert (H2 := half p).
    destruct (Nat.ltb_spec a r), (Nat.ltb_spec p r); cbn [andb]; try lia. destruct (Nat.eqb_spec a p); lia.
Qed.

Lemma inv_canonical g s : inv r g s -> (2 * g <= r)%nat -> canonical r g (stM s).
Proof.
  intros I H e He. assert (HP := iv_m _ _ _ I).
  split; [|split; [|split]].
  - rewrite HP by lia. assert (L := linkM_lin g (2 * e) (2 * e + 1)). assert (H1 := half (2 * e)). lia.
  - rewrite HP by lia. assert (L := linkM_lin g (2 * e + 1) (2 * e)). assert (H1 := half (2 * e)). lia.
  - intros j Hj Ne. rewrite HP by lia. assert (L := linkM_lin g (2 * e) j). assert (H1 := half (2 * e)). assert (H2 := half j). lia.
  - intros j Hj Ne. rewrite HP by lia. assert (L := linkM_lin g (2 * e + 1) j). assert (H1 := half (2 * e + 1)). assert (H2 := half j). lia.
Qed.

Lemma inv_rest g s : inv r g s -> (r <= 2 * g + 1)%nat -> forall i j, (2 * g <= i < r)%nat -> (j < r)%nat -> get (stM s) i j = 0.
Proof.
  intros I H i j Hi Hj. rewrite (iv_m _ _ _ I) by lia.
  assert (L := linkM_lin g i j). assert (H1 := half i). assert (H2 := half j). lia.
Qed.

Lemma inv_entries g s : inv r g s -> forall a p, (a < r)%nat -> (p < r)%nat -> get (stP s) a p = 0 \/ get (stP s) a p = 1.
Proof. intros I a p Ha Hp. rewrite (iv_p _ _ _ I) by lia. assert (L := linkP_lin g a p). lia. Qed.
End Chain.
