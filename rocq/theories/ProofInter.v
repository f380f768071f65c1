From Verif Require Import Base ModelTree ModelInter SpecInter SpecTree ProofTree.

Lemma positive_rem_mod x m : 0 < m -> positive_rem x m = x mod m.
Proof.
  intros Hm. unfold positive_rem.
  pose proof (Z.rem_bound_abs x m ltac:(lia)) as H.
  rewrite Z.rem_mod_nonneg by lia.
  rewrite Z.add_mod, Z.mod_same, Z.add_0_r, Z.mod_mod by lia.
  pose proof (Z.quot_rem x m ltac:(lia)) as E.
  rewrite E at 2. rewrite (Z.mul_comm m), Z.add_comm, Z.mod_add by lia. reflexivity.
Qed.

Lemma mod_zero_eq m a b : 0 < m -> (a - b) mod m = 0 <-> a mod m = b mod m.
Proof.
  intros Hm. split; intros H.
  - replace a with (b + (a - b)) by ring. rewrite Z.add_mod, H, Z.add_0_r, Z.mod_mod by lia. reflexivity.
  - rewrite Zminus_mod, H, Z.sub_diag. apply Z.mod_0_l. lia.
Qed.

(** number in terms of the row a and column b of a block *)
Lemma number_rows m sp sm a b : 0 < m -> 0 <= b < m ->
  number m sp sm (b - a) = if b =? (a + sp) mod m then 1 else if b =? (a + sm) mod m then -1 else 0.
Proof.
  intros Hm Hb. unfold number.
  assert (E : forall s, ((b - a - s) mod m =? 0) = (b =? (a + s) mod m)).
  { intros s. replace (b - a - s) with (b - (a + s)) by ring.
    pose proof (mod_zero_eq m b (a + s) Hm) as H. rewrite (Z.mod_small b m) in H by lia.
    destruct (Z.eqb_spec ((b - (a + s)) mod m) 0), (Z.eqb_spec b ((a + s) mod m)); tauto. }
  rewrite !E. reflexivity.
Qed.

Lemma number_mod m sp sm d : 0 < m -> number m (sp mod m) (sm mod m) d = number m sp sm d.
Proof.
  intros Hm. unfold number.
  assert (E : forall s, (d - s mod m) mod m = (d - s) mod m) by (intros; rewrite Zminus_mod_idemp_r; reflexivity).
  rewrite !E. reflexivity.
Qed.

(** the sheet numbers sp, sm are different and opposite in the self block *)
Lemma number_self m d : 3 <= m -> number m 1 (-1) (- d) = - number m 1 (-1) d.
Proof.
  intros Hm. unfold number.
  assert (E1 : ((- d - 1) mod m =? 0) = ((d - -1) mod m =? 0)).
  { replace (- d - 1) with (- (d - -1)) by ring.
    destruct (Z.eqb_spec ((d - -1) mod m) 0) as [H|H].
    - rewrite Z.mod_opp_l_z by (try lia; exact H). reflexivity.
    - rewrite Z.mod_opp_l_nz by (try lia; exact H). pose proof (Z.mod_pos_bound (d - -1) m ltac:(lia)). lia. }
  assert (E2 : ((- d - -1) mod m =? 0) = ((d - 1) mod m =? 0)).
  { replace (- d - -1) with (- (d - 1)) by ring.
    destruct (Z.eqb_spec ((d - 1) mod m) 0) as [H|H].
    - rewrite Z.mod_opp_l_z by (try lia; exact H). reflexivity.
    - rewrite Z.mod_opp_l_nz by (try lia; exact H). pose proof (Z.mod_pos_bound (d - 1) m ltac:(lia)). lia. }
  rewrite E1, E2.
  destruct (Z.eqb_spec ((d - -1) mod m) 0) as [H1|], (Z.eqb_spec ((d - 1) mod m) 0) as [H2|]; try reflexivity.
  exfalso. pose proof (Z.mod_divide (d - -1) m ltac:(lia)) as D1. pose proof (Z.mod_divide (d - 1) m ltac:(lia)) as D2.
  apply D1 in H1. apply D2 in H2. destruct (Z.divide_sub_r _ _ _ H1 H2) as (q & Hq).
  assert (E : q * m = 2) by lia. assert (q <= 0 \/ 1 <= q) as [Hq0|Hq0] by lia; nia.
Qed.

(** ** one block *)
Section Block.
Context (m i j sp sm : Z) (old : Z -> Z -> Z).
Hypothesis Hm : 2 <= m.
Hypothesis Hsp : 0 <= sp < m.
Hypothesis Hsm : 0 <= sm < m.
Hypothesis Hne : sp <> sm.
Let num a b := number m sp sm (b - a).
Hypothesis Hblocks : (i = j /\ forall a b, num b a = - num a b) \/ i + (m - 1) <= j.

Let hit x y : bool := (i <=? x) && (x <? i + (m - 1)) && (j <=? y) && (y <? j + (m - 1)) && negb (num (x - i) (y - j) =? 0).
Let full x y : Z := if hit x y then num (x - i) (y - j) else if hit y x then - num (y - i) (x - j) else old x y.

Definition partial (n : Z) (marked : Z -> Z -> Prop) (c : imat) : Prop :=
  isize c = n /\ forall x y, cell c x y = full x y \/ (cell c x y = old x y /\ ~ marked x y).

Lemma put_partial n marked c x y v : partial n marked c -> 0 <= x < n -> 0 <= y < n -> v = full x y ->
  exists c', put c x y v = Done c' /\ partial n (fun x' y' => marked x' y' \/ (x' = x /\ y' = y)) c'.
Proof.
  intros [Hn H] Hx Hy Hv. unfold put. rewrite Hn.
  assert (E : (0 <=? x) && (x <? n) && (0 <=? y) && (y <? n) = true) by lia. rewrite E.
  eexists. split; [reflexivity|]. split; [reflexivity|]. cbn [cell]. intros x' y'.
  destruct (Z.eqb_spec x' x) as [->|], (Z.eqb_spec y' y) as [->|]; cbn [andb].
  - left. exact Hv.
  - destruct (H x y') as [|[H1 H2]]; [left; assumption|right; split; [exact H1|intros [?|?]; tauto]].
  - destruct (H x' y) as [|[H1 H2]]; [left; assumption|right; split; [exact H1|intros [?|?]; tauto]].
  - destruct (H x' y') as [|[H1 H2]]; [left; assumption|right; split; [exact H1|intros [?|?]; tauto]].
Qed.

Lemma partial_weaken n (mk mk' : Z -> Z -> Prop) c : (forall x y, mk' x y -> mk x y) -> partial n mk c -> partial n mk' c.
Proof.
  intros Hi [Hn H]. split; [exact Hn|]. intros x y. destruct (H x y) as [|[H1 H2]]; [left; assumption|right].
  split; [exact H1|]. intros H3. apply H2, Hi, H3.
Qed.

Lemma full_hit a b : 0 <= a < m - 1 -> 0 <= b < m - 1 -> num a b <> 0 ->
  full (i + a) (j + b) = num a b /\ full (j + b) (i + a) = - num a b.
Proof.
  intros Ha Hb Hn. unfold full.
  assert (E : hit (i + a) (j + b) = true).
  { unfold hit. replace (i + a - i) with a by ring. replace (j + b - j) with b by ring. lia. }
  rewrite E. replace (i + a - i) with a by ring. replace (j + b - j) with b by ring. split; [reflexivity|].
  destruct Hblocks as [[Eij Hanti]|Hd].
  - assert (E2 : hit (j + b) (i + a) = true).
    { unfold hit. replace (j + b - i) with b by lia. replace (i + a - j) with a by lia.
      rewrite Hanti. lia. }
    rewrite E2. replace (j + b - i) with b by lia. replace (i + a - j) with a by lia. apply Hanti.
  - assert (E2 : hit (j + b) (i + a) = false) by (unfold hit; lia).
    rewrite E2. reflexivity.
Qed.

Lemma fill_pair_partial n marked c k s v : partial n marked c -> 0 <= k < m - 1 ->
  0 <= i -> 0 <= j -> i + (m - 1) <= n -> j + (m - 1) <= n ->
  0 <= s < m -> (forall b, b = (k + s) mod m -> 0 <= b < m - 1 -> num k b = v /\ v <> 0) ->
  exists c', fill_pair c i j k s m v = Done c' /\
    partial n (fun x y => marked x y \/ (exists b, b = (k + s) mod m /\ 0 <= b < m - 1 /\
       ((x = i + k /\ y = j + b) \/ (x = j + b /\ y = i + k)))) c'.
Proof.
  intros Hp Hk Hi Hj Hin Hjn Hs Hv. unfold fill_pair.
  rewrite Z.rem_mod_nonneg by lia. set (l := (k + s) mod m) in *.
  assert (Hl : 0 <= l < m) by (apply Z.mod_pos_bound; lia).
  destruct (Z.ltb_spec l (m - 1)) as [Hlt|Hge].
  - destruct (Hv l eq_refl ltac:(lia)) as [Ev Hv0].
    destruct (full_hit k l) as [F1 F2]; [lia|lia|congruence|].
    destruct (put_partial n marked c (i + k) (j + l) v Hp) as (c1 & E1 & P1); [lia|lia|congruence|].
    rewrite E1. cbn [bind].
    destruct (put_partial n _ c1 (j + l) (i + k) (- v) P1) as (c2 & E2 & P2); [lia|lia|congruence|].
    exists c2. split; [exact E2|]. eapply partial_weaken; [|exact P2]. cbn beta.
    intros x y [H|(b & -> & _ & [H|H])]; tauto.
  - exists c. split; [reflexivity|]. eapply partial_weaken; [|exact Hp].
    intros x y [H|(b & -> & Hb & _)]; [exact H|lia].
Qed.

Definition rows_marked (K : Z) (x y : Z) : Prop :=
  (hit x y = true /\ x - i < K) \/ (hit y x = true /\ y - i < K).

Lemma num_row a b : 0 <= b < m -> num a b = if b =? (a + sp) mod m then 1 else if b =? (a + sm) mod m then -1 else 0.
Proof. intros Hb. unfold num. apply number_rows; lia. Qed.

Lemma mod_distinct k : (k + sp) mod m <> (k + sm) mod m.
Proof.
  intros E. apply mod_zero_eq in E; [|lia]. replace (k + sp - (k + sm)) with (sp - sm) in E by ring.
  apply mod_zero_eq in E; [|lia]. rewrite !Z.mod_small in E by lia. contradiction.
Qed.

Lemma fill_rows_partial n todo : forall k c, partial n (rows_marked k) c -> 0 <= k -> k + Z.of_nat todo <= m - 1 ->
  0 <= i -> 0 <= j -> i + (m - 1) <= n -> j + (m - 1) <= n ->
  exists c', fill_rows todo k c i j sp sm m = Done c' /\ partial n (rows_marked (k + Z.of_nat todo)) c'.
Proof.
  induction todo as [|todo IH]; intros k c Hp Hk Hkt Hi Hj Hin Hjn; cbn [fill_rows].
  - exists c. split; [reflexivity|]. replace (k + Z.of_nat 0) with k by lia. exact Hp.
  - destruct (fill_pair_partial n _ c k sp 1 Hp) as (c1 & E1 & P1); try assumption; try lia.
    { intros b -> Hb. split; [|lia]. rewrite num_row by lia. rewrite Z.eqb_refl. reflexivity. }
    rewrite E1. cbn [bind].
    destruct (fill_pair_partial n _ c1 k sm (-1) P1) as (c2 & E2 & P2); try assumption; try lia.
    { intros b -> Hb. split; [|lia]. rewrite num_row by lia. rewrite Z.eqb_refl.
      destruct (Z.eqb_spec ((k + sm) mod m) ((k + sp) mod m)) as [E|]; [|reflexivity].
      destruct (mod_distinct k). congruence. }
    rewrite E2. cbn [bind].
    destruct (IH (k + 1) c2) as (c' & E' & P'); try assumption; try lia.
    { eapply partial_weaken; [|exact P2]. intros x y H.
      assert (Hnew : forall x y, hit x y = true -> x - i = k ->
         (exists b, b = (k + sp) mod m /\ 0 <= b < m - 1 /\ x = i + k /\ y = j + b) \/
         (exists b, b = (k + sm) mod m /\ 0 <= b < m - 1 /\ x = i + k /\ y = j + b)).
      { clear x y H. intros x y H Ek. unfold hit in H. rewrite Ek in H.
        assert (Hyj : 0 <= y - j < m - 1) by lia. rewrite num_row in H by lia.
        destruct (Z.eqb_spec (y - j) ((k + sp) mod m)) as [E|].
        - left. exists (y - j). conj; try assumption; lia.
        - destruct (Z.eqb_spec (y - j) ((k + sm) mod m)) as [E|].
          + right. exists (y - j). conj; try assumption; lia.
          + lia. }
      destruct H as [[H Hlt]|[H Hlt]].
      - destruct (Z.eq_dec (x - i) k) as [Ek|].
        + destruct (Hnew x y H Ek) as [(b & H1 & H2 & H3)|(b & H1 & H2 & H3)].
          * left. right. exists b. tauto.
          * right. exists b. tauto.
        + left. left. left. split; [exact H|lia].
      - destruct (Z.eq_dec (y - i) k) as [Ek|].
        + destruct (Hnew y x H Ek) as [(b & H1 & H2 & H3)|(b & H1 & H2 & H3)].
          * left. right. exists b. tauto.
          * right. exists b. tauto.
        + left. left. right. split; [exact H|lia]. }
    exists c'. split; [exact E'|]. replace (k + Z.of_nat (S todo)) with (k + 1 + Z.of_nat todo) by lia. exact P'.
Qed.

Lemma fill_rows_full n c : isize c = n -> (forall x y, cell c x y = old x y) ->
  0 <= i -> 0 <= j -> i + (m - 1) <= n -> j + (m - 1) <= n ->
  exists c', fill_rows (Z.to_nat (m - 1)) 0 c i j sp sm m = Done c' /\ isize c' = n /\
    forall x y, cell c' x y = full x y.
Proof.
  intros Hn Hold Hi Hj Hin Hjn.
  destruct (fill_rows_partial n (Z.to_nat (m - 1)) 0 c) as (c' & E & [Hn' Hp]); try assumption; try lia.
  { split; [exact Hn|]. intros x y. right. split; [apply Hold|].
    intros [[H Hlt]|[H Hlt]]; unfold hit in H; lia. }
  exists c'. conj; [exact E|exact Hn'|]. intros x y. destruct (Hp x y) as [|[H1 H2]]; [assumption|].
  rewrite H1. unfold full. destruct (hit x y) eqn:E1.
  - exfalso. apply H2. left. split; [exact E1|]. unfold hit in E1. lia.
  - destruct (hit y x) eqn:E2; [|reflexivity]. exfalso. apply H2. right. split; [exact E2|]. unfold hit in E2. lia.
Qed.
End Block.

(** ** blocks in coordinates (edge, shift) *)
Definition at_ (m : Z) (c : imat) (k l : nat) (u v : Z) : Z :=
  cell c (Z.of_nat k * (m - 1) + u) (Z.of_nat l * (m - 1) + v).

Lemma block_inside (s k p u : Z) : 0 <= u < s -> k * s <= p * s + u < k * s + s -> p = k.
Proof.
  intros Hu H. assert (p < k + 1) by (apply (Z.mul_lt_mono_pos_r s); lia).
  assert (k < p + 1) by (apply (Z.mul_lt_mono_pos_r s); lia). lia.
Qed.

Lemma fill_block_off m n c k l sp sm : 2 <= m -> (k < l < n)%nat -> isize c = Z.of_nat n * (m - 1) ->
  (sp - sm) mod m <> 0 ->
  (forall u v, 0 <= u < m - 1 -> 0 <= v < m - 1 -> at_ m c k l u v = 0 /\ at_ m c l k u v = 0) ->
  exists c', fill_block c (Z.of_nat k * (m - 1)) (Z.of_nat l * (m - 1)) sp sm m = Done c' /\
    isize c' = isize c /\
    forall p q u v, 0 <= u < m - 1 -> 0 <= v < m - 1 ->
      at_ m c' p q u v =
        if ((p =? k) && (q =? l))%nat then number m sp sm (v - u)
        else if ((p =? l) && (q =? k))%nat then - number m sp sm (u - v)
        else at_ m c p q u v.
Proof.
  intros Hm Hkl Hn Hd Hz. unfold fill_block. rewrite !positive_rem_mod by lia.
  set (i := Z.of_nat k * (m - 1)). set (j := Z.of_nat l * (m - 1)).
  assert (Hij : i + (m - 1) <= j) by (unfold i, j; nia).
  assert (Hjn : j + (m - 1) <= isize c) by (rewrite Hn; unfold j; nia).
  assert (Hi0 : 0 <= i) by (unfold i; nia).
  destruct (fill_rows_full m i j (sp mod m) (sm mod m) (cell c) Hm (Z.mod_pos_bound sp m ltac:(lia)) (Z.mod_pos_bound sm m ltac:(lia)))
    with (n := isize c) (c := c) as (c' & E & En & Hc); try reflexivity; try lia.
  { intros E. apply Hd. apply mod_zero_eq; [lia|exact E]. }
  exists c'. conj; [exact E|exact En|]. intros p q u v Hu Hv. unfold at_. rewrite Hc. clear E Hc.
  rewrite !number_mod by lia.
  set (s := m - 1) in *. 
  destruct (Nat.eqb_spec p k) as [Ep|Ep], (Nat.eqb_spec q l) as [Eq|Eq]; cbn [andb].
  - subst p q. fold i j.
    replace ((i <=? i + u) && (i + u <? i + s) && (j <=? j + v) && (j + v <? j + s)) with true by lia.
    replace (i + u - i) with u by ring. replace (j + v - j) with v by ring. cbn [andb].
    destruct (Z.eqb_spec (number m sp sm (v - u)) 0) as [E0|]; cbn [negb]; [|reflexivity].
    replace ((i <=? j + v) && (j + v <? i + s)) with false by lia. cbn [andb].
    rewrite E0. apply (Hz u v Hu Hv).
  - destruct (Nat.eqb_spec p l) as [Ep'|Ep']; cbn [andb]; [lia|].
    assert (F1 : (j <=? Z.of_nat q * s + v) && (Z.of_nat q * s + v <? j + s) = false).
    { apply Bool.not_true_iff_false. intros H. apply Eq. apply Nat2Z.inj. apply (block_inside s (Z.of_nat l) (Z.of_nat q) v Hv). unfold j in H. lia. }
    assert (F2 : (j <=? Z.of_nat p * s + u) && (Z.of_nat p * s + u <? j + s) = false).
    { apply Bool.not_true_iff_false. intros H. apply Ep'. apply Nat2Z.inj. apply (block_inside s (Z.of_nat l) (Z.of_nat p) u Hu). unfold j in H. lia. }
    rewrite <- !andb_assoc. rewrite (andb_assoc (j <=? Z.of_nat q * s + v)), F1. cbn [andb]. rewrite !andb_false_r.
    rewrite (andb_assoc (j <=? Z.of_nat p * s + u)), F2. cbn [andb]. rewrite !andb_false_r. reflexivity.
  - assert (F1 : (i <=? Z.of_nat p * s + u) && (Z.of_nat p * s + u <? i + s) = false).
    { apply Bool.not_true_iff_false. intros H. apply Ep. apply Nat2Z.inj. apply (block_inside s (Z.of_nat k) (Z.of_nat p) u Hu). unfold i in H. lia. }
    rewrite F1. cbn [andb]. destruct (Nat.eqb_spec q k) as [Eq'|Eq']; [lia|]. rewrite andb_false_r.
    assert (F2 : (i <=? Z.of_nat q * s + v) && (Z.of_nat q * s + v <? i + s) = false).
    { apply Bool.not_true_iff_false. intros H. apply Eq'. apply Nat2Z.inj. apply (block_inside s (Z.of_nat k) (Z.of_nat q) v Hv). unfold i in H. lia. }
    rewrite F2. reflexivity.
  - assert (F1 : (i <=? Z.of_nat p * s + u) && (Z.of_nat p * s + u <? i + s) = false).
    { apply Bool.not_true_iff_false. intros H. apply Ep. apply Nat2Z.inj. apply (block_inside s (Z.of_nat k) (Z.of_nat p) u Hu). unfold i in H. lia. }
    rewrite F1. cbn [andb].
    destruct (Nat.eqb_spec q k) as [Eq'|Eq'].
    + subst q. fold i. replace ((i <=? i + v) && (i + v <? i + s)) with true by lia. cbn [andb].
      destruct (Nat.eqb_spec p l) as [Ep'|Ep'].
      * subst p. fold j. replace ((j <=? j + u) && (j + u <? j + s)) with true by lia. cbn [andb].
        replace (i + v - i) with v by ring. replace (j + u - j) with u by ring.
        destruct (Z.eqb_spec (number m sp sm (u - v)) 0) as [E0|]; cbn [negb]; [|reflexivity].
        rewrite E0. exact (proj2 (Hz u v Hu Hv)).
      * assert (F2 : (j <=? Z.of_nat p * s + u) && (Z.of_nat p * s + u <? j + s) = false).
        { apply Bool.not_true_iff_false. intros H. apply Ep'. apply Nat2Z.inj. apply (block_inside s (Z.of_nat l) (Z.of_nat p) u Hu). unfold j in H. lia. }
        rewrite F2. reflexivity.
    + rewrite andb_false_r.
      assert (F2 : (i <=? Z.of_nat q * s + v) && (Z.of_nat q * s + v <? i + s) = false).
      { apply Bool.not_true_iff_false. intros H. apply Eq'. apply Nat2Z.inj. apply (block_inside s (Z.of_nat k) (Z.of_nat q) v Hv). unfold i in H. lia. }
      rewrite F2. reflexivity.
Qed.

Lemma fill_block_self m n c k : 2 <= m -> (k < n)%nat -> isize c = Z.of_nat n * (m - 1) ->
  (forall u v, 0 <= u < m - 1 -> 0 <= v < m - 1 -> at_ m c k k u v = 0) ->
  exists c', fill_block c (Z.of_nat k * (m - 1)) (Z.of_nat k * (m - 1)) 1 (-1) m = Done c' /\
    isize c' = isize c /\
    forall p q u v, 0 <= u < m - 1 -> 0 <= v < m - 1 ->
      at_ m c' p q u v = if ((p =? k) && (q =? k))%nat then number m 1 (-1) (v - u) else at_ m c p q u v.
Proof.
  intros Hm Hk Hn Hz. unfold fill_block. rewrite !positive_rem_mod by lia.
  destruct (Z.eq_dec m 2) as [->|Hm3].
  - exists c. conj; [reflexivity|reflexivity|]. intros p q u v Hu Hv.
    destruct (Nat.eqb_spec p k) as [->|], (Nat.eqb_spec q k) as [->|]; cbn [andb]; try reflexivity.
    rewrite Hz by assumption. assert (u = 0) by lia. assert (v = 0) by lia. subst. reflexivity.
  - set (i := Z.of_nat k * (m - 1)).
    assert (Hin : i + (m - 1) <= isize c) by (rewrite Hn; unfold i; nia).
    assert (Hi0 : 0 <= i) by (unfold i; nia).
    destruct (fill_rows_full m i i (1 mod m) (-1 mod m) (cell c) Hm (Z.mod_pos_bound 1 m ltac:(lia)) (Z.mod_pos_bound (-1) m ltac:(lia)))
      with (n := isize c) (c := c) as (c' & E & En & Hc); try reflexivity; try lia.
    { intros E. apply mod_zero_eq in E; [|lia]. rewrite Z.mod_small in E by lia. lia. }
    { left. split; [reflexivity|]. intros a b. rewrite !number_mod by lia.
      replace (a - b) with (- (b - a)) by ring. apply number_self. lia. }
    exists c'. conj; [exact E|exact En|]. intros p q u v Hu Hv. unfold at_. rewrite Hc. clear E Hc.
    rewrite !number_mod by lia. set (s := m - 1) in *.
    destruct (Nat.eqb_spec p k) as [Ep|Ep].
    + subst p. fold i. replace ((i <=? i + u) && (i + u <? i + s)) with true by lia. cbn [andb].
      destruct (Nat.eqb_spec q k) as [Eq|Eq].
      * subst q. fold i. replace ((i <=? i + v) && (i + v <? i + s)) with true by lia. cbn [andb].
        replace (i + u - i) with u by ring. replace (i + v - i) with v by ring.
        destruct (Z.eqb_spec (number m 1 (-1) (v - u)) 0) as [E0|]; cbn [negb]; [|reflexivity].
        replace (u - v) with (- (v - u)) by ring. rewrite number_self by lia. rewrite E0. cbn. rewrite andb_false_r.
        apply (Hz u v Hu Hv).
      * assert (F2 : (i <=? Z.of_nat q * s + v) && (Z.of_nat q * s + v <? i + s) = false).
        { apply Bool.not_true_iff_false. intros H. apply Eq. apply Nat2Z.inj. apply (block_inside s (Z.of_nat k) (Z.of_nat q) v Hv). unfold i in H. lia. }
        rewrite F2. reflexivity.
    + cbn [andb].
      assert (F1 : (i <=? Z.of_nat p * s + u) && (Z.of_nat p * s + u <? i + s) = false).
      { apply Bool.not_true_iff_false. intros H. apply Ep. apply Nat2Z.inj. apply (block_inside s (Z.of_nat k) (Z.of_nat p) u Hu). unfold i in H. lia. }
      rewrite F1. cbn [andb]. rewrite <- !andb_assoc. rewrite (andb_assoc (i <=? Z.of_nat p * s + u)), F1. cbn [andb]. rewrite !andb_false_r. reflexivity.
Qed.
