(** The blocks of the intersection matrix of the Magma package. *)
From Verif Require Import CArg ModelTree ModelVec ModelPeriod ModelTurn ModelMaRoot ModelMaTree ModelSymp SpecSymp SpecInter ProofSymp ModelMaInter.
Local Open Scope nat_scope.

Lemma oloop_app {A} (f : A -> nat -> outcome A) l1 l2 a b : oloop f l1 a = Done b -> oloop f (l1 ++ l2) a = oloop f l2 b.
Proof. revert a. induction l1 as [|i l IH]; intros a H; cbn in *; [injection H as ->; reflexivity|]. destruct (f a i); cbn [bind] in *; try discriminate. apply IH, H. Qed.

(** ** one block *)
Lemma self_fold cnt u w : fold_left (fun b i => assign (assign b i (i + 1) 1) (i + 1) i (-1)) (seq 1 cnt) zero_block u w =
  if (1 <=? u) && (u <=? cnt) && (w =? u + 1) then 1%Z else if (1 <=? w) && (w <=? cnt) && (u =? w + 1) then (-1)%Z else 0%Z.
Proof.
  induction cnt as [|cnt IH].
  - cbn [seq fold_left]. unfold zero_block. destruct (Nat.leb_spec 1 u), (Nat.leb_spec u 0), (Nat.leb_spec 1 w), (Nat.leb_spec w 0); try lia; reflexivity.
  - rewrite seq_S, fold_left_app. cbn [fold_left]. unfold assign at 1 2. rewrite IH.
    destruct (Nat.eqb_spec u (1 + cnt + 1)), (Nat.eqb_spec w (1 + cnt)); cbn [andb].
    + destruct (Nat.leb_spec u (S cnt)); [lia|]. rewrite andb_false_r. cbn [andb]. destruct (Nat.leb_spec 1 w), (Nat.leb_spec w (S cnt)), (Nat.eqb_spec u (w + 1)); try lia. reflexivity.
    + destruct (Nat.eqb_spec u (1 + cnt)); [lia|]. cbn [andb].
      destruct (Nat.leb_spec u (S cnt)); [lia|]. destruct (Nat.leb_spec u cnt); [lia|]. rewrite !andb_false_r. cbn [andb].
      destruct (Nat.eqb_spec u (w + 1)); [lia|]. rewrite !andb_false_r. reflexivity.
    + destruct (Nat.eqb_spec u (1 + cnt)); cbn [andb].
      * destruct (Nat.eqb_spec w (1 + cnt + 1)); [lia|]. destruct (Nat.leb_spec u cnt); [lia|]. rewrite !andb_false_r. cbn [andb]. destruct (Nat.eqb_spec w (u + 1)); [lia|]. rewrite andb_false_r.
        destruct (Nat.eqb_spec u (w + 1)); [lia|]. rewrite !andb_false_r. reflexivity.
      * destruct (Nat.eqb_spec w (u + 1)); [|rewrite !andb_false_r]; destruct (Nat.eqb_spec u (w + 1)); rewrite ?andb_false_r; try lia; try reflexivity.
        destruct (Nat.leb_spec u cnt), (Nat.leb_spec u (S cnt)); try lia; reflexivity.
    + destruct (Nat.eqb_spec u (1 + cnt)), (Nat.eqb_spec w (1 + cnt + 1)); cbn [andb].
      * destruct (Nat.leb_spec 1 u), (Nat.leb_spec u (S cnt)), (Nat.eqb_spec w (u + 1)); try lia. reflexivity.
      * destruct (Nat.leb_spec u cnt); [lia|]. rewrite !andb_false_r. cbn [andb]. destruct (Nat.eqb_spec w (u + 1)); [lia|]. rewrite !andb_false_r.
        destruct (Nat.leb_spec w cnt), (Nat.leb_spec w (S cnt)); try lia; reflexivity.
      * destruct (Nat.leb_spec u cnt), (Nat.leb_spec u (S cnt)), (Nat.leb_spec w cnt), (Nat.leb_spec w (S cnt)); try lia; try reflexivity.
      * destruct (Nat.leb_spec u cnt), (Nat.leb_spec u (S cnt)), (Nat.leb_spec w cnt), (Nat.leb_spec w (S cnt)); try lia; try reflexivity.
Qed.

Lemma shift_fold m sp sm cnt u w : (2 <= m) -> 1 <= w < m ->
  fold_left (shift_step m sp sm) (seq 1 cnt) zero_block u w =
  if (1 <=? u) && (u <=? cnt) then
    if (Z.of_nat w =? (Z.of_nat u + sm) mod Z.of_nat m)%Z then (-1)%Z else if (Z.of_nat w =? (Z.of_nat u + sp) mod Z.of_nat m)%Z then 1%Z else 0%Z
  else 0%Z.
Proof.
  intros Hm Hw. induction cnt as [|cnt IH].
  - cbn [seq fold_left]. unfold zero_block. destruct (Nat.leb_spec 1 u), (Nat.leb_spec u 0); try lia; reflexivity.
  - rewrite seq_S, fold_left_app. cbn [fold_left]. set (b := fold_left _ _ _) in *. unfold shift_step.
    pose proof (Z.mod_pos_bound (Z.of_nat (1 + cnt) + sp) (Z.of_nat m) ltac:(lia)) as B1.
    pose proof (Z.mod_pos_bound (Z.of_nat (1 + cnt) + sm) (Z.of_nat m) ltac:(lia)) as B2.
    destruct (Nat.eq_dec u (1 + cnt)) as [->|Nu].
    + assert (E0 : b (1 + cnt) w = 0%Z). { rewrite IH. destruct (Nat.leb_spec (1 + cnt) cnt); [lia|]. rewrite andb_false_r. reflexivity. }
      destruct (Nat.leb_spec 1 (1 + cnt)), (Nat.leb_spec (1 + cnt) (S cnt)); try lia. cbn [andb].
      set (zp := ((Z.of_nat (1 + cnt) + sp) mod Z.of_nat m)%Z) in *. set (zm := ((Z.of_nat (1 + cnt) + sm) mod Z.of_nat m)%Z) in *.
      destruct (Nat.eqb_spec (Z.to_nat zp) 0), (Nat.eqb_spec (Z.to_nat zm) 0); unfold assign; rewrite ?Nat.eqb_refl; cbn [andb];
      destruct (Z.eqb_spec (Z.of_nat w) zm), (Z.eqb_spec (Z.of_nat w) zp); try lia; try exact E0;
      destruct (Nat.eqb_spec w (Z.to_nat zm)); try lia; try reflexivity;
      destruct (Nat.eqb_spec w (Z.to_nat zp)); try lia; try reflexivity; exact E0.
    + assert (X : forall j v c, assign c (1 + cnt) j v u w = c u w).
      { intros. unfold assign. destruct (Nat.eqb_spec u (1 + cnt)); [contradiction|]. reflexivity. }
      assert (Y : (1 <=? u) && (u <=? S cnt) = ((1 <=? u) && (u <=? cnt))) by (destruct (Nat.leb_spec u (S cnt)), (Nat.leb_spec u cnt); try lia; reflexivity).
      rewrite Y, <- IH. destruct (Z.to_nat ((Z.of_nat (1 + cnt) + sp) mod Z.of_nat m) =? 0), (Z.to_nat ((Z.of_nat (1 + cnt) + sm) mod Z.of_nat m) =? 0); rewrite ?X; reflexivity.
Qed.

Lemma mod_eq_iff m a b : (0 < m)%Z -> (0 <= b < m)%Z -> (b = a mod m <-> (b - a) mod m = 0)%Z.
Proof.
  intros Hm Hb. split.
  - intros ->. rewrite Zminus_mod_idemp_l, Z.sub_diag. apply Z.mod_0_l. lia.
  - intro H. apply Z.mod_divide in H; [|lia]. destruct H as (q & E). replace a with (b + (- q) * m)%Z by lia. rewrite Z.mod_add by lia. symmetry. apply Z.mod_small. lia.
Qed.

(** entries of the block of two edges, indices from 0 *)
Lemma shift_entry m sp sm u v : (2 <= m) -> ((sp - sm) mod Z.of_nat m <> 0)%Z -> u < m - 1 -> v < m - 1 ->
  shift_block m (sp mod Z.of_nat m) (sm mod Z.of_nat m) (u + 1) (v + 1) = number (Z.of_nat m) sp sm (Z.of_nat v - Z.of_nat u).
Proof.
  intros Hm Hs Hu Hv. unfold shift_block. assert (Hz : (0 < Z.of_nat m)%Z) by lia.
  destruct ((sp mod Z.of_nat m =? 0)%Z && (sm mod Z.of_nat m =? 0)%Z) eqn:E.
  { exfalso. apply andb_true_iff in E. destruct E as (E1 & E2). apply Z.eqb_eq in E1, E2. apply Hs. rewrite Zminus_mod, E1, E2. apply Z.mod_0_l. lia. }
  rewrite shift_fold by lia. destruct (Nat.leb_spec 1 (u + 1)), (Nat.leb_spec (u + 1) (m - 1)); try lia. cbn [andb].
  rewrite !Z.add_mod_idemp_r by lia. unfold number.
  assert (Xp := mod_eq_iff (Z.of_nat m) (Z.of_nat (u + 1) + sp) (Z.of_nat (v + 1)) Hz ltac:(lia)).
  assert (Xm := mod_eq_iff (Z.of_nat m) (Z.of_nat (u + 1) + sm) (Z.of_nat (v + 1)) Hz ltac:(lia)).
  replace (Z.of_nat (v + 1) - (Z.of_nat (u + 1) + sp))%Z with (Z.of_nat v - Z.of_nat u - sp)%Z in Xp by lia.
  replace (Z.of_nat (v + 1) - (Z.of_nat (u + 1) + sm))%Z with (Z.of_nat v - Z.of_nat u - sm)%Z in Xm by lia.
  destruct (Z.eqb_spec (Z.of_nat (v + 1)) ((Z.of_nat (u + 1) + sm) mod Z.of_nat m)) as [Em|Em].
  - apply Xm in Em. rewrite Em. destruct (Z.eqb_spec ((Z.of_nat v - Z.of_nat u - sp) mod Z.of_nat m) 0) as [Ep|Ep]; [|reflexivity].
    exfalso. apply Hs. replace (sp - sm)%Z with ((Z.of_nat v - Z.of_nat u - sm) - (Z.of_nat v - Z.of_nat u - sp))%Z by lia. rewrite Zminus_mod, Em, Ep. apply Z.mod_0_l. lia.
  - destruct (Z.eqb_spec (Z.of_nat (v + 1)) ((Z.of_nat (u + 1) + sp) mod Z.of_nat m)) as [Ep|Ep].
    + apply Xp in Ep. rewrite Ep. reflexivity.
    + destruct (Z.eqb_spec ((Z.of_nat v - Z.of_nat u - sp) mod Z.of_nat m) 0); [exfalso; apply Ep, Xp; assumption|].
      destruct (Z.eqb_spec ((Z.of_nat v - Z.of_nat u - sm) mod Z.of_nat m) 0); [exfalso; apply Em, Xm; assumption|]. reflexivity.
Qed.
Lemma zero_entry m u v : shift_block m 0 0 u v = 0%Z.
Proof. reflexivity. Qed.

Lemma small_mod m d : (2 <= m)%Z -> (- m < d < m)%Z -> (d mod m = 0 <-> d = 0)%Z.
Proof.
  intros Hm Hd. split; [|intros ->; apply Z.mod_0_l; lia]. intro H. apply Z.mod_divide in H; [|lia]. destruct H as (q & ->).
  assert (-1 < q < 1)%Z by nia. lia.
Qed.
Lemma self_entry m u v : (2 <= m) -> u < m - 1 -> v < m - 1 -> self_block m (u + 1) (v + 1) = number (Z.of_nat m) 1 (-1) (Z.of_nat v - Z.of_nat u).
Proof.
  intros Hm Hu Hv. unfold self_block. rewrite self_fold. unfold number.
  assert (D1 : ((Z.of_nat v - Z.of_nat u - 1) mod Z.of_nat m = 0)%Z <-> v = u + 1).
  { rewrite small_mod by lia. lia. }
  assert (D2 : ((Z.of_nat v - Z.of_nat u - -1) mod Z.of_nat m = 0)%Z <-> u = v + 1).
  { rewrite small_mod by lia. lia. }
  destruct (Z.eqb_spec ((Z.of_nat v - Z.of_nat u - 1) mod Z.of_nat m) 0) as [E|E]; [apply D1 in E|].
  - destruct (Nat.leb_spec 1 (u + 1)), (Nat.leb_spec (u + 1) (m - 2)), (Nat.eqb_spec (v + 1) (u + 1 + 1)); try lia. reflexivity.
  - destruct (Nat.eqb_spec (v + 1) (u + 1 + 1)) as [E'|E']; [exfalso; apply E, D1; lia|]. rewrite andb_false_r.
    destruct (Z.eqb_spec ((Z.of_nat v - Z.of_nat u - -1) mod Z.of_nat m) 0) as [F|F]; [apply D2 in F|].
    + destruct (Nat.leb_spec 1 (v + 1)), (Nat.leb_spec (v + 1) (m - 2)), (Nat.eqb_spec (u + 1) (v + 1 + 1)); try lia. reflexivity.
    + destruct (Nat.eqb_spec (u + 1) (v + 1 + 1)) as [F'|F']; [exfalso; apply F, D2; lia|]. rewrite andb_false_r. reflexivity.
Qed.

(** ** the sequence of blocks *)
Definition idx (n j l : nat) : nat := (j - 1) * (n - 1) + l.
Definition inside (n j : nat) : Prop := 1 <= j <= n - 1.
Lemma idx_inj n j l j' l' : inside n j -> inside n l -> inside n j' -> inside n l' -> idx n j l = idx n j' l' -> j = j' /\ l = l'.
Proof.
  unfold inside, idx. intros H1 H2 H3 H4 E.
  assert (A : forall j l, inside n l -> ((j - 1) * (n - 1) + l - 1) / (n - 1) = j - 1 /\ ((j - 1) * (n - 1) + l - 1) mod (n - 1) = l - 1).
  { clear. unfold inside. intros a b H. assert (Eq : (a - 1) * (n - 1) + b - 1 = (b - 1) + (a - 1) * (n - 1)) by (set (q := (a - 1) * (n - 1)); lia). rewrite Eq.
    rewrite Nat.div_add, Nat.mod_add, Nat.div_small, Nat.mod_small by lia. lia. }
  destruct (A j l H2) as (A1 & A2). destruct (A j' l' H4) as (A3 & A4). rewrite E in A1, A2. lia.
Qed.
Lemma put_at n bs j l b j' l' : inside n j -> inside n l -> inside n j' -> inside n l' ->
  put_block bs (idx n j l) b (idx n j' l') = if (j' =? j) && (l' =? l) then Some b else bs (idx n j' l').
Proof.
  intros H1 H2 H3 H4. unfold put_block. destruct (Nat.eqb_spec (idx n j' l') (idx n j l)) as [E|E].
  - destruct (idx_inj n j' l' j l H3 H4 H1 H2 E) as (-> & ->). rewrite !Nat.eqb_refl. reflexivity.
  - destruct (Nat.eqb_spec j' j), (Nat.eqb_spec l' l); try reflexivity. subst. contradiction.
Qed.

Section Blocks.
Context (sps : pairs) (m n : nat) (f : nat -> nat -> Z * Z).
Let bl j l := shift_block m (fst (f j l)) (snd (f j l)).
Lemma inner_spec j cnt : forall l0 bs, inside n j -> j < l0 -> l0 + cnt <= n -> (forall l, l0 <= l < l0 + cnt -> sps j l = Some (f j l)) ->
  exists bs', oloop (inner_block sps m n j) (seq l0 cnt) bs = Done bs' /\
    forall j' l', inside n j' -> inside n l' -> bs' (idx n j' l') =
      if (j' =? j) && (l0 <=? l') && (l' <? l0 + cnt) then Some (bl j l')
      else if (l' =? j) && (l0 <=? j') && (j' <? l0 + cnt) then Some (minus_transpose (bl j j')) else bs (idx n j' l').
Proof.
  induction cnt as [|cnt IH]; intros l0 bs Hj Hl Hn Hs.
  - exists bs. split; [reflexivity|]. intros j' l' _ _.
    destruct (Nat.leb_spec l0 l'), (Nat.ltb_spec l' (l0 + 0)); try lia; rewrite ?andb_false_r; cbn [andb];
    destruct (Nat.leb_spec l0 j'), (Nat.ltb_spec j' (l0 + 0)); try lia; rewrite ?andb_false_r; reflexivity.
  - cbn [seq oloop]. unfold inner_block at 1. rewrite (Hs l0) by lia. unfold bl in *. destruct (f j l0) as [sp sm] eqn:Ef. cbn [bind].
    change ((j - 1) * (n - 1) + l0) with (idx n j l0). change ((l0 - 1) * (n - 1) + j) with (idx n l0 j).
    assert (Il : inside n l0) by (unfold inside in *; lia).
    destruct (IH (S l0) (put_block (put_block bs (idx n j l0) (shift_block m sp sm)) (idx n l0 j) (minus_transpose (shift_block m sp sm))) Hj ltac:(lia) ltac:(lia)) as (bs' & E & S).
    { intros l H. apply Hs. lia. }
    exists bs'. split; [exact E|]. intros j' l' Hj' Hl'. rewrite (S j' l' Hj' Hl'). rewrite !put_at by assumption.
    destruct (Nat.eqb_spec j' j) as [->|Nj]; cbn [andb].
    + destruct (Nat.eqb_spec j l0); [lia|]. cbn [andb]. destruct (Nat.leb_spec l0 l').
      * destruct (Nat.eqb_spec l' l0) as [->|N'].
        { destruct (Nat.leb_spec (Datatypes.S l0) l0); [lia|]. cbn [andb]. destruct (Nat.eqb_spec l0 j); [lia|]. cbn [andb].
          destruct (Nat.ltb_spec l0 (l0 + Datatypes.S cnt)); [|lia]. cbn [andb]. rewrite Ef. reflexivity. }
        destruct (Nat.leb_spec (Datatypes.S l0) l'); [|lia]. cbn [andb]. destruct (Nat.ltb_spec l' (Datatypes.S l0 + cnt)), (Nat.ltb_spec l' (l0 + Datatypes.S cnt)); try lia; cbn [andb]; [reflexivity|].
        destruct (Nat.eqb_spec l' j); [lia|]. reflexivity.
      * destruct (Nat.leb_spec (Datatypes.S l0) l'); [lia|]. cbn [andb]. destruct (Nat.eqb_spec l' l0); [lia|].
        destruct (Nat.leb_spec (Datatypes.S l0) j), (Nat.leb_spec l0 j); try lia. rewrite ?andb_false_r. reflexivity.
    + destruct (Nat.eqb_spec l' j) as [->|Nl]; cbn [andb].
      * destruct (Nat.eqb_spec j' l0) as [->|N'].
        { destruct (Nat.leb_spec (Datatypes.S l0) l0); [lia|]. cbn [andb]. destruct (Nat.leb_spec l0 l0); [|lia]. destruct (Nat.ltb_spec l0 (l0 + Datatypes.S cnt)); [|lia]. cbn [andb]. rewrite Ef. reflexivity. }
        destruct (Nat.leb_spec (Datatypes.S l0) j'), (Nat.leb_spec l0 j'); try lia; cbn [andb]; [|reflexivity].
        destruct (Nat.ltb_spec j' (Datatypes.S l0 + cnt)), (Nat.ltb_spec j' (l0 + Datatypes.S cnt)); try lia; reflexivity.
      * rewrite ?andb_false_r. reflexivity.
Qed.

Definition target (j l : nat) : block :=
  if j =? l then self_block m else if j <? l then bl j l else minus_transpose (bl l j).
Lemma outer_spec cnt : forall j0 bs, 1 <= j0 -> j0 + cnt <= n -> (forall j l, j0 <= j -> j < l < n -> sps j l = Some (f j l)) ->
  exists bs', oloop (outer_block sps m n) (seq j0 cnt) bs = Done bs' /\
    forall j l, inside n j -> inside n l -> bs' (idx n j l) =
      if (j0 <=? Nat.min j l) && (Nat.min j l <? j0 + cnt) then Some (target j l) else bs (idx n j l).
Proof.
  induction cnt as [|cnt IH]; intros j0 bs H0 Hn Hs.
  - exists bs. split; [reflexivity|]. intros j l _ _. destruct (Nat.leb_spec j0 (Nat.min j l)), (Nat.ltb_spec (Nat.min j l) (j0 + 0)); try lia; reflexivity.
  - cbn [seq oloop]. unfold outer_block at 1. assert (Ij : inside n j0) by (unfold inside; lia).
    replace ((j0 - 1) * n + 1) with (idx n j0 j0) by (unfold idx; nia).
    destruct (inner_spec j0 (n - 1 - j0) (j0 + 1) (put_block bs (idx n j0 j0) (self_block m)) Ij ltac:(lia) ltac:(lia)) as (b1 & E1 & S1).
    { intros l H. apply Hs; lia. }
    rewrite E1. cbn [bind]. destruct (IH (S j0) b1 ltac:(lia) ltac:(lia)) as (b2 & E2 & S2).
    { intros j l H. apply Hs. lia. }
    exists b2. split; [exact E2|]. intros j l Hj Hl. rewrite (S2 j l Hj Hl).
    destruct (Nat.leb_spec (S j0) (Nat.min j l)).
    + destruct (Nat.leb_spec j0 (Nat.min j l)); [|lia]. cbn [andb].
      destruct (Nat.ltb_spec (Nat.min j l) (S j0 + cnt)), (Nat.ltb_spec (Nat.min j l) (j0 + S cnt)); try lia; [reflexivity|].
      rewrite (S1 j l Hj Hl), put_at by assumption. destruct (Nat.eqb_spec j j0); [lia|]. destruct (Nat.eqb_spec l j0); [lia|]. reflexivity.
    + cbn [andb]. rewrite (S1 j l Hj Hl), put_at by assumption. unfold target. unfold inside in *.
      destruct (Nat.leb_spec j0 (Nat.min j l)).
      * destruct (Nat.ltb_spec (Nat.min j l) (j0 + S cnt)); [|lia]. cbn [andb].
        destruct (Nat.eqb_spec j j0) as [->|Nj]; cbn [andb].
        { destruct (Nat.eqb_spec l j0) as [->|Nl].
          - destruct (Nat.leb_spec (j0 + 1) j0); [lia|]. cbn [andb]. rewrite Nat.eqb_refl. reflexivity.
          - destruct (Nat.leb_spec (j0 + 1) l), (Nat.ltb_spec l (j0 + 1 + (n - 1 - j0))); try lia. cbn [andb].
            destruct (Nat.eqb_spec j0 l); [lia|]. destruct (Nat.ltb_spec j0 l); [reflexivity|lia]. }
        { assert (l = j0) by lia. subst l. rewrite Nat.eqb_refl. cbn [andb].
          destruct (Nat.leb_spec (j0 + 1) j), (Nat.ltb_spec j (j0 + 1 + (n - 1 - j0))); try lia. cbn [andb].
          destruct (Nat.eqb_spec j j0); [lia|]. destruct (Nat.ltb_spec j j0); [lia|reflexivity]. }
      * cbn [andb]. destruct (Nat.eqb_spec j j0) as [->|Nj]; cbn [andb].
        { destruct (Nat.leb_spec (j0 + 1) l); [lia|]. cbn [andb]. destruct (Nat.eqb_spec l j0); [lia|]. reflexivity. }
        { destruct (Nat.leb_spec (j0 + 1) j), (Nat.eqb_spec l j0); try lia; reflexivity. }
Qed.

(** the matrix: rows and columns in n-1 blocks of m-1 *)
Lemma matrix_spec : 2 <= m -> (forall j l, 1 <= j -> j < l < n -> sps j l = Some (f j l)) ->
  exists T, se_intersection_matrix sps m n = Done T /\ square ((n - 1) * (m - 1)) T /\
    forall k l u v, k < n - 1 -> l < n - 1 -> u < m - 1 -> v < m - 1 -> get T (k * (m - 1) + u) (l * (m - 1) + v) = target (k + 1) (l + 1) (u + 1) (v + 1).
Proof.
  intros Hm Hs. unfold se_intersection_matrix.
  destruct (Nat.eq_dec n 0) as [->|Nn].
  { exists []. split; [reflexivity|]. split; [split; [reflexivity|intros row []]|]. intros; lia. }
  destruct (outer_spec (n - 1) 1 (fun _ => None) ltac:(lia) ltac:(lia) Hs) as (bs & E & S). rewrite E. cbn [bind].
  assert (S' : forall j l, inside n j -> inside n l -> bs (idx n j l) = Some (target j l)).
  { intros j l Hj Hl. rewrite (S j l Hj Hl). unfold inside in *. destruct (Nat.leb_spec 1 (Nat.min j l)), (Nat.ltb_spec (Nat.min j l) (1 + (n - 1))); try lia. reflexivity. }
  unfold block_matrix. replace (forallb _ _) with true.
  2: { symmetry. apply forallb_forall. intros k Hk. apply in_seq in Hk.
    assert (Ek : k = idx n ((k - 1) / (n - 1) + 1) ((k - 1) mod (n - 1) + 1)).
    { unfold idx. pose proof (Nat.div_mod (k - 1) (n - 1) ltac:(nia)) as Dk. rewrite Nat.add_sub. rewrite (Nat.mul_comm (n - 1)) in Dk. revert Dk. generalize ((k - 1) / (n - 1) * (n - 1)), ((k - 1) mod (n - 1)). intros q r Dk. lia. }
    rewrite Ek, S'; [reflexivity| |].
    - unfold inside. assert (Hd : (k - 1) / (n - 1) < n - 1) by (apply Nat.div_lt_upper_bound; nia). revert Hd. generalize ((k - 1) / (n - 1)). intros; lia.
    - unfold inside. assert (Hd : (k - 1) mod (n - 1) < n - 1) by (apply Nat.mod_upper_bound; nia). revert Hd. generalize ((k - 1) mod (n - 1)). intros; lia. }
  eexists. split; [reflexivity|]. split.
  - split; [unfold tab; rewrite map_length, seq_length; reflexivity|]. intros row Hr. unfold tab in Hr. apply in_map_iff in Hr. destruct Hr as (i & <- & _). rewrite map_length, seq_length. reflexivity.
  - intros k l u v Hk Hl Hu Hv. rewrite get_tab.
    replace (k * (m - 1) + u) with (u + k * (m - 1)) by lia. replace (l * (m - 1) + v) with (v + l * (m - 1)) by lia.
    rewrite !Nat.div_add, !Nat.mod_add, !Nat.div_small, !Nat.mod_small by lia.
    replace ((0 + k) * (n - 1) + (0 + l) + 1) with (idx n (k + 1) (l + 1)) by (unfold idx; replace (k + 1 - 1) with k by lia; lia).
    rewrite S' by (unfold inside; lia).
    destruct (Nat.ltb_spec (u + k * (m - 1)) ((n - 1) * (m - 1))); [|nia]. destruct (Nat.ltb_spec (v + l * (m - 1)) ((n - 1) * (m - 1))); [|nia]. reflexivity.
Qed.
End Blocks.
