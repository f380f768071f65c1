From Verif Require Import Base ModelTree ModelInter SpecInter SpecTree ProofTree ProofTreeEx ProofInter.

Lemma one_mod m : 2 <= m -> 1 mod m <> 0 /\ (-1) mod m <> 0.
Proof.
  intros Hm. rewrite Z.mod_small by lia. split; [lia|].
  change (-1) with (- (1)). rewrite Z.mod_opp_l_nz; rewrite ?Z.mod_small by lia; lia.
Qed.

Definition kind (p : position) : incidence := match p with EndToStart => ABBD | _ => ABAD end.

Section Tree.
Context (shift : nat -> nat -> incidence -> outcome Z) (neg : nat -> nat -> bool) (s : nat -> nat -> Z).
Context (m : Z) (es : list edge).
Hypothesis Hm : 2 <= m.
Let n := length es.
Let e i := nth i es no_edge.
(** what shift_number answers on the pairs it is asked about *)
Hypothesis Hshift : forall k l, (k < l < n)%nat -> relative (neg k l) (e k) (e l) <> Apart ->
  shift k l (kind (relative (neg k l) (e k) (e l))) = Done (s k l).

Let I := intersection m es neg s.

Definition processed (k l : nat) (p q : nat) : bool :=
  (Nat.min p q <? k)%nat || ((Nat.min p q =? k)%nat && (Nat.max p q <? l)%nat).

Definition upto (k l : nat) (c : imat) : Prop :=
  isize c = Z.of_nat n * (m - 1) /\
  forall p q u v, (p < n)%nat -> (q < n)%nat -> 0 <= u < m - 1 -> 0 <= v < m - 1 ->
    at_ m c p q u v = if processed k l p q then I p q u v else 0.

Lemma I_upper p q u v : (p < q)%nat -> I p q u v = table m (relative (neg p q) (e p) (e q)) (s p q) (v - u).
Proof. intros H. unfold I, intersection. destruct (Nat.ltb_spec p q); [reflexivity|lia]. Qed.
Lemma I_lower p q u v : (q < p)%nat -> I p q u v = - table m (relative (neg q p) (e q) (e p)) (s q p) (u - v).
Proof. intros H. unfold I, intersection. destruct (Nat.ltb_spec p q); [lia|]. destruct (Nat.ltb_spec q p); [reflexivity|lia]. Qed.

Lemma pair_upto k l c : (k < l < n)%nat -> upto k l c ->
  exists c', pair_block shift neg c k l (e k) (e l) m = Done c' /\ upto k (S l) c'.
Proof.
  intros Hkl [Hn Hc].
  assert (Hfresh : forall u v, 0 <= u < m - 1 -> 0 <= v < m - 1 -> at_ m c k l u v = 0 /\ at_ m c l k u v = 0).
  { intros u v Hu Hv. rewrite !Hc by (try assumption; lia).
    assert (E1 : processed k l k l = false) by (unfold processed; lia).
    assert (E2 : processed k l l k = false) by (unfold processed; lia).
    rewrite E1, E2. split; reflexivity. }
  (* processed after the pair: the pair itself in addition *)
  assert (Hproc : forall p q, processed k (S l) p q = processed k l p q || ((p =? k) && (q =? l))%nat || ((p =? l) && (q =? k))%nat).
  { intros p q. unfold processed. lia. }
  assert (Hdone : forall sp sm, (sp - sm) mod m <> 0 ->
     (forall d, number m sp sm d = table m (relative (neg k l) (e k) (e l)) (s k l) d) ->
     exists c', fill_block c (Z.of_nat k * (m - 1)) (Z.of_nat l * (m - 1)) sp sm m = Done c' /\ upto k (S l) c').
  { intros sp sm Hd Htab. destruct (fill_block_off m n c k l sp sm Hm Hkl Hn Hd Hfresh) as (c' & E & Es & H).
    exists c'. split; [exact E|]. split; [congruence|]. intros p q u v Hp Hq Hu Hv. rewrite H by assumption. rewrite Hproc.
    destruct ((p =? k) && (q =? l))%nat eqn:E1.
    - assert (p = k /\ q = l) as [-> ->] by lia. rewrite orb_true_r. cbn [orb]. rewrite I_upper by lia. apply Htab.
    - destruct ((p =? l) && (q =? k))%nat eqn:E2.
      + assert (p = l /\ q = k) as [-> ->] by lia. rewrite orb_true_r. rewrite I_lower by lia. rewrite Htab. reflexivity.
      + rewrite !orb_false_r. apply Hc; assumption. }
  unfold pair_block. pose proof (Hshift k l Hkl) as Hs. destruct (one_mod m Hm) as [H1 H2].
  unfold relative in *.
  rewrite (Nat.eqb_sym (ea (e k))), (Nat.eqb_sym (eb (e k))).
  destruct (Nat.eqb_spec (ea (e l)) (ea (e k))) as [Ea|Ea]; cbn [negb andb].
  - cbn [kind] in Hs. rewrite Hs by discriminate. cbn [bind].
    destruct (neg k l).
    + apply Hdone; [|reflexivity]. replace (- s k l - (-1 - s k l)) with 1 by ring. exact H1.
    + apply Hdone; [|reflexivity]. replace (1 - s k l - - s k l) with 1 by ring. exact H1.
  - destruct (Nat.eqb_spec (ea (e l)) (eb (e k))) as [Eb|Eb]; cbn [negb].
    + cbn [kind] in Hs. rewrite Hs by discriminate. cbn [bind].
      apply Hdone; [|reflexivity]. replace (- s k l - (1 - s k l)) with (-1) by ring. exact H2.
    + exists c. split; [reflexivity|]. split; [exact Hn|]. intros p q u v Hp Hq Hu Hv. rewrite Hc by assumption. rewrite Hproc.
      destruct (processed k l p q) eqn:Epr; [reflexivity|]. cbn [orb].
      destruct ((p =? k) && (q =? l))%nat eqn:E1.
      * assert (p = k /\ q = l) as [-> ->] by lia. cbn [orb]. rewrite I_upper by lia. unfold relative.
        rewrite (proj2 (Nat.eqb_neq _ _) Ea), (proj2 (Nat.eqb_neq _ _) Eb). reflexivity.
      * destruct ((p =? l) && (q =? k))%nat eqn:E2; [|reflexivity].
        assert (p = l /\ q = k) as [-> ->] by lia. cbn [orb]. rewrite I_lower by lia. unfold relative.
        rewrite (proj2 (Nat.eqb_neq _ _) Ea), (proj2 (Nat.eqb_neq _ _) Eb). reflexivity.
Qed.

Lemma row_upto k : forall rest l c, (k < l)%nat -> skipn l es = rest -> upto k l c ->
  exists c', row_blocks shift neg c k l (e k) rest m = Done c' /\ upto k n c'.
Proof.
  induction rest as [|el rest IH]; intros l c Hkl Er Hc; cbn [row_blocks].
  - exists c. split; [reflexivity|].
    assert (Hln : (n <= l)%nat).
    { unfold n. pose proof (skipn_length l es) as H. rewrite Er in H. cbn in H. lia. }
    destruct Hc as [Hn Hc]. split; [exact Hn|]. intros p q u v Hp Hq Hu Hv. rewrite Hc by assumption.
    replace (processed k l p q) with (processed k n p q); [reflexivity|]. unfold processed. lia.
  - assert (Hln : (l < n)%nat).
    { unfold n. pose proof (skipn_length l es) as H. rewrite Er in H. cbn in H. lia. }
    assert (Eel : el = e l).
    { unfold e. rewrite <- (firstn_skipn l es) at 1. rewrite app_nth2; rewrite firstn_length; [|lia].
      rewrite Nat.min_l by (unfold n in Hln; lia). rewrite Nat.sub_diag, Er. reflexivity. }
    rewrite Eel. destruct (pair_upto k l c ltac:(lia) Hc) as (c1 & E1 & H1). rewrite E1. cbn [bind].
    apply IH; [lia| |exact H1].
    rewrite <- (firstn_skipn l es), skipn_app, Er.
    rewrite skipn_all2 by (rewrite firstn_length; lia). rewrite firstn_length.
    rewrite Nat.min_l by (unfold n in Hln; lia). replace (S l - l)%nat with 1%nat by lia. reflexivity.
Qed.

Lemma tree_upto : forall rest k c, skipn k es = rest -> upto k k c ->
  exists c', tree_blocks shift neg c k rest m = Done c' /\ upto n n c'.
Proof.
  induction rest as [|ek rest IH]; intros k c Er Hc; cbn [tree_blocks].
  - exists c. split; [reflexivity|].
    assert (Hkn : (n <= k)%nat).
    { unfold n. pose proof (skipn_length k es) as H. rewrite Er in H. cbn in H. lia. }
    destruct Hc as [Hn Hc]. split; [exact Hn|]. intros p q u v Hp Hq Hu Hv. rewrite Hc by assumption.
    replace (processed k k p q) with (processed n n p q); [reflexivity|]. unfold processed. lia.
  - assert (Hkn : (k < n)%nat).
    { unfold n. pose proof (skipn_length k es) as H. rewrite Er in H. cbn in H. lia. }
    assert (Eek : ek = e k).
    { unfold e. rewrite <- (firstn_skipn k es) at 1. rewrite app_nth2; rewrite firstn_length; [|lia].
      rewrite Nat.min_l by (unfold n in Hkn; lia). rewrite Nat.sub_diag, Er. reflexivity. }
    assert (Er' : skipn (S k) es = rest).
    { rewrite <- (firstn_skipn k es), skipn_app, Er.
      rewrite skipn_all2 by (rewrite firstn_length; lia). rewrite firstn_length.
      rewrite Nat.min_l by (unfold n in Hkn; lia). replace (S k - k)%nat with 1%nat by lia. reflexivity. }
    destruct Hc as [Hn Hc].
    destruct (fill_block_self m n c k Hm Hkn Hn) as (c1 & E1 & Es1 & H1).
    { intros u v Hu Hv. rewrite Hc by assumption.
      assert (E : processed k k k k = false) by (unfold processed; lia). rewrite E. reflexivity. }
    rewrite E1. cbn [bind].
    assert (Hup : upto k (S k) c1).
    { split; [congruence|]. intros p q u v Hp Hq Hu Hv. rewrite H1 by assumption.
      destruct ((p =? k) && (q =? k))%nat eqn:E.
      - assert (p = k /\ q = k) as [-> ->] by lia.
        assert (Ep : processed k (S k) k k = true) by (unfold processed; lia). rewrite Ep.
        unfold I, intersection. rewrite !Nat.ltb_irrefl. reflexivity.
      - rewrite Hc by assumption. replace (processed k (S k) p q) with (processed k k p q); [reflexivity|].
        unfold processed. lia. }
    rewrite Eek. destruct (row_upto k rest (S k) c1 ltac:(lia) Er' Hup) as (c2 & E2 & H2).
    rewrite E2. cbn [bind]. apply (IH (S k) c2 Er').
    destruct H2 as [Hn2 H2]. split; [exact Hn2|]. intros p q u v Hp Hq Hu Hv. rewrite H2 by assumption.
    replace (processed (S k) (S k) p q) with (processed k n p q); [reflexivity|]. unfold processed. lia.
Qed.

Lemma intersection_tree_spec : exists c, intersection_tree shift neg es m = Done c /\
  isize c = Z.of_nat n * (m - 1) /\
  forall p q u v, (p < n)%nat -> (q < n)%nat -> 0 <= u < m - 1 -> 0 <= v < m - 1 -> at_ m c p q u v = I p q u v.
Proof.
  unfold intersection_tree.
  destruct (tree_upto es 0 {| isize := Z.of_nat (length es) * (m - 1); cell := fun _ _ => 0 |} eq_refl) as (c & E & Hn & H).
  { split; [reflexivity|]. intros p q u v _ _ _ _. unfold at_. cbn [cell].
    assert (Ep : processed 0 0 p q = false) by (unfold processed; lia). rewrite Ep. reflexivity. }
  exists c. conj; [exact E|exact Hn|]. intros p q u v Hp Hq Hu Hv. rewrite H by assumption.
  assert (Ep : processed n n p q = true) by (unfold processed; lia). rewrite Ep. reflexivity.
Qed.
End Tree.

(** ** properties of the closed form *)
Lemma number_range m sp sm d : number m sp sm d = -1 \/ number m sp sm d = 0 \/ number m sp sm d = 1.
Proof. unfold number. destruct (_ =? _); [auto|]. destruct (_ =? _); auto. Qed.
Lemma table_range m p s d : table m p s d = -1 \/ table m p s d = 0 \/ table m p s d = 1.
Proof. destruct p as [|[|]|]; cbn [table]; try apply number_range. auto. Qed.
Lemma intersection_range m es neg s k l u v :
  -1 <= intersection m es neg s k l u v <= 1.
Proof.
  unfold intersection. destruct (k <? l)%nat; [|destruct (l <? k)%nat].
  - destruct (table_range m (relative (neg k l) (nth k es no_edge) (nth l es no_edge)) (s k l) (v - u)) as [H|[H|H]]; lia.
  - destruct (table_range m (relative (neg l k) (nth l es no_edge) (nth k es no_edge)) (s l k) (u - v)) as [H|[H|H]]; lia.
  - destruct (number_range m 1 (-1) (v - u)) as [H|[H|H]]; lia.
Qed.

Lemma intersection_antisym m es neg s k l u v : 2 <= m -> 0 <= u < m - 1 -> 0 <= v < m - 1 ->
  intersection m es neg s l k v u = - intersection m es neg s k l u v.
Proof.
  intros Hm Hu Hv. unfold intersection.
  destruct (Nat.ltb_spec k l), (Nat.ltb_spec l k); try lia; try reflexivity.
  destruct (Z.eq_dec m 2) as [->|].
  - assert (u = 0) by lia. assert (v = 0) by lia. subst. reflexivity.
  - replace (u - v) with (- (v - u)) by ring. apply number_self. lia.
Qed.

(** deck transformations *)
Lemma number_shift m sp sm d d' : 0 < m -> (d - d') mod m = 0 -> number m sp sm d = number m sp sm d'.
Proof.
  intros Hm H. unfold number. apply mod_zero_eq in H; [|exact Hm].
  assert (E : forall x, (d - x) mod m = (d' - x) mod m).
  { intros x. rewrite Zminus_mod, H, <- Zminus_mod. reflexivity. }
  rewrite !E. reflexivity.
Qed.
Lemma table_shift m p s d d' : 0 < m -> (d - d') mod m = 0 -> table m p s d = table m p s d'.
Proof. intros Hm H. destruct p as [|[|]|]; cbn [table]; try (apply number_shift; assumption). reflexivity. Qed.
Lemma intersection_shift m es neg s k l u v u' v' : 0 < m -> (v - u - (v' - u')) mod m = 0 ->
  intersection m es neg s k l u v = intersection m es neg s k l u' v'.
Proof.
  intros Hm H. unfold intersection. destruct (k <? l)%nat; [|destruct (l <? k)%nat].
  - apply table_shift; assumption.
  - f_equal. apply table_shift; [exact Hm|]. replace (u - v - (u' - v')) with (- (v - u - (v' - u'))) by ring.
    apply Z.mod_opp_l_z; [lia|exact H].
  - apply number_shift; assumption.
Qed.

(** incident edges of a growing list *)
Lemma growing_incident es k l x y : growing es -> (k < l)%nat -> nth_error es k = Some x -> nth_error es l = Some y ->
  (incident x y <-> ea y = ea x \/ ea y = eb x).
Proof.
  intros Hg Hkl Ex Ey. destruct (nth_error_split es l Ey) as (l1 & l2 & E & Hl).
  destruct (Hg l1 y l2 E) as (_ & Hb & _).
  assert (Hx : In x l1).
  { rewrite E in Ex. rewrite nth_error_app1 in Ex by lia. eapply nth_error_In, Ex. }
  unfold incident. split; [|intros [H|H]; auto].
  intros [H|[H|[H|H]]]; auto; exfalso; apply Hb; exists x; auto.
Qed.

(** ** which oracle answers a returning run has seen *)
Section Returns.
Context (shift : nat -> nat -> incidence -> outcome Z) (neg : nat -> nat -> bool).
Context (m : Z).

Definition answered (k l : nat) (ek el : edge) : Prop :=
  relative (neg k l) ek el <> Apart -> exists z, shift k l (kind (relative (neg k l) ek el)) = Done z.

Lemma pair_answered c k l ek el c' : pair_block shift neg c k l ek el m = Done c' -> answered k l ek el.
Proof.
  unfold pair_block, answered, relative. rewrite (Nat.eqb_sym (ea ek)), (Nat.eqb_sym (eb ek)).
  destruct (ea el =? ea ek)%nat; cbn [negb andb kind].
  - destruct (shift k l ABAD) as [z| | |]; cbn [bind]; intros H _; try discriminate. exists z. reflexivity.
  - destruct (ea el =? eb ek)%nat; cbn [negb kind].
    + destruct (shift k l ABBD) as [z| | |]; cbn [bind]; intros H _; try discriminate. exists z. reflexivity.
    + intros _ H. contradiction.
Qed.

Lemma row_answered k ek : forall rest l c c', row_blocks shift neg c k l ek rest m = Done c' ->
  forall i el, nth_error rest i = Some el -> answered k (l + i) ek el.
Proof.
  induction rest as [|el rest IH]; intros l c c' H i x Hi; [destruct i; discriminate|].
  cbn [row_blocks] in H. destruct (pair_block shift neg c k l ek el m) as [c1| | |] eqn:E; try discriminate. cbn [bind] in H.
  destruct i as [|i]; cbn in Hi.
  - injection Hi as <-. rewrite Nat.add_0_r. eapply pair_answered, E.
  - replace (l + S i)%nat with (S l + i)%nat by lia. eapply IH; eassumption.
Qed.

Lemma tree_answered : forall es k c c', tree_blocks shift neg c k es m = Done c' ->
  forall i j ek el, (i < j)%nat -> nth_error es i = Some ek -> nth_error es j = Some el -> answered (k + i) (k + j) ek el.
Proof.
  induction es as [|e0 es IH]; intros k c c' H i j ek el Hij Hi Hj; [destruct i; discriminate|].
  cbn [tree_blocks] in H.
  destruct (fill_block _ _ _ _ _ _) as [c1| | |]; try discriminate. cbn [bind] in H.
  destruct (row_blocks shift neg c1 k (S k) e0 es m) as [c2| | |] eqn:E; try discriminate. cbn [bind] in H.
  destruct j as [|j]; [lia|]. cbn in Hj. destruct i as [|i]; cbn in Hi.
  - injection Hi as <-. rewrite Nat.add_0_r. replace (k + S j)%nat with (S k + j)%nat by lia. eapply row_answered; eassumption.
  - replace (k + S i)%nat with (S k + i)%nat by lia. replace (k + S j)%nat with (S k + j)%nat by lia.
    eapply IH; try eassumption. lia.
Qed.
End Returns.

(** the sheet number the oracle gives for a pair *)
Definition sheet (shift : nat -> nat -> incidence -> outcome Z) (neg : nat -> nat -> bool) (es : list edge) (k l : nat) : Z :=
  match shift k l (kind (relative (neg k l) (nth k es no_edge) (nth l es no_edge))) with Done z => z | _ => 0 end.

Lemma returned_spec shift neg es m c : 2 <= m -> intersection_tree shift neg es m = Done c ->
  isize c = Z.of_nat (length es) * (m - 1) /\
  forall p q u v, (p < length es)%nat -> (q < length es)%nat -> 0 <= u < m - 1 -> 0 <= v < m - 1 ->
    cell c (Z.of_nat p * (m - 1) + u) (Z.of_nat q * (m - 1) + v) = intersection m es neg (sheet shift neg es) p q u v.
Proof.
  intros Hm E. destruct (intersection_tree_spec shift neg (sheet shift neg es) m es Hm) as (c' & E' & Hs & H).
  - intros k l Hkl Hr.
    assert (Ek : nth_error es k = Some (nth k es no_edge)) by (apply nth_error_nth'; lia).
    assert (El : nth_error es l = Some (nth l es no_edge)) by (apply nth_error_nth'; lia).
    unfold intersection_tree in E.
    destruct (tree_answered shift neg m es 0 _ _ E k l _ _ (proj1 Hkl) Ek El Hr) as [z Hz].
    cbn [Nat.add] in Hz. unfold sheet. rewrite Hz. reflexivity.
  - rewrite E in E'. injection E' as <-. split; [exact Hs|exact H].
Qed.

Lemma decode m n x : 2 <= m -> 0 <= x < Z.of_nat n * (m - 1) ->
  exists k u, (k < n)%nat /\ 0 <= u < m - 1 /\ x = Z.of_nat k * (m - 1) + u.
Proof.
  intros Hm Hx. exists (Z.to_nat (x / (m - 1))), (x mod (m - 1)).
  assert (Hq : 0 <= x / (m - 1) < Z.of_nat n).
  { split; [apply Z.div_pos; lia|]. apply Z.div_lt_upper_bound; lia. }
  conj; try (apply Z.mod_pos_bound; lia); [lia|].
  rewrite Z2Nat.id by lia. pose proof (Z.div_mod x (m - 1)). lia.
Qed.

Lemma returned_antisym shift neg es m c : 2 <= m -> intersection_tree shift neg es m = Done c ->
  isize c = Z.of_nat (length es) * (m - 1) /\
  forall x y, 0 <= x < isize c -> 0 <= y < isize c ->
    cell c y x = - cell c x y /\ -1 <= cell c x y <= 1.
Proof.
  intros Hm E. destruct (returned_spec _ _ _ _ _ Hm E) as [Hs H]. split; [exact Hs|].
  rewrite Hs. intros x y Hx Hy.
  destruct (decode m _ x Hm Hx) as (k & u & Hk & Hu & ->). destruct (decode m _ y Hm Hy) as (l & v & Hl & Hv & ->).
  rewrite !H by assumption. split; [apply intersection_antisym; assumption|apply intersection_range].
Qed.

(** ** the oracle may abort: then the run aborts, and nothing else can go wrong *)
Section Abort.
Context (shift : nat -> nat -> incidence -> outcome Z) (neg : nat -> nat -> bool) (m : Z).
Definition patched k l t : outcome Z := match shift k l t with Done z => Done z | _ => Done 0 end.
Hypothesis Hok : forall k l t, shift k l t = Abort \/ exists z, shift k l t = Done z.

Lemma pair_patched c k l ek el : pair_block shift neg c k l ek el m = Abort \/
  pair_block shift neg c k l ek el m = pair_block patched neg c k l ek el m.
Proof using Hok.
  unfold pair_block, patched.
  destruct (negb (ea ek =? ea el)%nat && negb (eb ek =? ea el)%nat); [auto|].
  destruct (ea el =? ea ek)%nat.
  - destruct (Hok k l ABAD) as [E|[z E]]; rewrite E; cbn [bind]; auto.
  - destruct (ea el =? eb ek)%nat; [|auto]. destruct (Hok k l ABBD) as [E|[z E]]; rewrite E; cbn [bind]; auto.
Qed.
Lemma row_patched k ek : forall rest l c, row_blocks shift neg c k l ek rest m = Abort \/
  row_blocks shift neg c k l ek rest m = row_blocks patched neg c k l ek rest m.
Proof using Hok.
  induction rest as [|el rest IH]; intros l c; cbn [row_blocks]; [auto|].
  destruct (pair_patched c k l ek el) as [E|E]; rewrite E; [left; reflexivity|].
  destruct (pair_block patched neg c k l ek el m); cbn [bind]; auto.
Qed.
Lemma tree_patched : forall es k c, tree_blocks shift neg c k es m = Abort \/
  tree_blocks shift neg c k es m = tree_blocks patched neg c k es m.
Proof using Hok.
  induction es as [|e0 es IH]; intros k c; cbn [tree_blocks]; [auto|].
  destruct (fill_block _ _ _ _ _ _) as [c1| | |]; cbn [bind]; auto.
  destruct (row_patched k e0 es (S k) c1) as [E|E]; rewrite E; [left; reflexivity|].
  destruct (row_blocks patched neg c1 k (S k) e0 es m); cbn [bind]; auto.
Qed.
Lemma tree_no_fault es : 2 <= m -> intersection_tree shift neg es m = Abort \/ exists c, intersection_tree shift neg es m = Done c.
Proof using Hok.
  intros Hm. unfold intersection_tree.
  match goal with |- tree_blocks _ _ ?c _ _ _ = _ \/ _ => destruct (tree_patched es 0 c) as [E|E]; [left; exact E|right; rewrite E] end.
  destruct (intersection_tree_spec patched neg (sheet patched neg es) m es Hm) as (c & E' & _).
  - intros k l Hkl Hr. unfold sheet, patched. destruct (shift k l _); reflexivity.
  - exists c. exact E'.
Qed.
End Abort.

(** ** every incident pair meets *)
Lemma table_meets m p s : 2 <= m -> p <> Apart -> exists d, table m p s d <> 0.
Proof.
  intros Hm Hp. assert (forall a b, number m a b a <> 0).
  { intros a b. unfold number. rewrite Z.sub_diag, Z.mod_0_l by lia. discriminate. }
  destruct p as [|[|]|]; [contradiction|eexists; cbn [table]; apply H..].
Qed.

Lemma number_cases m sp sm d : 2 <= m -> (sp - sm) mod m <> 0 ->
  (number m sp sm d = 1 <-> (d - sp) mod m = 0) /\ (number m sp sm d = -1 <-> (d - sm) mod m = 0).
Proof.
  intros Hm Hd. unfold number. destruct (Z.eqb_spec ((d - sp) mod m) 0) as [E|E].
  - split; [lia|]. split; [lia|]. intros E'. exfalso. apply Hd. apply mod_zero_eq; [lia|].
    apply mod_zero_eq in E; [|lia]. apply mod_zero_eq in E'; [|lia]. congruence.
  - destruct (Z.eqb_spec ((d - sm) mod m) 0); lia.
Qed.

Lemma table_final shift neg es m c : 2 <= m -> intersection_tree shift neg es m = Done c ->
  forall k l ek el u v, (k < l)%nat -> nth_error es k = Some ek -> nth_error es l = Some el ->
    0 <= u < m - 1 -> 0 <= v < m - 1 ->
    let entry := cell c (Z.of_nat k * (m - 1) + u) (Z.of_nat l * (m - 1) + v) in
    let is sp sm := (entry = 1 <-> (v - u - sp) mod m = 0) /\ (entry = -1 <-> (v - u - sm) mod m = 0) in
    (ea el = ea ek -> exists s, shift k l ABAD = Done s /\
       (if neg k l then is (- s) (-1 - s) else is (1 - s) (- s))) /\
    (ea el <> ea ek -> ea el = eb ek -> exists s, shift k l ABBD = Done s /\ is (- s) (1 - s)) /\
    (ea el <> ea ek -> ea el <> eb ek -> entry = 0).
Proof.
  intros Hm E k l ek el u v Hkl Ek El Hu Hv. cbn zeta.
  assert (Hk : (k < length es)%nat) by (apply nth_error_Some; congruence).
  assert (Hl : (l < length es)%nat) by (apply nth_error_Some; congruence).
  destruct (returned_spec _ _ _ _ _ Hm E) as [_ H]. rewrite !(H k l u v Hk Hl Hu Hv). clear H.
  unfold intersection. rewrite (proj2 (Nat.ltb_lt k l) Hkl).
  unfold intersection_tree in E.
  pose proof (tree_answered shift neg m es 0 _ _ E k l _ _ Hkl Ek El) as Ha. cbn [Nat.add] in Ha. unfold answered in Ha.
  unfold sheet. rewrite (nth_error_nth es k no_edge Ek), (nth_error_nth es l no_edge El).
  unfold relative in *. destruct (one_mod m Hm) as [H1 H2].
  destruct (Nat.eqb_spec (ea el) (ea ek)) as [Ea|Ea].
  - conj; try (intros; contradiction). intros _. cbn [kind] in *. destruct Ha as [z Hz]; [discriminate|].
    exists z. split; [exact Hz|]. rewrite Hz. destruct (neg k l); cbn [table]; apply number_cases; try assumption.
    + replace (- z - (-1 - z)) with 1 by ring. exact H1.
    + replace (1 - z - - z) with 1 by ring. exact H1.
  - conj; try (intros; contradiction).
    + intros _ Eb. rewrite (proj2 (Nat.eqb_eq _ _) Eb) in *. cbn [kind] in *. destruct Ha as [z Hz]; [discriminate|].
      exists z. split; [exact Hz|]. rewrite Hz. cbn [table]. apply number_cases; [exact Hm|].
      replace (- z - (1 - z)) with (-1) by ring. exact H2.
    + intros _ Eb. rewrite (proj2 (Nat.eqb_neq _ _) Eb). reflexivity.
Qed.

Lemma self_final shift neg es m c : 3 <= m -> intersection_tree shift neg es m = Done c ->
  forall k u v, (k < length es)%nat -> 0 <= u < m - 1 -> 0 <= v < m - 1 ->
    let entry := cell c (Z.of_nat k * (m - 1) + u) (Z.of_nat k * (m - 1) + v) in
    (entry = 1 <-> v = u + 1) /\ (entry = -1 <-> u = v + 1).
Proof.
  intros Hm E k u v Hk Hu Hv. cbn zeta. destruct (returned_spec shift neg es m c ltac:(lia) E) as [_ H].
  rewrite !(H k k u v Hk Hk Hu Hv). unfold intersection. rewrite !Nat.ltb_irrefl.
  destruct (number_cases m 1 (-1) (v - u) ltac:(lia)) as [H1 H2].
  { rewrite Z.mod_small by lia. lia. }
  assert (Hz : forall x, - m < x < m -> x mod m = 0 <-> x = 0).
  { intros x Hx. split; [|intros ->; apply Z.mod_0_l; lia]. intros Hx0. apply Z.mod_divide in Hx0; [|lia].
    destruct Hx0 as [q Hq]. destruct (Z.eq_dec q 0) as [->|]; [lia|].
    assert (q <= -1 \/ 1 <= q) as [Hq'|Hq'] by lia.
    - assert (q * m <= -1 * m) by (apply Z.mul_le_mono_nonneg_r; lia). lia.
    - assert (1 * m <= q * m) by (apply Z.mul_le_mono_nonneg_r; lia). lia. }
  rewrite H1, H2. rewrite !Hz by lia. lia.
Qed.

Lemma no_rejected_final shift neg es m : 2 <= m -> (forall k l t, exists z, shift k l t = Done z) ->
  exists c, intersection_tree shift neg es m = Done c.
Proof.
  intros Hm Hok. destruct (intersection_tree_spec shift neg (sheet shift neg es) m es Hm) as (c & E & _).
  - intros k l _ _. unfold sheet. destruct (Hok k l (kind (relative (neg k l) (nth k es no_edge) (nth l es no_edge)))) as [z ->]. reflexivity.
  - exists c. exact E.
Qed.

Lemma incident_final sort param len n r mn es r' mn' shift neg m c : (forall l, Permutation l (sort l)) -> (n < len)%nat ->
  spanning_tree sort param len n r mn = Done (es, r', mn') -> 2 <= m ->
  intersection_tree shift neg es m = Done c ->
  forall k l ek el, (k < l)%nat -> nth_error es k = Some ek -> nth_error es l = Some el -> incident ek el ->
    exists s, (ea el = ea ek /\ shift k l ABAD = Done s) \/ (ea el = eb ek /\ shift k l ABBD = Done s).
Proof.
  intros Hs Hn Et Hm E k l ek el Hkl Ek El Hi.
  destruct (tree_final sort param len n r mn Hs Hn) as (l0 & r0 & mn0 & Et' & _ & Hg & _).
  rewrite Et in Et'. injection Et' as <- <- <-.
  unfold intersection_tree in E.
  pose proof (tree_answered shift neg m es 0 _ _ E k l _ _ Hkl Ek El) as Ha. cbn [Nat.add] in Ha. unfold answered, relative in Ha.
  destruct (Nat.eqb_spec (ea el) (ea ek)) as [Ea|Ea].
  - destruct Ha as [z Hz]; [discriminate|]. exists z. left. auto.
  - destruct (proj1 (growing_incident es k l ek el Hg Hkl Ek El) Hi) as [Ea'|Eb]; [contradiction|].
    rewrite (proj2 (Nat.eqb_eq _ _) Eb) in Ha. destruct Ha as [z Hz]; [discriminate|]. exists z. right. auto.
Qed.
