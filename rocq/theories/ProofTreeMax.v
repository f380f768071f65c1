From Verif Require Import Base ModelTree SpecTree ProofTree.

(** ** vertices of a growing list *)
Definition verts (l : list edge) : list nat :=
  match l with [] => [] | x :: _ => ea x :: map eb l end.

Lemma verts_snoc l x : l <> [] -> verts (l ++ [x]) = verts l ++ [eb x].
Proof. destruct l as [|y l]; [intros H; contradiction|]. intros _. cbn. rewrite map_app. reflexivity. Qed.

Lemma growing_verts l : growing l -> NoDup (verts l) /\ (forall v, touched l v <-> In v (verts l)).
Proof.
  induction l as [|x l IH] using rev_ind; intros Hg.
  - split; [constructor|]. intros v. split; [intros H; destruct (touched_nil _ H)|intros []].
  - apply growing_snoc in Hg. destruct Hg as (Hg & Hne & Hb & Ha). destruct (IH Hg) as [Hnd Ht].
    destruct l as [|y l].
    + cbn. split.
      * constructor; [intros [H|[]]; congruence|constructor; [intros []|constructor]].
      * intros v. rewrite touched_one. split; [intros [H|H]; auto|intros [H|[H|[]]]; auto].
    + rewrite verts_snoc by discriminate. split.
      * assert (Hn : ~ In (eb x) (verts (y :: l))) by (rewrite <- Ht; exact Hb).
        apply (Permutation_NoDup (l := eb x :: verts (y :: l))); [|constructor; assumption].
        apply Permutation_cons_append.
      * intros v. rewrite touched_app, touched_one, in_app_iff, Ht. cbn [In].
        specialize (Ha ltac:(discriminate)). rewrite Ht in Ha. clear - Ha.
        split; [intros [H|[->|H]]; auto|intros [H|[H|[]]]; auto].
Qed.

Lemma growing_spans l len : growing l -> (forall v, touched l v -> (v < len)%nat) -> S (length l) = len -> l <> [] ->
  forall v, (v < len)%nat -> touched l v.
Proof.
  intros Hg Hr Hl Hne v Hv. destruct (growing_verts l Hg) as [Hnd Ht]. rewrite Ht.
  assert (Hinc : incl (seq 0 len) (verts l)).
  { apply NoDup_length_incl; [exact Hnd| |].
    - rewrite seq_length. destruct l as [|x l]; [contradiction|]. cbn in *. rewrite map_length. lia.
    - intros u Hu. apply in_seq. apply Ht, Hr in Hu. lia. }
  apply Hinc, in_seq. lia.
Qed.

(** ** maximality *)
Definition heavy_edge (w : Z) (y : edge) : Prop := exists z, er y = Some z /\ w <= z.
Lemma in_heavy w l y : In y (heavy w l) <-> In y l /\ heavy_edge w y.
Proof.
  unfold heavy. rewrite filter_In. unfold heavy_edge. split.
  - intros [H1 H2]. split; [exact H1|]. destruct (er y) as [z|]; [|discriminate]. exists z. split; [reflexivity|lia].
  - intros [H1 (z & -> & H2)]. split; [exact H1|]. lia.
Qed.

Lemma heavy_app w l x u v : linked (heavy w l) u v -> linked (heavy w (l ++ [x])) u v.
Proof.
  apply linked_incl. intros y Hy. apply in_heavy. apply in_heavy in Hy. destruct Hy.
  split; [apply in_app_iff; left; assumption|assumption].
Qed.

Lemma prim_invariant len w e0 : complete len e0 -> (forall y, In y e0 -> is_number (er y)) -> forall l, l <> [] ->
  growing l -> greedy e0 l -> (forall x, In x l -> exists y, In y e0 /\ same y x) ->
  exists block : nat -> Prop,
    (forall y, In y e0 -> heavy_edge w y -> touched l (ea y) -> ~ touched l (eb y) -> block (ea y)) /\
    (forall y, In y e0 -> heavy_edge w y -> touched l (eb y) -> ~ touched l (ea y) -> block (eb y)) /\
    (forall u v, block u -> block v -> linked (heavy w l) u v) /\
    (forall y, In y e0 -> heavy_edge w y -> touched l (ea y) -> touched l (eb y) -> linked (heavy w l) (ea y) (eb y)).
Proof.
  intros [Hc _] Hnum. induction l as [|x l IH] using rev_ind; intros Hne Hg Hgr Hfr; [contradiction|clear Hne].
  assert (Hxl : In x (l ++ [x])) by (apply in_app_iff; right; left; reflexivity).
  destruct (Hfr x Hxl) as (x0 & Hx0 & [Er0 Hs0]).
  assert (Hxnum : exists zx, er x = Some zx).
  { rewrite <- Er0. specialize (Hnum x0 Hx0). unfold is_number in Hnum. destruct (er x0) as [z|]; [exists z; reflexivity|congruence]. }
  destruct Hxnum as (zx & Ezx).
  assert (Hbest : forall y z, In y e0 -> er y = Some z -> (l = [] \/ crosses l y) -> z <= zx).
  { intros y z Hy Ez Hcr. pose proof (Hgr l x [] eq_refl y Hy Hcr) as H. rewrite Ezx, Ez in H. cbn in H. lia. }
  apply growing_snoc in Hg. destruct Hg as (Hg & Hab & Hb & Ha).
  assert (Hxh : w <= zx -> linked (heavy w (l ++ [x])) (ea x) (eb x)).
  { intros Hw. apply (linked_one _ x); [apply in_heavy; split; [exact Hxl|exists zx; auto]|left; auto]. }
  destruct l as [|x1 l1].
  - (* first edge *)
    destruct (Z.le_gt_cases w zx) as [Hw|Hw].
    + exists (fun v => v = ea x \/ v = eb x). cbn [app] in *. conj.
      * intros y Hy _ Ht _. apply touched_one in Ht. exact Ht.
      * intros y Hy _ Ht _. apply touched_one in Ht. exact Ht.
      * specialize (Hxh Hw). pose proof (linked_sym _ _ _ Hxh).
        intros u v [->| ->] [->| ->]; try apply linked_refl; assumption.
      * specialize (Hxh Hw). pose proof (linked_sym _ _ _ Hxh).
        intros y Hy _ H1 H2. apply touched_one in H1, H2.
        destruct H1 as [->| ->], H2 as [->| ->]; try apply linked_refl; assumption.
    + exists (fun _ => False).
      assert (Hno : forall y, In y e0 -> ~ heavy_edge w y).
      { intros y Hy (z & Ez & Hz). pose proof (Hbest y z Hy Ez (or_introl eq_refl)). lia. }
      conj; try (intros y Hy Hh; destruct (Hno y Hy Hh)). intros u v [].
  - set (l := x1 :: l1) in *.
    assert (Hl : l <> []) by discriminate. specialize (Ha Hl).
    destruct (IH Hl Hg) as (block & I1 & I1' & I2 & I3).
    { intros a y b E. apply (Hgr a y (b ++ [x])). rewrite E, <- app_assoc. reflexivity. }
    { intros y Hy. apply Hfr. apply in_app_iff. left. exact Hy. }
    assert (Hsnoc : forall v, touched (l ++ [x]) v <-> touched l v \/ v = eb x).
    { intros v. rewrite touched_app, touched_one. split; [|tauto]. intros [H|[->|H]]; auto. }
    (* x itself crosses l *)
    assert (Hblocka : w <= zx -> block (ea x)).
    { intros Hw. assert (heavy_edge w x0) by (exists zx; split; [congruence|exact Hw]).
      destruct Hs0 as [[E1 E2]|[E1 E2]].
      - rewrite <- E1. apply I1; try assumption; rewrite ?E1, ?E2; assumption.
      - rewrite <- E2. apply I1'; try assumption; rewrite ?E1, ?E2; assumption. }
    destruct (Z.le_gt_cases w zx) as [Hw|Hw].
    + specialize (Hblocka Hw). specialize (Hxh Hw).
      assert (J : forall u, block u -> linked (heavy w (l ++ [x])) u (eb x)).
      { intros u Hu. eapply linked_trans; [apply heavy_app, (I2 u (ea x) Hu Hblocka)|exact Hxh]. }
      exists (fun v => block v \/ v = eb x). conj.
      * intros y Hy Hh H1 H2. rewrite Hsnoc in H1, H2. destruct H1 as [H1|H1]; [left; apply I1; tauto|right; exact H1].
      * intros y Hy Hh H1 H2. rewrite Hsnoc in H1, H2. destruct H1 as [H1|H1]; [left; apply I1'; tauto|right; exact H1].
      * intros u v [Hu|Hu] [Hv|Hv].
        -- apply heavy_app, I2; assumption.
        -- subst v. apply J, Hu.
        -- subst u. apply linked_sym, J, Hv.
        -- subst. apply linked_refl.
      * intros y Hy Hh H1 H2. rewrite Hsnoc in H1, H2. destruct H1 as [H1|H1], H2 as [H2|H2].
        -- apply heavy_app, I3; assumption.
        -- rewrite H2. apply J, I1; try assumption. rewrite H2. exact Hb.
        -- rewrite H1. apply linked_sym, J, I1'; try assumption. rewrite H1. exact Hb.
        -- destruct (Hc y Hy) as (_ & _ & Hn). congruence.
    + assert (Hno : forall y, In y e0 -> heavy_edge w y -> ~ crosses l y).
      { intros y Hy (z & Ez & Hz) Hcr. pose proof (Hbest y z Hy Ez (or_intror Hcr)). lia. }
      exists (fun v => v = eb x). conj.
      * intros y Hy Hh H1 H2. rewrite Hsnoc in H1, H2. destruct H1 as [H1|H1]; [|exact H1].
        destruct (Hno y Hy Hh). left. tauto.
      * intros y Hy Hh H1 H2. rewrite Hsnoc in H1, H2. destruct H1 as [H1|H1]; [|exact H1].
        destruct (Hno y Hy Hh). right. tauto.
      * intros u v -> ->. apply linked_refl.
      * intros y Hy Hh H1 H2. rewrite Hsnoc in H1, H2. destruct H1 as [H1|H1], H2 as [H2|H2].
        -- apply heavy_app, I3; assumption.
        -- destruct (Hno y Hy Hh). left. rewrite H2. split; assumption.
        -- destruct (Hno y Hy Hh). right. rewrite H1. split; assumption.
        -- destruct (Hc y Hy) as (_ & _ & Hn). congruence.
Qed.

Lemma touched_dec l v : touched l v \/ ~ touched l v.
Proof.
  induction l as [|x l IH]; [right; apply touched_nil|].
  destruct (Nat.eq_dec (ea x) v) as [H|H]; [left; exists x; split; [left; reflexivity|auto]|].
  destruct (Nat.eq_dec (eb x) v) as [H'|H']; [left; exists x; split; [left; reflexivity|auto]|].
  destruct IH as [(y & Hy & H2)|IH]; [left; exists y; split; [right; exact Hy|exact H2]|].
  right. intros (y & [<-|Hy] & H2); [tauto|]. apply IH. exists y. auto.
Qed.

Lemma prim_bottleneck len w e0 l : complete len e0 -> (forall y, In y e0 -> is_number (er y)) ->
  growing l -> greedy e0 l -> (forall x, In x l -> exists y, In y e0 /\ same y x) ->
  forall u v, touched l u -> touched l v -> linked (heavy w e0) u v -> linked (heavy w l) u v.
Proof.
  intros Hc Hnum Hg Hgr Hfr u v Hu Hv H.
  assert (Hne : l <> []) by (intros ->; destruct (touched_nil _ Hu)).
  destruct (prim_invariant len w e0 Hc Hnum l Hne Hg Hgr Hfr) as (block & I1 & I1' & I2 & I3).
  assert (G : (touched l v /\ linked (heavy w l) u v) \/ (~ touched l v /\ exists b, block b /\ linked (heavy w l) u b)).
  { clear Hv. induction H as [|v v' y _ IH Hy Hj].
    - left. split; [exact Hu|apply linked_refl].
    - apply in_heavy in Hy. destruct Hy as [Hy Hh].
      assert (K1 : touched l v -> ~ touched l v' -> block v).
      { intros A B. destruct Hj as [[<- <-]|[<- <-]]; [apply I1|apply I1']; assumption. }
      assert (K2 : touched l v' -> ~ touched l v -> block v').
      { intros A B. destruct Hj as [[<- <-]|[<- <-]]; [apply I1'|apply I1]; assumption. }
      assert (K3 : touched l v -> touched l v' -> linked (heavy w l) v v').
      { intros A B. destruct Hj as [[<- <-]|[<- <-]]; [apply I3; assumption|apply linked_sym, I3; assumption]. }
      destruct (touched_dec l v') as [Hv'|Hv'], IH as [[Hv IH]|[Hv (b & Hb & IH)]].
      + left. split; [exact Hv'|]. eapply linked_trans; [exact IH|]. apply K3; assumption.
      + left. split; [exact Hv'|]. eapply linked_trans; [exact IH|]. apply I2; [exact Hb|]. apply K2; assumption.
      + right. split; [exact Hv'|]. exists v. split; [apply K1; assumption|exact IH].
      + right. split; [exact Hv'|]. exists b. split; assumption. }
  destruct G as [[_ G]|[G _]]; [exact G|contradiction].
Qed.

(** ** worst edge *)
Lemma track_spec l : forall k z mn, z <> 0 -> (forall x, In x l -> exists y, er x = Some y /\ y <> 0) ->
  exists z' mn', track l k (Some z) mn = (Some z', mn') /\ z' <= z /\
    (forall x y, In x l -> er x = Some y -> z' <= y) /\
    ((z' = z /\ mn' = mn) \/ (k <= mn' < k + length l /\ exists x, nth_error l (mn' - k) = Some x /\ er x = Some z'))%nat.
Proof.
  induction l as [|x l IH]; intros k z mn Hz Hl.
  - exists z, mn. conj; try reflexivity; [intros x y []|left; auto].
  - destruct (Hl x (or_introl eq_refl)) as (y & Ey & Hy0).
    cbn [track]. rewrite Ey. cbn [dzero dlt].
    destruct (Z.eqb_spec z 0); [contradiction|]. cbn [orb]. destruct (Z.ltb_spec y z) as [Hlt|Hge].
    + destruct (IH (S k) y k Hy0) as (z' & mn' & E & H1 & H2 & H3); [intros; apply Hl; right; assumption|].
      exists z', mn'. conj; [exact E|lia| |].
      * intros x' y' [<-|Hx'] E'; [assert (y' = y) by congruence; lia|apply (H2 x' y' Hx' E')].
      * right. destruct H3 as [[-> ->]|(H3 & x' & Ex' & Er')].
        -- split; [cbn [length]; lia|]. exists x. rewrite Nat.sub_diag. split; [reflexivity|exact Ey].
        -- split; [cbn [length]; lia|]. exists x'. split; [|exact Er'].
           replace (mn' - k)%nat with (S (mn' - S k)) by lia. exact Ex'.
    + destruct (IH (S k) z mn Hz) as (z' & mn' & E & H1 & H2 & H3); [intros; apply Hl; right; assumption|].
      exists z', mn'. conj; [exact E|exact H1| |].
      * intros x' y' [<-|Hx'] E'; [assert (y' = y) by congruence; lia|apply (H2 x' y' Hx' E')].
      * destruct H3 as [H3|(H3 & x' & Ex' & Er')]; [left; exact H3|right].
        split; [cbn [length]; lia|]. exists x'. split; [|exact Er'].
        replace (mn' - k)%nat with (S (mn' - S k)) by lia. exact Ex'.
Qed.

Lemma track_fresh l : l <> [] -> (forall x, In x l -> exists y, er x = Some y /\ y <> 0) -> forall mn,
  exists z mn' x, track l 0 (Some 0) mn = (Some z, mn') /\ nth_error l mn' = Some x /\ er x = Some z /\
    (forall x y, In x l -> er x = Some y -> z <= y).
Proof.
  destruct l as [|x l]; [intros H; contradiction|]. intros _ Hl mn.
  destruct (Hl x (or_introl eq_refl)) as (y & Ey & Hy0). cbn [track]. rewrite Ey. cbn [dzero dlt Z.eqb orb].
  destruct (track_spec l 1 y 0 Hy0) as (z' & mn' & E & H1 & H2 & H3); [intros; apply Hl; right; assumption|].
  assert (Hmin : forall x0 y0, In x0 (x :: l) -> er x0 = Some y0 -> z' <= y0).
  { intros x' y' [<-|Hx'] E'; [assert (y' = y) by congruence; lia|apply (H2 x' y' Hx' E')]. }
  exists z', mn'. destruct H3 as [[-> ->]|(H3 & x' & Ex' & Er')].
  - exists x. conj; [exact E|reflexivity|exact Ey|exact Hmin].
  - exists x'. conj; [exact E| |exact Er'|exact Hmin]. destruct mn' as [|mn']; [lia|]. cbn in *. rewrite Nat.sub_0_r in Ex'. exact Ex'.
Qed.

(** edge parameter: minimum over the other points *)
Lemma param_loop_spec f i j ks : forall p, (forall k, In k ks -> k <> i -> k <> j -> exists z, f k = Some z /\ 0 <= z) ->
  0 <= p -> exists z, param_loop ks f i j (Some p) = Some z /\ 0 <= z <= p /\
    (forall k y, In k ks -> k <> i -> k <> j -> f k = Some y -> z <= y) /\
    (z = p \/ exists k, In k ks /\ k <> i /\ k <> j /\ f k = Some z).
Proof.
  induction ks as [|k ks IH]; intros p Hf Hp.
  - exists p. cbn. conj; auto; try lia; intros k y [].
  - cbn [param_loop]. destruct (Nat.eqb_spec k i) as [->|Hi]; [cbn [orb]|destruct (Nat.eqb_spec k j) as [->|Hj]; cbn [orb]].
    1,2: destruct (IH p) as (z & E & Hz & Hm & Hw); [intros; apply Hf; [right|..]; assumption|exact Hp|];
      exists z; conj; try assumption; try lia;
      [intros k' y [<-|Hk'] A B; [contradiction|apply Hm; assumption]
      |destruct Hw as [Hw|(k' & A & B)]; [left; exact Hw|right; exists k'; split; [right; exact A|exact B]]].
    destruct (Hf k (or_introl eq_refl) Hi Hj) as (y & Ey & Hy). rewrite Ey. cbn [dlt].
    destruct (Z.ltb_spec p 0); [lia|]. cbn [orb]. destruct (Z.ltb_spec y p).
    + destruct (IH y) as (z & E & Hz & Hm & Hw); [intros; apply Hf; [right|..]; assumption|exact Hy|].
      exists z. conj; try assumption; try lia.
      * intros k' y' [<-|Hk'] A B E'; [assert (y' = y) by congruence; lia|apply (Hm k'); assumption].
      * right. destruct Hw as [->|(k' & A & B)]; [exists k; conj; auto; left; reflexivity|exists k'; split; [right; exact A|exact B]].
    + destruct (IH p) as (z & E & Hz & Hm & Hw); [intros; apply Hf; [right|..]; assumption|exact Hp|].
      exists z. conj; try assumption; try lia.
      * intros k' y' [<-|Hk'] A B E'; [assert (y' = y) by congruence; lia|apply (Hm k'); assumption].
      * destruct Hw as [->|(k' & A & B)]; [left; reflexivity|right; exists k'; split; [right; exact A|exact B]].
Qed.

Lemma param_loop_first f i j ks : (forall k, In k ks -> k <> i -> k <> j -> exists z, f k = Some z /\ 0 <= z) ->
  (exists k, In k ks /\ k <> i /\ k <> j) ->
  exists z, param_loop ks f i j (Some (-1)) = Some z /\ 0 <= z /\
    (forall k y, In k ks -> k <> i -> k <> j -> f k = Some y -> z <= y) /\
    exists k, In k ks /\ k <> i /\ k <> j /\ f k = Some z.
Proof.
  induction ks as [|k ks IH]; intros Hf (k0 & Hk0 & Hne); [contradiction|].
  cbn [param_loop].
  assert (Hskip : (k = i \/ k = j) -> exists z, param_loop ks f i j (Some (-1)) = Some z /\ 0 <= z /\
    (forall k' y, In k' (k :: ks) -> k' <> i -> k' <> j -> f k' = Some y -> z <= y) /\
    exists k', In k' (k :: ks) /\ k' <> i /\ k' <> j /\ f k' = Some z).
  { intros Hk. destruct IH as (z & E & Hz & Hm & (k' & A & B)).
    - intros; apply Hf; [right|..]; assumption.
    - exists k0. split; [|exact Hne]. destruct Hk0 as [<-|]; [|assumption]. destruct Hk; subst; tauto.
    - exists z. conj; try assumption.
      + intros k1 y [<-|Hk1] C D; [destruct Hk; contradiction|apply Hm; assumption].
      + exists k'. split; [right; exact A|exact B]. }
  destruct (Nat.eqb_spec k i) as [Ei|Hi]; [cbn [orb]; apply Hskip; auto|].
  destruct (Nat.eqb_spec k j) as [Ej|Hj]; [cbn [orb]; apply Hskip; auto|]. cbn [orb].
  destruct (Hf k (or_introl eq_refl) Hi Hj) as (y & Ey & Hy). cbn [dlt Z.ltb Z.compare orb]. rewrite Ey.
  destruct (param_loop_spec f i j ks y) as (z & E & Hz & Hm & Hw); [intros; apply Hf; [right|..]; assumption|exact Hy|].
  exists z. conj; [exact E|lia| |].
  - intros k' y' [<-|Hk'] A B E'; [assert (y' = y) by congruence; lia|apply (Hm k'); assumption].
  - destruct Hw as [->|(k' & A & B)]; [exists k; conj; auto; left; reflexivity|exists k'; split; [right; exact A|exact B]].
Qed.
