From Verif Require Import Base ModelTree SpecTree.

(** ** graphs *)
Lemma linked_trans l u v w : linked l u v -> linked l v w -> linked l u w.
Proof. intros H1 H2. induction H2; [exact H1|]. eapply linked_step; eassumption. Qed.
Lemma joins_sym x u v : joins x u v -> joins x v u.
Proof. intros [H|H]; [right|left]; exact H. Qed.
Lemma linked_one l x u v : In x l -> joins x u v -> linked l u v.
Proof. intros H1 H2. eapply linked_step; [apply linked_refl|exact H1|exact H2]. Qed.
Lemma linked_sym l u v : linked l u v -> linked l v u.
Proof.
  induction 1 as [|v w x _ IH Hx Hj]; [apply linked_refl|].
  eapply linked_trans; [|exact IH]. apply (linked_one l x); [exact Hx|apply joins_sym, Hj].
Qed.
Lemma linked_incl l l' u v : (forall x, In x l -> In x l') -> linked l u v -> linked l' u v.
Proof.
  intros Hi. induction 1 as [|v w x _ IH Hx Hj]; [apply linked_refl|].
  eapply linked_step; [exact IH|apply Hi, Hx|exact Hj].
Qed.
Lemma linked_touched l u v : linked l u v -> u = v \/ (touched l u /\ touched l v).
Proof.
  induction 1 as [|v w x _ IH Hx Hj]; [left; reflexivity|]. right. split.
  - destruct IH as [->|[IH _]]; [|exact IH]. exists x. split; [exact Hx|]. destruct Hj as [[]|[]]; auto.
  - exists x. split; [exact Hx|]. destruct Hj as [[]|[]]; auto.
Qed.
Lemma touched_app l1 l2 v : touched (l1 ++ l2) v <-> touched l1 v \/ touched l2 v.
Proof.
  split.
  - intros (x & Hx & H). apply in_app_iff in Hx. destruct Hx as [Hx|Hx]; [left|right]; exists x; split; assumption.
  - intros [(x & Hx & H)|(x & Hx & H)]; exists x; (split; [apply in_app_iff; auto|assumption]).
Qed.
Lemma touched_one x v : touched [x] v <-> v = ea x \/ v = eb x.
Proof.
  split.
  - intros (y & [<-|[]] & [H|H]); auto.
  - intros [H|H]; exists x; (split; [left; reflexivity|auto]).
Qed.
Lemma touched_nil v : ~ touched [] v.
Proof. intros (x & [] & _). Qed.

Lemma growing_snoc l x : growing (l ++ [x]) <->
  growing l /\ ea x <> eb x /\ ~ touched l (eb x) /\ (l <> [] -> touched l (ea x)).
Proof.
  split.
  - intros H. split; [|apply (H l x []); reflexivity].
    intros l1 y l2 E. apply (H l1 y (l2 ++ [x])). rewrite E, <- app_assoc. reflexivity.
  - intros (Hg & Hx) l1 y l2 E.
    destruct (@exists_last _ (y :: l2)) as (l3 & z & E3); [discriminate|].
    rewrite E3, app_assoc in E. apply app_inj_tail in E. destruct E as [E <-].
    destruct l3 as [|y' l3].
    + cbn in E3. injection E3 as -> ->. rewrite app_nil_r in E. subst l1. exact Hx.
    + cbn in E3. injection E3 as <- E4. apply (Hg l1 y l3). exact E.
Qed.

Lemma growing_connected l : growing l -> connected l.
Proof.
  induction l as [|x l IH] using rev_ind; intros Hg u v Hu Hv.
  - destruct (touched_nil _ Hu).
  - apply growing_snoc in Hg. destruct Hg as (Hg & Hne & Hb & Ha).
    assert (Hinc : forall y, In y l -> In y (l ++ [x])) by (intros; apply in_app_iff; auto).
    assert (Hx : In x (l ++ [x])) by (apply in_app_iff; right; left; reflexivity).
    assert (Hab : linked (l ++ [x]) (ea x) (eb x)) by (apply (linked_one _ x _ _ Hx); left; auto).
    assert (Htoa : forall w, touched (l ++ [x]) w -> linked (l ++ [x]) (ea x) w).
    { intros w Hw. apply touched_app in Hw. destruct Hw as [Hw|Hw].
      - assert (l <> []) by (intros ->; destruct (touched_nil _ Hw)).
        apply (linked_incl l); [exact Hinc|]. apply IH; auto.
      - apply touched_one in Hw. destruct Hw as [->| ->]; [apply linked_refl|exact Hab]. }
    eapply linked_trans; [apply linked_sym, Htoa, Hu|apply Htoa, Hv].
Qed.

(** dropping a leaf *)
Lemma leaf_linked l x u v : ~ touched l (eb x) -> u <> eb x -> v <> eb x -> ea x <> eb x ->
  linked (l ++ [x]) u v -> linked l u v.
Proof.
  intros Hb Hu Hv Hne H.
  pose (phi := fun w => if (w =? eb x)%nat then ea x else w).
  assert (G : linked l (phi u) (phi v)).
  { clear Hu Hv. induction H as [|v w y _ IH Hy Hj]; [apply linked_refl|].
    apply in_app_iff in Hy. destruct Hy as [Hy|[<-|[]]].
    - assert (ea y <> eb x) by (intros E; apply Hb; exists y; auto).
      assert (eb y <> eb x) by (intros E; apply Hb; exists y; auto).
      eapply linked_step; [exact IH|exact Hy|]. unfold phi.
      destruct Hj as [[<- <-]|[<- <-]]; rewrite !(proj2 (Nat.eqb_neq _ _)) by assumption; [left|right]; auto.
    - replace (phi w) with (phi v); [exact IH|]. unfold phi.
      destruct Hj as [[<- <-]|[<- <-]]; rewrite Nat.eqb_refl, (proj2 (Nat.eqb_neq (ea x) (eb x)) Hne); reflexivity. }
  unfold phi in G. rewrite (proj2 (Nat.eqb_neq _ _) Hu), (proj2 (Nat.eqb_neq _ _) Hv) in G. exact G.
Qed.

Lemma growing_acyclic l : growing l -> acyclic l.
Proof.
  induction l as [|z l IH] using rev_ind; intros Hg l1 x l2 E H.
  - destruct l1; discriminate.
  - apply growing_snoc in Hg. destruct Hg as (Hg & Hne & Hb & Ha).
    destruct (@exists_last _ (x :: l2)) as (l3 & z' & E3); [discriminate|].
    rewrite E3, app_assoc in E. apply app_inj_tail in E. destruct E as [E <-].
    destruct l3 as [|x' l3].
    + cbn in E3. injection E3 as -> ->. rewrite app_nil_r in E. subst l1. rewrite app_nil_r in H.
      apply linked_touched in H. destruct H as [H|[_ H]]; contradiction.
    + cbn in E3. injection E3 as <- ->. rewrite app_assoc in H.
      assert (Hx : In x l) by (rewrite E; apply in_app_iff; right; left; reflexivity).
      assert (Hsub : forall y, In y (l1 ++ l3) -> In y l).
      { intros y Hy. rewrite E. apply in_app_iff. apply in_app_iff in Hy. destruct Hy; [left|right; right]; assumption. }
      apply (IH Hg l1 x l3 E). apply (leaf_linked (l1 ++ l3) z); try assumption.
      * intros (y & Hy & Hy2). apply Hb. exists y. split; [apply Hsub, Hy|exact Hy2].
      * intros E1. apply Hb. exists x. auto.
      * intros E1. apply Hb. exists x. auto.
Qed.

(** ** lists *)
Lemma upd_length {A} (t : list A) i v : length (upd t i v) = length t.
Proof. revert i. induction t as [|x t IH]; intros [|i]; cbn; congruence. Qed.
Lemma nth_error_upd {A} (t : list A) i v j : (i < length t)%nat ->
  nth_error (upd t i v) j = if (i =? j)%nat then Some v else nth_error t j.
Proof.
  revert i j. induction t as [|x t IH]; intros [|i] [|j] H; cbn in *; try lia; try reflexivity.
  rewrite IH by lia. reflexivity.
Qed.

Lemma tget_done {A} (t : list A) i x : nth_error t i = Some x -> tget t i = Done x.
Proof. unfold tget. intros ->. reflexivity. Qed.

Lemma scan_spec e t : (forall x, In x e -> (ea x < length t)%nat /\ (eb x < length t)%nat) -> forall i, (i < length e)%nat ->
  let crossing j := exists x ta tb, nth_error e j = Some x /\ nth_error t (ea x) = Some ta /\ nth_error t (eb x) = Some tb /\ ta <> tb in
  (exists j, (j <= i)%nat /\ crossing j) ->
  exists j, scan e t i = Done j /\ (j <= i)%nat /\ crossing j /\ forall j', (j < j' <= i)%nat -> ~ crossing j'.
Proof.
  intros Hb. induction i as [|i IH]; intros Hi crossing (j0 & Hj0 & Hc0).
  - assert (j0 = O) by lia. subst j0. exists O. conj; try lia; try exact Hc0.
    destruct Hc0 as (x & ta & tb & E1 & E2 & E3 & Hne). cbn [scan].
    rewrite (tget_done _ _ _ E1). cbn [bind]. rewrite (tget_done _ _ _ E2). cbn [bind].
    rewrite (tget_done _ _ _ E3). cbn [bind]. destruct (Bool.eqb ta tb) eqn:E; [|reflexivity].
    apply eqb_prop in E. contradiction.
  - destruct (nth_error e (S i)) as [x|] eqn:E1; [|apply nth_error_None in E1; lia].
    destruct (Hb x (nth_error_In _ _ E1)) as [Ba Bb].
    destruct (nth_error t (ea x)) as [ta|] eqn:E2; [|apply nth_error_None in E2; lia].
    destruct (nth_error t (eb x)) as [tb|] eqn:E3; [|apply nth_error_None in E3; lia].
    cbn [scan]. rewrite (tget_done _ _ _ E1). cbn [bind]. rewrite (tget_done _ _ _ E2). cbn [bind].
    rewrite (tget_done _ _ _ E3). cbn [bind]. destruct (Bool.eqb ta tb) eqn:E.
    + apply eqb_prop in E. subst tb.
      assert (Hn : ~ crossing (S i)).
      { intros (x' & ta' & tb' & F1 & F2 & F3 & Hne). rewrite E1 in F1. injection F1 as <-. congruence. }
      destruct IH as (j & Ej & Hj & Hcj & Hmax); [lia| |].
      { exists j0. split; [|exact Hc0]. destruct (Nat.eq_dec j0 (S i)) as [->|]; [contradiction|lia]. }
      exists j. conj; [exact Ej|lia|exact Hcj|]. intros j' Hj'.
      destruct (Nat.eq_dec j' (S i)) as [->|]; [exact Hn|apply Hmax; lia].
    + exists (S i). conj; [reflexivity|lia| |intros; lia].
      exists x, ta, tb. conj; try assumption. intros ->. rewrite eqb_reflx in E. discriminate.
Qed.

(** ** the loop *)
Definition same (x y : edge) : Prop :=
  er x = er y /\ ((ea x = ea y /\ eb x = eb y) \/ (ea x = eb y /\ eb x = ea y)).

Lemma same_refl x : same x x.
Proof. split; [reflexivity|left; auto]. Qed.
Lemma same_flip x : same x (edge_flip x).
Proof. split; [reflexivity|right; auto]. Qed.
Lemma same_trans x y z : same x y -> same y z -> same x z.
Proof. unfold same. intros [E1 [[? ?]|[? ?]]] [E2 [[? ?]|[? ?]]]; (split; [congruence|]); [left|right|right|left]; split; congruence. Qed.

Lemma Forall2_upd {A B} (R : A -> B -> Prop) l l' i v x : Forall2 R l l' -> nth_error l i = Some x -> R x v ->
  Forall2 R l (upd l' i v).
Proof.
  intros H. revert i. induction H as [|a b l l' Hab Hll IH]; intros [|i] E Hr; cbn in *; try discriminate.
  - injection E as ->. constructor; [exact Hr|exact Hll].
  - constructor; [exact Hab|apply IH; assumption].
Qed.

Lemma Forall2_len {A B} (R : A -> B -> Prop) l l' : Forall2 R l l' -> length l = length l'.
Proof. induction 1; cbn; congruence. Qed.
Lemma Forall2_nth {A B} (R : A -> B -> Prop) l l' : Forall2 R l l' -> forall i x', nth_error l' i = Some x' ->
  exists x, nth_error l i = Some x /\ R x x'.
Proof.
  induction 1 as [|a b l l' Hab _ IH]; intros [|i] x' E; cbn in *; try discriminate.
  - injection E as <-. exists a. auto.
  - apply IH, E.
Qed.
Lemma Forall2_nth_l {A B} (R : A -> B -> Prop) l l' : Forall2 R l l' -> forall i x, nth_error l i = Some x ->
  exists x', nth_error l' i = Some x' /\ R x x'.
Proof.
  induction 1 as [|a b l l' Hab _ IH]; intros [|i] x' E; cbn in *; try discriminate.
  - injection E as <-. exists b. auto.
  - apply IH, E.
Qed.

Definition crosses (l : list edge) (y : edge) : Prop :=
  (touched l (ea y) /\ ~ touched l (eb y)) \/ (~ touched l (ea y) /\ touched l (eb y)).

(** at each step no available edge is strictly heavier *)
Definition greedy (e0 l : list edge) : Prop :=
  forall l1 x l2, l = l1 ++ x :: l2 -> forall y, In y e0 -> (l1 = [] \/ crosses l1 y) -> dlt (er x) (er y) = false.

Lemma greedy_snoc e0 l x : greedy e0 l ->
  (forall y, In y e0 -> (l = [] \/ crosses l y) -> dlt (er x) (er y) = false) -> greedy e0 (l ++ [x]).
Proof.
  intros Hg Hx l1 y l2 E.
  destruct (@exists_last _ (y :: l2)) as (l3 & z & E3); [discriminate|].
  rewrite E3, app_assoc in E. apply app_inj_tail in E. destruct E as [E <-].
  destruct l3 as [|y' l3].
  - cbn in E3. injection E3 as -> ->. rewrite app_nil_r in E. subst l1. exact Hx.
  - cbn in E3. injection E3 as <- E4. apply (Hg l1 y l3). exact E.
Qed.

Record inv (len : nat) (e0 : list edge) (done : list edge) (e : list edge) (t : list bool) : Prop := {
  inv_same : Forall2 same e0 e;
  inv_t : length t = len;
  inv_mark : forall v b, nth_error t v = Some b -> (b = true <-> touched done v);
  inv_grow : growing done;
  inv_range : forall v, touched done v -> (v < len)%nat;
  inv_from : forall x, In x done -> exists y, In y e0 /\ same y x;
}.

Definition ntrue (t : list bool) : nat := count_occ bool_dec t true.
Lemma ntrue_upd t i : nth_error t i = Some false -> ntrue (upd t i true) = S (ntrue t).
Proof.
  revert i. induction t as [|b t IH]; intros [|i] E; cbn in *; try discriminate.
  - injection E as ->. reflexivity.
  - unfold ntrue in *. cbn. rewrite IH by exact E. destruct (bool_dec b true); reflexivity.
Qed.
Lemma upd_same {A} (t : list A) i v : nth_error t i = Some v -> upd t i v = t.
Proof.
  revert i. induction t as [|b t IH]; intros [|i] E; cbn in *; try discriminate.
  - injection E as ->. reflexivity.
  - rewrite IH by exact E. reflexivity.
Qed.
Lemma ntrue_repeat n : ntrue (repeat false n) = O.
Proof. induction n; [reflexivity|exact IHn]. Qed.
Lemma ntrue_full t : (ntrue t < length t)%nat -> exists v, nth_error t v = Some false.
Proof.
  induction t as [|[|] t IH]; intros H; cbn in H; [lia| |exists O; reflexivity].
  destruct IH as (v & E); [unfold ntrue in *; cbn in H; lia|]. exists (S v). exact E.
Qed.

(** one step *)
Lemma step_spec len e0 done e t : complete len e0 -> inv len e0 done e t ->
  ntrue t = (match done with [] => O | _ => S (length done) end) -> (S (length done) < len)%nat ->
  exists last i x0 x, length e = S last /\
    (if (length done =? 0)%nat then Done last else scan e t last) = Done i /\
    tget e i = Done x0 /\
    (exists tb, tget t (eb x0) = Done tb /\ x = if tb then edge_flip x0 else x0) /\
    (exists ta, tget t (ea x) = Done ta) /\
    let t' := upd (upd t (ea x) true) (eb x) true in
    inv len e0 (done ++ [x]) (upd e i x) t' /\
    ntrue t' = S (length (done ++ [x])) /\
    (sorted e0 -> forall y, In y e0 -> (done = [] \/ crosses done y) -> dlt (er x) (er y) = false).
Proof.
  intros [Hr Hall] Hi Hcnt Hlt. pose proof Hi as [Hs Ht Hm Hg Hrg Hfr].
  assert (Hlen : length e0 = length e) by (eapply Forall2_len; exact Hs).
  assert (Hre : forall x, In x e -> (ea x < length t)%nat /\ (eb x < length t)%nat).
  { intros x Hx. destruct (In_nth_error _ _ Hx) as (k & Ek). destruct (Forall2_nth _ _ _ Hs k x Ek) as (x' & Ek' & [_ Hj]).
    destruct (Hr x' (nth_error_In _ _ Ek')) as (H1 & H2 & _). rewrite Ht. destruct Hj as [[<- <-]|[<- <-]]; auto. }
  (* some edge exists *)
  assert (He : exists last, length e = S last).
  { destruct (Hall 0%nat 1%nat) as (x & Hx & _); [lia|lia|discriminate|].
    destruct e0 as [|z0 e1]; [contradiction|]. cbn in Hlen. exists (length e1). congruence. }
  destruct He as (last & Elast). exists last.
  (* chosen index *)
  assert (Hpick : exists i x0, (if (length done =? 0)%nat then Done last else scan e t last) = Done i /\
     nth_error e i = Some x0 /\ (length done <> 0%nat -> exists ta tb, nth_error t (ea x0) = Some ta /\ nth_error t (eb x0) = Some tb /\ ta <> tb) /\
     (sorted e0 -> forall y, In y e0 -> (done = [] \/ crosses done y) -> dlt (er x0) (er y) = false)).
  { assert (Hsorted : forall l i j x y, sorted l -> nth_error l i = Some x -> nth_error l j = Some y -> (j < i)%nat -> dlt (er x) (er y) = false).
    { induction l as [|z l IH]; intros i j x y Hso E1 E2 Hij; [destruct i; discriminate|].
      destruct Hso as [Hz Hso]. destruct i as [|i]; [lia|]. destruct j as [|j]; cbn in E1, E2.
      - injection E2 as ->. apply Hz. eapply nth_error_In, E1.
      - apply (IH i j); try assumption. lia. }
    assert (Hirr : forall x, dlt x x = false) by (intros [z|]; cbn; lia).
    destruct (Nat.eqb_spec (length done) 0) as [E0|Hne].
    - destruct (nth_error e last) as [x0|] eqn:Ex; [|apply nth_error_None in Ex; lia].
      exists last, x0. conj; [reflexivity|exact Ex|intros; contradiction|].
      intros Hso y Hy _. destruct (In_nth_error _ _ Hy) as (j & Ej).
      destruct (Forall2_nth _ _ _ Hs last x0 Ex) as (x' & Ex' & [Er _]). rewrite <- Er.
      assert (j < length e0)%nat by (apply nth_error_Some; congruence).
      destruct (Nat.eq_dec j last) as [->|]; [replace y with x' by congruence; apply Hirr|].
      apply (Hsorted e0 last j x' y Hso Ex' Ej). lia.
    - destruct (scan_spec e t Hre last ltac:(lia)) as (i & Ei & Hil & (x0 & ta & tb & E1 & E2 & E3 & Hab) & Hmax).
      { (* a crossing edge *)
        destruct (ntrue_full t) as (v & Ev); [destruct done; [contradiction|]; lia|].
        assert (Hu : exists u, nth_error t u = Some true).
        { destruct done as [|z done]; [contradiction|]. exists (ea z).
          assert (Hz : touched (z :: done) (ea z)) by (exists z; split; [left; reflexivity|left; reflexivity]).
          pose proof (Hrg _ Hz). destruct (nth_error t (ea z)) as [b|] eqn:Eb; [|apply nth_error_None in Eb; lia].
          apply (Hm _ b Eb) in Hz. congruence. }
        destruct Hu as (u & Eu).
        assert (Hu' : (u < len)%nat) by (rewrite <- Ht; apply nth_error_Some; congruence).
        assert (Hv' : (v < len)%nat) by (rewrite <- Ht; apply nth_error_Some; congruence).
        assert (Huv : u <> v) by congruence.
        destruct (Hall u v Hu' Hv' Huv) as (y & Hy & Hj).
        destruct (In_nth_error _ _ Hy) as (k & Ek). destruct (Forall2_nth_l _ _ _ Hs k y Ek) as (y' & Ek' & [_ Hj']).
        assert (k < length e0)%nat by (apply nth_error_Some; congruence).
        assert (Hjy : (ea y' = u /\ eb y' = v) \/ (ea y' = v /\ eb y' = u)).
        { destruct Hj as [[? ?]|[? ?]], Hj' as [[? ?]|[? ?]]; [left|right|right|left]; split; congruence. }
        exists k. split; [lia|]. destruct Hjy as [[Ha Hb]|[Ha Hb]].
        - exists y', true, false. rewrite Ha, Hb. conj; auto; discriminate.
        - exists y', false, true. rewrite Ha, Hb. conj; auto; discriminate. }
      exists i, x0. conj; [exact Ei|exact E1|intros _; exists ta, tb; auto|].
      intros Hso y Hy [->|Hcr]; [contradiction|].
      destruct (In_nth_error _ _ Hy) as (j & Ej).
      assert (Hjl : (j < length e0)%nat) by (apply nth_error_Some; congruence).
      destruct (Forall2_nth _ _ _ Hs i x0 E1) as (x' & Ex' & [Er _]). rewrite <- Er.
      assert (Hji : (j <= i)%nat).
      { destruct (Nat.le_gt_cases j i) as [|Hgt]; [assumption|exfalso]. apply (Hmax j ltac:(lia)).
        destruct (Forall2_nth_l _ _ _ Hs j y Ej) as (y' & Ej' & [_ Hj']).
        destruct (Hre y' (nth_error_In _ _ Ej')) as [Ba Bb].
        destruct (nth_error t (ea y')) as [ya|] eqn:Ya; [|apply nth_error_None in Ya; lia].
        destruct (nth_error t (eb y')) as [yb|] eqn:Yb; [|apply nth_error_None in Yb; lia].
        exists y', ya, yb. conj; auto. intros Eq. pose proof (Hm _ _ Ya) as M1. pose proof (Hm _ _ Yb) as M2. rewrite <- Eq in M2.
        assert (Hiff : touched done (ea y') <-> touched done (eb y')) by (rewrite <- M1; exact M2).
        unfold crosses in Hcr. destruct Hj' as [[Ha Hb]|[Ha Hb]]; rewrite Ha, Hb in Hcr; tauto. }
      destruct (Nat.eq_dec j i) as [->|]; [replace y with x' by congruence; apply Hirr|].
      apply (Hsorted e0 i j x' y Hso Ex' Ej). lia. }
  destruct Hpick as (i & x0 & Ei & Ex0 & Hcr & Hbest).
  destruct (Hre x0 (nth_error_In _ _ Ex0)) as [Ba Bb].
  destruct (nth_error t (ea x0)) as [ta|] eqn:Eta; [|apply nth_error_None in Eta; lia].
  destruct (nth_error t (eb x0)) as [tb|] eqn:Etb; [|apply nth_error_None in Etb; lia].
  exists i, x0, (if tb then edge_flip x0 else x0).
  set (x := if tb then edge_flip x0 else x0).
  assert (Hsx : same x0 x) by (unfold x; destruct tb; [apply same_flip|apply same_refl]).
  destruct (Forall2_nth _ _ _ Hs i x0 Ex0) as (x00 & Ex00 & Hs0).
  assert (Hs00 : same x00 x) by (eapply same_trans; eassumption).
  destruct (Hr x00 (nth_error_In _ _ Ex00)) as (R1 & R2 & R3).
  assert (Rx : (ea x < len)%nat /\ (eb x < len)%nat /\ ea x <> eb x).
  { destruct Hs00 as [_ [[<- <-]|[<- <-]]]; auto. }
  assert (Hil : (i < length e)%nat) by (apply nth_error_Some; congruence).
  (* endpoints of x: b new, a old (or first edge) *)
  assert (Hnew : nth_error t (eb x) = Some false /\
     (length done <> 0%nat -> nth_error t (ea x) = Some true) /\ (length done = 0%nat -> nth_error t (ea x) = Some false)).
  { destruct (Nat.eq_dec (length done) 0) as [E0|Hne].
    - destruct done; [|discriminate].
      assert (Hf : forall v b, nth_error t v = Some b -> b = false).
      { intros v [|] Ev; [|reflexivity]. destruct (touched_nil v). apply (Hm v true Ev). reflexivity. }
      assert (tb = false) by (eapply Hf; eassumption). subst tb. unfold x. rewrite Etb, Eta.
      assert (ta = false) by (eapply Hf; eassumption). subst ta. conj; auto. intros; contradiction.
    - destruct (Hcr Hne) as (ta' & tb' & F1 & F2 & Hab). assert (ta' = ta) by congruence. assert (tb' = tb) by congruence. subst.
      unfold x. destruct tb; cbn [edge_flip ea eb].
      + destruct ta; [contradiction|]. conj; auto. intros; contradiction.
      + destruct ta; [|contradiction]. conj; auto. intros; contradiction. }
  destruct Hnew as (Hb & Ha1 & Ha0).
  cbn zeta. conj; try assumption.
  - unfold tget. rewrite Ex0. reflexivity.
  - exists tb. unfold tget. rewrite Etb. split; reflexivity.
  - destruct (nth_error t (ea x)) as [b|] eqn:E; [|apply nth_error_None in E; lia]. exists b. unfold tget. rewrite E. reflexivity.
  - cbn zeta. constructor.
    + eapply Forall2_upd; eassumption.
    + rewrite !upd_length. exact Ht.
    + intros v b Ev. rewrite nth_error_upd in Ev by (rewrite upd_length; lia).
      rewrite touched_app, touched_one. destruct (Nat.eqb_spec (eb x) v) as [->|Hnb].
      * injection Ev as <-. tauto.
      * rewrite nth_error_upd in Ev by lia. destruct (Nat.eqb_spec (ea x) v) as [->|Hna].
        -- injection Ev as <-. tauto.
        -- rewrite (Hm v b Ev). split; [tauto|]. intros [H|[H|H]]; [exact H|congruence|congruence].
    + apply growing_snoc. conj; [exact Hg|tauto| |].
      * intros H. apply (Hm _ _ Hb) in H. discriminate.
      * intros Hne. assert (length done <> 0%nat) by (destruct done; [contradiction|discriminate]).
        apply (Hm _ _ (Ha1 H)). reflexivity.
    + intros v Hv. apply touched_app in Hv. rewrite touched_one in Hv. destruct Hv as [Hv|[->| ->]]; [apply Hrg, Hv|tauto|tauto].
    + intros y Hy. apply in_app_iff in Hy. destruct Hy as [Hy|[<-|[]]]; [apply Hfr, Hy|].
      exists x00. split; [eapply nth_error_In; eassumption|exact Hs00].
  - cbn zeta. rewrite app_length. cbn [length].
    destruct (Nat.eq_dec (length done) 0) as [E0|Hne].
    + destruct done; [|discriminate]. rewrite ntrue_upd.
      * rewrite ntrue_upd by auto. rewrite Hcnt. reflexivity.
      * rewrite nth_error_upd by lia. destruct (Nat.eqb_spec (ea x) (eb x)); [tauto|exact Hb].
    + rewrite (upd_same t (ea x) true) by auto. rewrite ntrue_upd by exact Hb. rewrite Hcnt. destruct done; [contradiction|]. lia.
  - intros Hso y Hy Hc. destruct Hsx as [<- _]. apply Hbest; assumption.
Qed.

(** tree->r and tree->min as a function of the edges chosen *)
Fixpoint track (l : list edge) (k : nat) (r : dbl) (mn : nat) : dbl * nat :=
  match l with
  | [] => (r, mn)
  | x :: l => if dzero r || dlt (er x) r then track l (S k) (er x) k else track l (S k) r mn
  end.

Lemma grow_spec len e0 : complete len e0 -> forall todo done e t r mn, inv len e0 done e t ->
  ntrue t = (match done with [] => O | _ => S (length done) end) -> (length done + todo < len)%nat ->
  exists l, grow todo (length done) e t r mn = Done (l, fst (track l (length done) r mn), snd (track l (length done) r mn)) /\ length l = todo /\
    (exists e' t', inv len e0 (done ++ l) e' t') /\
    (sorted e0 -> greedy e0 done -> greedy e0 (done ++ l)).
Proof.
  intros Hc. induction todo as [|todo IH]; intros done e t r mn Hi Hcnt Hlt.
  - exists []. rewrite app_nil_r. cbn. conj; try reflexivity; [exists e, t; exact Hi|auto].
  - destruct (step_spec len e0 done e t Hc Hi Hcnt ltac:(lia)) as (last & i & x0 & x & El & Ei & Ex0 & (tb & Etb & Ex) & (ta & Eta) & Hi' & Hcnt' & Hbest).
    cbn [grow]. rewrite El, Ei. cbn [bind]. rewrite Ex0. cbn [bind]. rewrite Etb. cbn [bind]. rewrite <- Ex. rewrite Eta. cbn [bind].
    set (bt := dzero r || dlt (er x) r).
    destruct (IH (done ++ [x]) (upd e i x) (upd (upd t (ea x) true) (eb x) true) (if bt then er x else r) (if bt then length done else mn)) as (l & E & Hl & Hinv & Hgr).
    + exact Hi'.
    + rewrite Hcnt'. destruct done; reflexivity.
    + rewrite app_length. cbn [length]. lia.
    + rewrite app_length in E. cbn [length] in E. replace (length done + 1)%nat with (S (length done)) in E by lia.
      rewrite E. cbn [bind]. exists (x :: l). conj.
      * cbn [track]. fold bt. destruct bt; reflexivity.
      * cbn [length]. congruence.
      * rewrite <- app_assoc in Hinv. exact Hinv.
      * intros Hso Hg. rewrite <- app_assoc in Hgr. apply Hgr; [exact Hso|]. apply greedy_snoc; [exact Hg|]. apply Hbest, Hso.
Qed.

(** edges_init builds the complete graph *)
Lemma edges_init_in param len x : In x (edges_init param len) <->
  (ea x < eb x < len)%nat /\ er x = param_edge param (ea x) (eb x) len.
Proof.
  unfold edges_init. rewrite in_flat_map. split.
  - intros (i & Hi & Hx). apply in_map_iff in Hx. destruct Hx as (j & <- & Hj). apply in_seq in Hi, Hj. cbn [ea eb er]. split; [lia|reflexivity].
  - intros [H E]. exists (ea x). split; [apply in_seq; lia|]. apply in_map_iff. exists (eb x). split; [|apply in_seq; lia].
    destruct x; cbn in *. congruence.
Qed.

Lemma edges_init_complete param len : complete len (edges_init param len).
Proof.
  split.
  - intros x Hx. apply edges_init_in in Hx. lia.
  - intros u v Hu Hv Hne. destruct (Nat.lt_ge_cases u v) as [H|H].
    + exists {| er := param_edge param u v len; ea := u; eb := v |}. split; [apply edges_init_in; cbn; split; [lia|reflexivity]|left; auto].
    + exists {| er := param_edge param v u len; ea := v; eb := u |}. split; [apply edges_init_in; cbn; split; [lia|reflexivity]|right; auto].
Qed.

Lemma complete_perm len l l' : Permutation l l' -> complete len l -> complete len l'.
Proof.
  intros Hp [H1 H2]. split.
  - intros x Hx. apply H1. apply (Permutation_in _ (Permutation_sym Hp) Hx).
  - intros u v Hu Hv Hne. destruct (H2 u v Hu Hv Hne) as (x & Hx & Hj). exists x. split; [apply (Permutation_in _ Hp Hx)|exact Hj].
Qed.

Lemma edges_init_length param len : (2 * length (edges_init param len) = len * (len - 1))%nat.
Proof.
  unfold edges_init.
  assert (H : forall a k, (a + k = len -> 2 * length (flat_map (fun i => map (fun j => {| er := param_edge param i j len; ea := i; eb := j |}) (seq (S i) (len - S i))) (seq a k)) = k * (k - 1))%nat).
  { intros a k. revert a. induction k as [|k IH]; intros a E; [reflexivity|].
    cbn [seq flat_map]. rewrite app_length, map_length, seq_length.
    specialize (IH (S a) ltac:(lia)). destruct k as [|k]; [cbn in *; lia|]. 
    replace (len - S a)%nat with (S k) by lia. nia. }
  apply (H O len). lia.
Qed.

Lemma tree_spec sort param len n r mn : (forall l, Permutation l (sort l)) -> (n < len)%nat ->
  exists l, spanning_tree sort param len n r mn = Done (l, fst (track l 0 r mn), snd (track l 0 r mn)) /\ length l = n /\
    growing l /\ (forall v, touched l v -> (v < len)%nat) /\
    (forall x, In x l -> exists y, In y (edges_init param len) /\ same y x) /\
    (sorted (sort (edges_init param len)) -> greedy (edges_init param len) l).
Proof.
  intros Hp Hn. unfold spanning_tree. set (e0 := sort (edges_init param len)).
  assert (Hc : complete len e0) by (eapply complete_perm; [apply Hp|apply edges_init_complete]).
  assert (Hi : inv len e0 [] e0 (repeat false len)).
  { constructor.
    - clear. induction e0; constructor; [apply same_refl|assumption].
    - apply repeat_length.
    - intros v b E. apply nth_error_In, repeat_spec in E. subst b. split; [discriminate|]. intros H. destruct (touched_nil _ H).
    - intros l1 x l2 E. destruct l1; discriminate.
    - intros v H. destruct (touched_nil _ H).
    - intros x []. }
  destruct (grow_spec len e0 Hc n [] e0 (repeat false len) r mn Hi (ntrue_repeat len) Hn) as (l & E & Hl & (e' & t' & [_ _ _ Hg Hrg Hfr]) & Hgr).
  cbn [length app] in *. exists l. conj; try assumption.
  - intros x Hx. destruct (Hfr x Hx) as (y & Hy & Hs). exists y. split; [|exact Hs]. apply (Permutation_in _ (Permutation_sym (Hp _)) Hy).
  - intros Hso. specialize (Hgr Hso). intros l1 x l2 El y Hy. apply Hgr with (l2 := l2); [|exact El|].
    + intros l1' x' l2' E'. destruct l1'; discriminate.
    + apply (Permutation_in _ (Hp _) Hy).
Qed.
