(** Lemmas for C104: the trees grow along heaviest edges. *)
From Verif Require Import Base ModelGpTree SpecGpTree.

(** the vector read from its end *)
Definition desc (l : list wedge) : Prop := forall l1 x l2 y l3, l = l1 ++ x :: l2 ++ y :: l3 -> fst y <= fst x.
(** all edges between different points, with their weights *)
Definition all_edges (n : nat) (w : nat -> nat -> Z) (l : list wedge) : Prop :=
  (forall r i j, In (r, (i, j)) l -> (i < n)%nat /\ (j < n)%nat /\ i <> j /\ r = weight w i j) /\
  (forall u v, (u < n)%nat -> (v < n)%nat -> u <> v -> exists r, In (r, (u, v)) l \/ In (r, (v, u)) l).

Lemma weight_sym w u v : weight w u v = weight w v u.
Proof. unfold weight. now rewrite Nat.min_comm, Nat.max_comm. Qed.

Lemma edges_gc_all n w : all_edges n w (edges_gc n w).
Proof.
  split.
  - intros r i j H. apply in_flat_map in H as [i' [Hi H]]. apply in_map_iff in H as [j' [E Hj]]. apply in_seq in Hi, Hj.
    injection E as <- <- <-. repeat split; try lia. unfold weight. rewrite Nat.min_l, Nat.max_r by lia. reflexivity.
  - assert (G : forall u v, (u < v)%nat -> (v < n)%nat -> In (w u v, (u, v)) (edges_gc n w)).
    { intros u v H1 H2. apply in_flat_map. exists u. split; [apply in_seq; lia|]. apply in_map_iff. exists v. split; [reflexivity|]. apply in_seq. lia. }
    intros u v Hu Hv D. destruct (Nat.lt_ge_cases u v) as [L|L].
    + exists (w u v). left. now apply G.
    + exists (w v u). right. apply G; lia.
Qed.

Lemma edges_lr_all n w re : all_edges n w (edges_lr n w re).
Proof.
  split.
  - intros r i j H. apply in_flat_map in H as [i' [Hi H]]. apply in_map_iff in H as [j' [E Hj]]. apply in_seq in Hi, Hj.
    destruct (re j' <? re i'); injection E as <- <- <-; repeat split; try lia; unfold weight.
    + rewrite Nat.min_r, Nat.max_l by lia. reflexivity.
    + rewrite Nat.min_l, Nat.max_r by lia. reflexivity.
  - assert (G : forall u v, (u < v)%nat -> (v < n)%nat -> exists r, In (r, (u, v)) (edges_lr n w re) \/ In (r, (v, u)) (edges_lr n w re)).
    { intros u v H1 H2. exists (w u v). destruct (re v <? re u) eqn:E; [right|left]; apply in_flat_map; exists u; (split; [apply in_seq; lia|]);
        apply in_map_iff; exists v; rewrite E; (split; [reflexivity|]); apply in_seq; lia. }
    intros u v Hu Hv D. destruct (Nat.lt_ge_cases u v) as [L|L]; [now apply G|]. destruct (G v u) as [r H]; [lia|lia|]. exists r. tauto.
Qed.

Lemma edges_lr_order n w re r i j : In (r, (i, j)) (edges_lr n w re) -> re i <= re j.
Proof.
  intros H. apply in_flat_map in H as [i' [Hi H]]. apply in_map_iff in H as [j' [E Hj]].
  destruct (re j' <? re i') eqn:L; injection E as <- <- <-; [apply Z.ltb_lt in L|apply Z.ltb_ge in L]; lia.
Qed.

Lemma all_edges_perm n w l l' : Permutation l l' -> all_edges n w l -> all_edges n w (rev l').
Proof.
  intros P [A B]. split.
  - intros r i j H. apply A. apply in_rev in H. eapply Permutation_in; [symmetry; eassumption|assumption].
  - intros u v Hu Hv D. destruct (B u v Hu Hv D) as [r [H|H]]; exists r; [left|right]; rewrite <- in_rev; eapply Permutation_in; eassumption.
Qed.

Lemma desc_rev l : (forall l1 x l2 y l3, l = l1 ++ x :: l2 ++ y :: l3 -> fst x <= fst y) -> desc (rev l).
Proof.
  intros H l1 x l2 y l3 E. apply (H (rev l3) y (rev l2) x (rev l1)). rewrite <- (rev_involutive l), E.
  rewrite rev_app_distr. cbn. rewrite rev_app_distr. cbn. rewrite <- !app_assoc. reflexivity.
Qed.

Lemma find_split {A} (f : A -> bool) l e : find f l = Some e -> f e = true /\ exists l1 l2, l = l1 ++ e :: l2 /\ forall x, In x l1 -> f x = false.
Proof.
  induction l as [|x l IH]; cbn; [discriminate|]. destruct (f x) eqn:E.
  - intros H. injection H as <-. split; [assumption|]. exists [], l. split; [reflexivity|]. intros ? [].
  - intros H. destruct (IH H) as [F [l1 [l2 [-> G]]]]. split; [assumption|]. exists (x :: l1), l2. split; [reflexivity|].
    intros y [<-|Hy]; auto.
Qed.

(** the edge found is the heaviest of those with one end taken *)
Lemma find_best l taken e y : desc l -> find (one_taken taken) l = Some e -> In y l -> one_taken taken y = true -> fst y <= fst e.
Proof.
  intros D F Hy Ty. apply find_split in F as [_ [l1 [l2 [-> G]]]]. apply in_app_iff in Hy as [Hy|[<-|Hy]].
  - rewrite (G _ Hy) in Ty. discriminate.
  - lia.
  - apply in_split in Hy as [l3 [l4 ->]]. eapply D. reflexivity.
Qed.

Definition step_ok (n root : nat) (w : nat -> nat -> Z) (t1 : list (nat * nat)) (a b : nat) : Prop :=
  (a < n)%nat /\ (b < n)%nat /\ ((reached root t1 a /\ ~ reached root t1 b) \/ (reached root t1 b /\ ~ reached root t1 a)) /\
  forall u v, (u < n)%nat -> (v < n)%nat -> reached root t1 u -> ~ reached root t1 v -> weight w u v <= weight w a b.

Section Grow.
  Variables (n root : nat) (w : nat -> nat -> Z) (l : list wedge).
  Hypothesis L : all_edges n w l.
  Hypothesis D : desc l.

  Lemma grow_ok gc : forall k taken m t1 R, NoDup R -> (forall v, In v R -> (v < n)%nat) -> (length R + k <= n)%nat -> In root R ->
    (forall v, taken v = true <-> In v R) -> (forall v, reached root t1 v <-> In v R) ->
    exists t m', grow gc k l taken m = Done (t, m') /\ length t = k /\
      (forall ta a b tb, t = ta ++ (a, b) :: tb -> step_ok n root w (t1 ++ ta) a b /\ (gc = true -> reached root (t1 ++ ta) a) /\
        (gc = false -> exists r, In (r, (a, b)) l)) /\
      m' <= m /\ (forall a b, In (a, b) t -> m' <= weight w a b) /\ (m' = m \/ exists a b, In (a, b) t /\ weight w a b = m').
  Proof using L D.
    induction k as [|k IH]; intros taken m t1 R ND RN LN HR T RE.
    - exists [], m. cbn. repeat split; try lia; try (now left).
      all: try (destruct ta; discriminate). all: try (intros ? ? []).
    - cbn [grow].
      assert (U : exists v, (v < n)%nat /\ ~ In v R).
      { destruct (forallb (fun v => existsb (Nat.eqb v) R) (seq 0 n)) eqn:E.
        - exfalso. rewrite forallb_forall in E. assert (I : incl (seq 0 n) R).
          { intros v Hv. apply E in Hv. apply existsb_exists in Hv as [x [Hx Ex]]. apply Nat.eqb_eq in Ex. now subst. }
          apply NoDup_incl_length in I; [|apply seq_NoDup]. rewrite seq_length in I. lia.
        - assert (X : exists v, In v (seq 0 n) /\ existsb (Nat.eqb v) R = false).
          { clear -E. induction (seq 0 n) as [|x s IH]; [discriminate|]. cbn in E. apply andb_false_iff in E as [E|E].
            - exists x. split; [now left|assumption].
            - destruct (IH E) as [v [H1 H2]]. exists v. split; [now right|assumption]. }
          destruct X as [v [H1 H2]]. exists v. split; [apply in_seq in H1; lia|]. intros H3.
          assert (existsb (Nat.eqb v) R = true); [|congruence]. apply existsb_exists. exists v. split; [assumption|apply Nat.eqb_refl]. }
      destruct U as [v [Vn Vr]].
      assert (TF : forall v, taken v = false <-> ~ In v R).
      { intros x. rewrite <- T. destruct (taken x); split; try congruence; intuition congruence. }
      destruct (find (one_taken taken) l) as [[r [i j]]|] eqn:F.
      2: { exfalso. destruct (proj2 L root v) as [r [H|H]]; [auto|assumption|intros ->; contradiction| |];
             apply (find_none _ _ F) in H; unfold one_taken in H; cbn in H; rewrite (proj2 (T root) HR), (proj2 (TF v) Vr) in H; discriminate. }
      pose proof (find_some _ _ F) as [IF TE]. destruct (proj1 L _ _ _ IF) as [In_ [Jn [IJ RW]]].
      unfold one_taken in TE. cbn [fst snd] in TE.
      assert (X : exists p q, In p R /\ ~ In q R /\ (q < n)%nat /\ ((p = i /\ q = j) \/ (p = j /\ q = i)) /\ taken j = (p =? j)%nat).
      { destruct (taken i) eqn:Ei, (taken j) eqn:Ej; try discriminate.
        - exists i, j. rewrite <- T, <- TF. repeat split; auto. symmetry. now apply Nat.eqb_neq.
        - exists j, i. rewrite <- T, <- TF. repeat split; auto. symmetry. apply Nat.eqb_refl. }
      destruct X as [p [q [Pp [Qq [Qn [PQ TJ]]]]]].
      assert (ST : step_ok n root w t1 i j).
      { split; [assumption|]. split; [assumption|]. split; [rewrite !RE; destruct PQ as [[-> ->]|[-> ->]]; tauto|].
        intros x y Hx Hy Rx Ry. rewrite RE in Rx, Ry.
        destruct (proj2 L x y Hx Hy) as [r' H]; [intros ->; contradiction|]. rewrite <- RW.
        destruct H as [H|H]; pose proof (proj2 (proj2 (proj2 (proj1 L _ _ _ H)))) as WE.
        - rewrite <- WE. apply (find_best l taken (r, (i, j)) (r', (x, y)) D F H). unfold one_taken. cbn. rewrite (proj2 (T x) Rx), (proj2 (TF y) Ry). reflexivity.
        - rewrite weight_sym, <- WE. apply (find_best l taken (r, (i, j)) (r', (y, x)) D F H). unfold one_taken. cbn. rewrite (proj2 (T x) Rx), (proj2 (TF y) Ry). reflexivity. }
      set (e := if gc && taken j then (j, i) else (i, j)).
      assert (EE : (fst e = i /\ snd e = j) \/ (fst e = j /\ snd e = i)) by (unfold e; destruct (gc && taken j); cbn; auto).
      destruct (IH (mark taken i j) (Z.min m r) (t1 ++ [e]) (q :: R)) as [t [m' [G [LT [OK [M1 [M2 M3]]]]]]].
      + now constructor.
      + intros x [<-|Hx]; auto.
      + cbn. lia.
      + now right.
      + intros x. unfold mark. destruct (Nat.eqb_spec x i) as [->|N1]; cbn.
        * destruct PQ as [[-> ->]|[-> ->]]; intuition.
        * destruct (Nat.eqb_spec x j) as [->|N2]; [destruct PQ as [[-> ->]|[-> ->]]; intuition|]. rewrite T.
          destruct PQ as [[-> ->]|[-> ->]]; intuition congruence.
      + intros x. unfold reached. cbn. setoid_rewrite in_app_iff. cbn.
        split.
        * intros [->|[e' [[H|[<-|[]]] H']]]; [now right|right; apply RE; right; now exists e'|].
          destruct EE as [[E1 E2]|[E1 E2]]; rewrite E1, E2 in H'; destruct PQ as [[-> ->]|[-> ->]]; destruct H' as [->| ->]; auto.
        * intros [<-|H].
          -- right. exists e. split; [auto|]. destruct EE as [[E1 E2]|[E1 E2]]; rewrite E1, E2; destruct PQ as [[-> ->]|[-> ->]]; auto.
          -- apply RE in H as [->|[e' [H H']]]; [now left|right]. exists e'. auto.
      + rewrite G. cbn [bind]. exists (e :: t), m'. cbn [fst snd length]. split; [reflexivity|]. split; [now rewrite LT|]. split; [|split; [|split]].
        * intros ta a b tb E. destruct ta as [|e0 ta]; cbn in E; injection E as E E'.
          -- rewrite app_nil_r. unfold e in E. repeat split.
             ++ destruct (gc && taken j); injection E as <- <-; apply ST.
             ++ destruct (gc && taken j); injection E as <- <-; apply ST.
             ++ destruct ST as [_ [_ [ST _]]]. destruct (gc && taken j); injection E as <- <-; tauto.
             ++ destruct ST as [_ [_ [_ ST]]]. destruct (gc && taken j); injection E as <- <-; [rewrite (weight_sym w j i)|]; exact ST.
             ++ intros ->. cbn in E. rewrite RE. destruct (taken j) eqn:Ej; injection E as <- <-; [now apply T|].
                destruct PQ as [[-> ->]|[-> ->]]; [assumption|]. rewrite Nat.eqb_refl in TJ. discriminate.
             ++ intros ->. cbn in E. injection E as <- <-. exists r. assumption.
          -- subst e0. destruct (OK ta a b tb E') as [A B]. rewrite <- app_assoc in A, B. cbn in A, B. split; assumption.
        * lia.
        * intros a b [E|H]; [|auto]. unfold e in E. destruct (gc && taken j); injection E as <- <-; [rewrite weight_sym|]; lia.
        * destruct M3 as [M3|[a [b [H1 H2]]]]; [|right; exists a, b; split; [now right|assumption]].
          destruct (Z.min_spec m r) as [[_ E]|[_ E]]; rewrite E in M3; [now left|right].
          exists (fst e), (snd e). split; [left; now destruct e|]. rewrite M3, RW. destruct EE as [[-> ->]|[-> ->]]; [reflexivity|apply weight_sym].
  Qed.

  Lemma grow_too_many gc : forall k taken m R, NoDup R -> (forall v, In v R -> (v < n)%nat) -> (length R <= n)%nat -> (n < length R + k)%nat ->
    (forall v, taken v = true <-> In v R) -> grow gc k l taken m = Fault OutOfBounds.
  Proof using L.
    clear D root. induction k as [|k IH]; intros taken m R ND RN L1 L2 T; [lia|]. cbn [grow].
    destruct (find (one_taken taken) l) as [[r [i j]]|] eqn:F; [|reflexivity].
    pose proof (find_some _ _ F) as [IF TE]. destruct (proj1 L _ _ _ IF) as [In_ [Jn [IJ RW]]]. unfold one_taken in TE. cbn [fst snd] in TE.
    assert (X : exists q, ~ In q R /\ (q < n)%nat /\ ((q = j /\ In i R) \/ (q = i /\ In j R))).
    { destruct (taken i) eqn:Ei, (taken j) eqn:Ej; try discriminate.
      - exists j. rewrite <- !T, Ej. intuition congruence.
      - exists i. rewrite <- !T, Ei. intuition congruence. }
    destruct X as [q [Q1 [Q2 Q3]]].
    rewrite (IH _ _ (q :: R)); [reflexivity| | | | |].
    - now constructor.
    - intros x [<-|Hx]; auto.
    - assert (I : incl (q :: R) (seq 0 n)) by (intros x [<-|Hx]; apply in_seq; [lia|apply RN in Hx; lia]).
      apply NoDup_incl_length in I; [|now constructor]. rewrite seq_length in I. exact I.
    - cbn. lia.
    - intros x. unfold mark. destruct (Nat.eqb_spec x i) as [->|N1]; cbn.
      + destruct Q3 as [[-> ?]|[-> ?]]; intuition.
      + destruct (Nat.eqb_spec x j) as [->|N2]; [destruct Q3 as [[-> ?]|[-> ?]]; intuition|]. rewrite T. destruct Q3 as [[-> ?]|[-> ?]]; intuition congruence.
  Qed.
End Grow.

(** the points reached: one more than edges *)
Lemma grows_count n root t : (root < n)%nat -> grows n root t ->
  exists R, NoDup R /\ length R = S (length t) /\ (forall v, In v R <-> reached root t v) /\ forall v, In v R -> (v < n)%nat.
Proof.
  intros Hr. induction t as [|[a b] t IH] using rev_ind; intros G.
  - exists [root]. split; [repeat constructor; intros []|]. split; [reflexivity|]. split.
    + intros v. unfold reached. cbn. split; [intros [->|[]]; now left|intros [->|[e [[] _]]]; now left].
    + intros v [<-|[]]. assumption.
  - destruct IH as [R [N [LR [RE RN]]]].
    { intros t1 x y t2 E. apply (G t1 x y (t2 ++ [(a, b)])). rewrite E, <- app_assoc. reflexivity. }
    destruct (G t a b [] eq_refl) as [An [Bn X]].
    assert (Y : exists q, (q < n)%nat /\ ~ In q R /\ ((q = a /\ In b R) \/ (q = b /\ In a R))).
    { rewrite <- !RE in X. destruct X as [[X1 X2]|[X1 X2]]; [exists b|exists a]; auto. }
    destruct Y as [q [Qn [Qr Q]]]. exists (q :: R). split; [now constructor|]. split; [cbn; rewrite LR, app_length; cbn; lia|]. split.
    + intros v. cbn. rewrite RE. unfold reached. setoid_rewrite in_app_iff. cbn. split.
      * intros [<-|[->|[e [H H']]]]; [right; exists (a, b)|now left|right; exists e; auto]. cbn. destruct Q as [[-> _]|[-> _]]; auto.
      * intros [->|[e [[H|[<-|[]]] H']]]; [auto|right; right; now exists e|]. cbn in H'.
        destruct Q as [[-> Q]|[-> Q]]; destruct H' as [->| ->]; auto; right; now apply RE in Q.
    + intros v [<-|H]; auto.
Qed.

Lemma linked_trans E u v x : linked_by E u v -> linked_by E v x -> linked_by E u x.
Proof. intros H1 H2. induction H2 as [|y z H IH EE]; [assumption|]. eapply linked_step; eassumption. Qed.
Lemma linked_sym E u v : linked_by E u v -> linked_by E v u.
Proof.
  intros H. induction H as [|y z H IH EE]; [constructor|]. eapply linked_trans; [|eassumption]. eapply linked_step; [constructor|tauto].
Qed.
Lemma linked_mono (E F : nat -> nat -> Prop) u v : (forall x y, E x y -> F x y) -> linked_by E u v -> linked_by F u v.
Proof. intros I H. induction H as [|y z H IH EE]; [constructor|]. eapply linked_step; [eassumption|]. destruct EE; auto. Qed.

Lemma reached_linked n root t v : grows n root t -> reached root t v -> linked_by (fun a b => In (a, b) t) root v.
Proof.
  revert v. induction t as [|[a b] t IH] using rev_ind; intros v G H.
  - destruct H as [->|[e [[] _]]]. constructor.
  - assert (Gt : grows n root t).
    { intros t1 x y t2 E. apply (G t1 x y (t2 ++ [(a, b)])). rewrite E, <- app_assoc. reflexivity. }
    assert (M : forall x, reached root t x -> linked_by (fun c d => In (c, d) (t ++ [(a, b)])) root x).
    { intros x Hx. eapply linked_mono; [|apply IH; eassumption]. intros c d Hc. apply in_app_iff. now left. }
    assert (IE : In (a, b) (t ++ [(a, b)])) by (apply in_app_iff; right; now left).
    destruct (G t a b [] eq_refl) as [_ [_ X]].
    destruct H as [->|[e [H H']]]; [constructor|]. apply in_app_iff in H as [H|[<-|[]]].
    + apply M. right. now exists e.
    + cbn in H'. destruct X as [[X1 X2]|[X1 X2]]; destruct H' as [->| ->].
      * now apply M.
      * eapply linked_step; [apply M, X1|]. now left.
      * eapply linked_step; [apply M, X1|]. now right.
      * now apply M.
Qed.

(** a tree with n - 1 edges reaches all points *)
Lemma grows_spans n root t : (root < n)%nat -> grows n root t -> length t = (n - 1)%nat -> spans n (fun a b => In (a, b) t).
Proof.
  intros Hr G LT. split.
  - intros a b H. apply in_split in H as [t1 [t2 E]]. destruct (G t1 a b t2 E) as [A [B X]]. repeat split; auto. intros ->. tauto.
  - destruct (grows_count n root t Hr G) as [R [N [LR [RE RN]]]].
    assert (A : forall v, (v < n)%nat -> linked_by (fun a b => In (a, b) t) root v).
    { intros v Hv. apply (reached_linked n); [assumption|]. apply RE.
      assert (I : incl (seq 0 n) R).
      { apply NoDup_length_incl; [assumption|rewrite seq_length; lia|]. intros x Hx. apply RN in Hx. apply in_seq. lia. }
      apply I. apply in_seq. lia. }
    intros u v Hu Hv. eapply linked_trans; [apply linked_sym|]; now apply A.
Qed.

Lemma reached_dec root t x : {reached root t x} + {~ reached root t x}.
Proof.
  unfold reached. destruct (Nat.eq_dec x root) as [->|N]; [left; now left|].
  destruct (existsb (fun e => (x =? fst e)%nat || (x =? snd e)%nat) t) eqn:EX.
  - left. right. apply existsb_exists in EX as [e [He Ee]]. exists e. split; [assumption|].
    apply orb_true_iff in Ee as [Ee|Ee]; apply Nat.eqb_eq in Ee; auto.
  - right. intros [->|[e [He Ee]]]; [congruence|]. assert (existsb (fun e => (x =? fst e)%nat || (x =? snd e)%nat) t = true); [|congruence].
    apply existsb_exists. exists e. split; [assumption|]. apply orb_true_iff. rewrite !Nat.eqb_eq. exact Ee.
Qed.

Lemma crossing root t E p q : linked_by E p q -> reached root t p -> ~ reached root t q ->
  exists u v, (E u v \/ E v u) /\ reached root t u /\ ~ reached root t v.
Proof.
  intros P Rp Rq. induction P as [|v x P IH EE]; [contradiction|].
  destruct (reached_dec root t v) as [Dv|Dv]; [exists v, x; auto|]. now apply IH.
Qed.

Lemma crossing_light n root w t t1 a b t2 (E : nat -> nat -> Prop) p q : best n root w t -> t = t1 ++ (a, b) :: t2 -> (forall u v, E u v -> (u < n)%nat /\ (v < n)%nat /\ u <> v) ->
  linked_by E p q -> reached root t1 p -> ~ reached root t1 q -> exists u v, E u v /\ weight w u v <= weight w a b.
Proof.
  intros B E1 S1 P Rp Rq. destruct (crossing root t1 E p q P Rp Rq) as [u [v [EE [Ru Rv]]]].
  assert (N : (u < n)%nat /\ (v < n)%nat) by (destruct EE as [EE|EE]; apply S1 in EE; tauto).
  pose proof (B t1 a b t2 E1 u v (proj1 N) (proj2 N) Ru Rv) as W.
  destruct EE as [EE|EE]; [exists u, v|exists v, u; rewrite weight_sym]; (split; [assumption|lia]).
Qed.

(** every set of edges that links all points contains one that is no heavier than the least edge *)
Lemma bottleneck n root w t m E : (root < n)%nat -> grows n root t -> best n root w t -> least_weight w t m -> spans n E ->
  exists u v, E u v /\ weight w u v <= m.
Proof.
  intros Hr G B [[a [b [H M]]] _] [S1 S2]. apply in_split in H as [t1 [t2 E1]].
  destruct (G t1 a b t2 E1) as [An [Bn X]].
  assert (Y : exists q, (q < n)%nat /\ ~ reached root t1 q) by (destruct X as [[_ X]|[_ X]]; eauto).
  destruct Y as [q [Qn Qr]]. rewrite <- M. apply (crossing_light n root w t t1 a b t2 E root q); auto. now left.
Qed.

Lemma other (R : list nat) q : NoDup R -> (2 <= length R)%nat -> exists p, In p R /\ p <> q.
Proof.
  intros N H. destruct R as [|x [|y R]]; cbn in H; try lia. destruct (Nat.eq_dec x q) as [->|D].
  - exists y. split; [right; now left|]. intros ->. inversion N as [|? ? N1 _]. apply N1. now left.
  - exists x. split; [now left|assumption].
Qed.

(** the same for n - 2 edges and sets that leave out one point *)
Lemma bottleneck_but n root w a b t m q E : (3 <= n)%nat -> (root < n)%nat -> length ((a, b) :: t) = (n - 2)%nat -> grows n root ((a, b) :: t) ->
  best n root w ((a, b) :: t) -> least_weight w ((a, b) :: t) m ->
  (forall u v, (u < n)%nat -> (v < n)%nat -> u <> v -> weight w u v <= weight w a b) -> spans_but n q E ->
  exists u v, E u v /\ weight w u v <= m.
Proof.
  intros Hn Hr LT G B [[c [d [H M]]] _] TB [S1 S2]. apply in_split in H as [t1 [t2 E1]]. rewrite <- M.
  assert (NS : NoDup (seq 0 n)) by apply seq_NoDup.
  destruct t1 as [|e t1].
  - cbn in E1. injection E1 as -> -> ->. destruct (other (seq 0 n) q NS) as [p [P1 P2]]; [rewrite seq_length; lia|]. apply in_seq in P1.
    assert (X : exists p', (p' < n)%nat /\ p' <> q /\ p' <> p).
    { destruct (other (remove Nat.eq_dec p (seq 0 n)) q) as [p' [P3 P4]].
      - clear. generalize (seq_NoDup n 0). induction (seq 0 n) as [|x s IH]; cbn; intros N; [constructor|].
        inversion N as [|? ? N1 N2]; subst. destruct (Nat.eq_dec p x); [auto|]. constructor; [|auto]. intros K. apply in_remove in K. tauto.
      - assert (K : forall s, NoDup s -> (length s <= S (length (remove Nat.eq_dec p s)))%nat).
        { clear. induction s as [|x s IH]; cbn; intros N; [lia|]. inversion N as [|? ? N1 N2]; subst. specialize (IH N2).
          destruct (Nat.eq_dec p x) as [->|]; cbn; [|lia]. rewrite notin_remove by assumption. lia. }
        specialize (K _ NS). rewrite seq_length in K. lia.
      - exists p'. apply in_remove in P3 as [P3 P5]. apply in_seq in P3. repeat split; auto; lia. }
    destruct X as [p' [X1 [X2 X3]]]. assert (P : linked_by E p p') by (apply S2; auto; lia).
    assert (Y : exists u v, E u v). { inversion P as [EP|v0 x0 P0 EE EP]; [congruence|]. destruct EE; eauto. }
    destruct Y as [u [v Y]]. exists u, v. split; [assumption|]. destruct (S1 u v Y) as [? [? ?]]. now apply TB.
  - assert (G1 : grows n root (e :: t1)).
    { intros t3 x y t4 E3. apply (G t3 x y (t4 ++ (c, d) :: t2)). rewrite E1, E3, <- app_assoc. reflexivity. }
    destruct (grows_count n root (e :: t1) Hr G1) as [R [N [LR [RE RN]]]].
    assert (L1 : (length (e :: t1) <= n - 3)%nat) by (rewrite E1, app_length in LT; cbn in *; lia).
    destruct (other R q N) as [p [P1 P2]]; [cbn in LR; lia|].
    assert (X : exists p', (p' < n)%nat /\ ~ In p' R /\ p' <> q).
    { destruct (forallb (fun v => existsb (Nat.eqb v) (q :: R)) (seq 0 n)) eqn:EF.
      - exfalso. rewrite forallb_forall in EF. assert (I : incl (seq 0 n) (q :: R)).
        { intros v Hv. apply EF in Hv. apply existsb_exists in Hv as [x [Hx Ex]]. apply Nat.eqb_eq in Ex. now subst. }
        apply NoDup_incl_length in I; [|assumption]. rewrite seq_length in I. cbn in I, LR, L1. lia.
      - assert (Y : exists v, In v (seq 0 n) /\ existsb (Nat.eqb v) (q :: R) = false).
        { clear -EF. induction (seq 0 n) as [|x s IH]; [discriminate|]. cbn [forallb] in EF. apply andb_false_iff in EF as [EF|EF].
          - exists x. split; [now left|assumption].
          - destruct (IH EF) as [v [H1 H2]]. exists v. split; [now right|assumption]. }
        destruct Y as [v [H1 H2]]. exists v. apply in_seq in H1. cbn in H2. apply orb_false_iff in H2 as [H2 H3].
        apply Nat.eqb_neq in H2. repeat split; [lia| |assumption]. intros K.
        assert (existsb (Nat.eqb v) R = true); [|congruence]. apply existsb_exists. exists v. split; [assumption|apply Nat.eqb_refl]. }
    destruct X as [p' [X1 [X2 X3]]].
    apply (crossing_light n root w _ (e :: t1) c d t2 E p p' B E1 S1); [apply S2; auto|now apply RE|now rewrite <- RE].
Qed.

Lemma top_best n w l r i j u v : all_edges n w l -> desc l -> hd_error l = Some (r, (i, j)) -> (u < n)%nat -> (v < n)%nat -> u <> v ->
  weight w u v <= weight w i j.
Proof.
  intros A D H Hu Hv N. destruct l as [|e l]; [discriminate|]. cbn in H. injection H as ->.
  assert (X : forall r' x y, In (r', (x, y)) ((r, (i, j)) :: l) -> weight w x y <= weight w i j).
  { intros r' x y HI. destruct (proj1 A _ _ _ HI) as [_ [_ [_ <-]]]. destruct (proj1 A r i j) as [_ [_ [_ <-]]]; [now left|].
    destruct HI as [HI|HI]; [injection HI as <- <- <-; lia|]. apply in_split in HI as [l1 [l2 ->]]. exact (D [] _ l1 _ l2 eq_refl). }
  destruct (proj2 A u v Hu Hv N) as [r' [HI|HI]]; [|rewrite weight_sym]; eapply X; eassumption.
Qed.

Lemma edges_nonempty n w l : (2 <= n)%nat -> all_edges n w l -> l <> [].
Proof. intros H [_ A] ->. destruct (A 0%nat 1%nat) as [r [[]|[]]]; lia. Qed.

Lemma max_spanning_ok sort n w re nedges k : sort_ok sort -> (2 <= n)%nat -> k = match nedges with O => (n - 1)%nat | _ => nedges end -> (k <= n - 1)%nat ->
  exists root a b t m, max_spanning sort n w re nedges = Done ((a, b) :: t, m) /\ (root < n)%nat /\ length ((a, b) :: t) = k /\
    grows n root ((a, b) :: t) /\ best n root w ((a, b) :: t) /\ least_weight w ((a, b) :: t) m /\
    (forall u v, (u < n)%nat -> (v < n)%nat -> u <> v -> weight w u v <= weight w a b) /\
    (forall c d, In (c, d) ((a, b) :: t) -> re c <= re d).
Proof.
  intros SO Hn Hk Kn. unfold max_spanning. rewrite <- Hk. destruct (SO (edges_lr n w re)) as [P S1].
  pose proof (all_edges_perm n w _ _ P (edges_lr_all n w re)) as A. pose proof (desc_rev _ S1) as D.
  assert (OR : forall r c d, In (r, (c, d)) (rev (sort (edges_lr n w re))) -> re c <= re d).
  { intros r c d H. apply in_rev in H. apply (edges_lr_order n w re r). eapply Permutation_in; [symmetry; exact P|exact H]. }
  pose proof (edges_nonempty _ _ _ Hn A) as NE. remember (rev (sort (edges_lr n w re))) as l eqn:El. clear El.
  destruct l as [|[r [i j]] l']; [now elim NE|]. remember ((r, (i, j)) :: l') as l eqn:El.
  destruct (proj1 A r i j) as [I1 [J1 [IJ RW]]]; [rewrite El; now left|].
  assert (K1 : (1 <= k)%nat) by (destruct nedges; lia).
  destruct (grow_ok n i w l A D false k (mark (fun _ => false) i i) r [] [i]) as [t [m [G [LT [OK [M1 [M2 M3]]]]]]].
  - repeat constructor. intros [].
  - intros v [<-|[]]. assumption.
  - cbn. lia.
  - now left.
  - intros v. unfold mark. rewrite orb_diag. destruct (Nat.eqb_spec v i); cbn; intuition congruence.
  - intros v. unfold reached. cbn. split; [intros [->|[e [[] _]]]; now left|intros [->|[]]; now left].
  - destruct t as [|[a b] t]; [cbn in LT; lia|]. exists i, a, b, t, m. rewrite El in *. rewrite <- El in *. split; [exact G|].
    split; [assumption|]. split; [assumption|].
    assert (TB : forall u v, (u < n)%nat -> (v < n)%nat -> u <> v -> weight w u v <= weight w i j).
    { intros u v. apply (top_best n w l r); auto. rewrite El. reflexivity. }
    assert (AB : weight w a b = weight w i j).
    { destruct (OK [] a b t eq_refl) as [[A1 [B1 [C1 W1]]] _]. cbn in C1, W1.
      assert (a <> b) by (intros ->; tauto). pose proof (TB a b A1 B1 H).
      assert (weight w i j <= weight w a b); [|lia]. apply W1; auto; [now left|]. unfold reached. cbn. intros [->|[e [[] _]]]. congruence. }
    split; [|split; [|split; [|split]]].
    + intros t1 c d t2 E. apply OK in E as [[X1 [X2 [X3 _]]] _]. cbn in X3. tauto.
    + intros t1 c d t2 E. apply OK in E as [[_ [_ [_ X]]] _]. exact X.
    + split; [|exact M2]. destruct M3 as [->|M3]; [|exact M3]. exists a, b. split; [now left|congruence].
    + intros u v. rewrite AB. apply TB.
    + intros c d H. apply in_split in H as [t1 [t2 E]]. destruct (OK t1 c d t2 E) as [_ [_ X]]. destruct (X eq_refl) as [r' H]. eapply OR. exact H.
Qed.

Lemma max_spanning_gc_ok sort n w nedges k : sort_ok sort -> (2 <= n)%nat -> k = match nedges with O => (n - 1)%nat | _ => nedges end -> (k <= n - 1)%nat ->
  exists a b t m, max_spanning_gc sort n w nedges = Done ((a, b) :: t, m) /\ (a < n)%nat /\ length ((a, b) :: t) = k /\
    grows n a ((a, b) :: t) /\ best n a w ((a, b) :: t) /\ least_weight w ((a, b) :: t) m /\
    (forall u v, (u < n)%nat -> (v < n)%nat -> u <> v -> weight w u v <= weight w a b) /\
    (forall t1 c d t2, (a, b) :: t = t1 ++ (c, d) :: t2 -> reached a t1 c).
Proof.
  intros SO Hn Hk Kn. unfold max_spanning_gc. rewrite <- Hk. destruct (SO (edges_gc n w)) as [P S1].
  pose proof (all_edges_perm n w _ _ P (edges_gc_all n w)) as A. pose proof (desc_rev _ S1) as D.
  pose proof (edges_nonempty _ _ _ Hn A) as NE. remember (rev (sort (edges_gc n w))) as l eqn:El. clear El.
  destruct l as [|[r [i j]] l']; [now elim NE|]. remember ((r, (i, j)) :: l') as l eqn:El.
  destruct (proj1 A r i j) as [I1 [J1 [IJ RW]]]; [rewrite El; now left|].
  assert (K1 : (1 <= k)%nat) by (destruct nedges; lia). destruct k as [|k]; [lia|]. clear K1.
  assert (TB : forall u v, (u < n)%nat -> (v < n)%nat -> u <> v -> weight w u v <= weight w i j).
  { intros u v. apply (top_best n w l r); auto. rewrite El. reflexivity. }
  destruct (grow_ok n i w l A D true k (mark (fun _ => false) i j) r [(i, j)] [j; i]) as [t [m [G [LT [OK [M1 [M2 M3]]]]]]].
  - constructor; [intros [?|[]]; congruence|]. repeat constructor. intros [].
  - intros v [<-|[<-|[]]]; assumption.
  - cbn. lia.
  - right. now left.
  - intros v. unfold mark. destruct (Nat.eqb_spec v i), (Nat.eqb_spec v j); cbn; intuition congruence.
  - intros v. unfold reached. cbn. split.
    + intros [->|[e [[<-|[]] H]]]; [auto|]. cbn in H. intuition.
    + intros [<-|[<-|[]]]; [right; exists (i, j); auto|now left].
  - exists i, j, t, m. rewrite G. cbn [bind fst snd]. split; [reflexivity|]. split; [assumption|]. split; [cbn; now rewrite LT|].
    assert (OK' : forall t1 c d t2, (i, j) :: t = t1 ++ (c, d) :: t2 -> step_ok n i w t1 c d /\ reached i t1 c).
    { intros t1 c d t2 E. destruct t1 as [|e t1]; cbn in E.
      - injection E as <- <- <-. split; [|now left]. split; [assumption|]. split; [assumption|]. split.
        + left. split; [now left|]. intros [->|[e [[] _]]]. congruence.
        + intros u v Hu Hv Ru Rv. apply TB; auto. intros ->. contradiction.
      - injection E as <- E. destruct (OK t1 c d t2 E) as [X1 [X2 _]]. cbn in X1, X2. split; [exact X1|now apply X2]. }
    split; [|split; [|split; [|split]]].
    + intros t1 c d t2 E. apply OK' in E as [[X1 [X2 [X3 _]]] _]. tauto.
    + intros t1 c d t2 E. apply OK' in E as [[_ [_ [_ X]]] _]. exact X.
    + split.
      * destruct M3 as [->|[a [b [H1 H2]]]]; [exists i, j; split; [now left|congruence]|exists a, b; split; [now right|assumption]].
      * intros a b [E|H]; [injection E as <- <-; lia|now apply M2].
    + exact TB.
    + intros t1 c d t2 E. apply (OK' t1 c d t2 E).
Qed.

Lemma max_spanning_error sort n w re nedges : sort_ok sort -> (n < 2)%nat \/ (n <= nedges)%nat -> max_spanning sort n w re nedges = Fault OutOfBounds.
Proof.
  intros SO H. unfold max_spanning. destruct (SO (edges_lr n w re)) as [P _]. pose proof (all_edges_perm n w _ _ P (edges_lr_all n w re)) as A.
  remember (rev (sort (edges_lr n w re))) as l eqn:El. clear El. destruct l as [|[r [i j]] l']; [reflexivity|].
  destruct (proj1 A r i j) as [I1 [J1 [IJ RW]]]; [now left|].
  apply (grow_too_many n w _ A) with (R := [i]).
  - repeat constructor. intros [].
  - intros v [<-|[]]. assumption.
  - cbn. lia.
  - cbn. destruct nedges; lia.
  - intros v. unfold mark. rewrite orb_diag. destruct (Nat.eqb_spec v i); cbn; intuition congruence.
Qed.

Lemma max_spanning_gc_error sort n w nedges : sort_ok sort -> (n < 2)%nat \/ (n <= nedges)%nat -> max_spanning_gc sort n w nedges = Fault OutOfBounds.
Proof.
  intros SO H. unfold max_spanning_gc. destruct (SO (edges_gc n w)) as [P _]. pose proof (all_edges_perm n w _ _ P (edges_gc_all n w)) as A.
  remember (rev (sort (edges_gc n w))) as l eqn:El. clear El. destruct l as [|[r [i j]] l']; [reflexivity|].
  destruct (proj1 A r i j) as [I1 [J1 [IJ RW]]]; [now left|].
  remember (match nedges with O => (n - 1)%nat | _ => nedges end) as k eqn:Hk. destruct k as [|k]; [destruct nedges; lia|].
  rewrite (grow_too_many n w _ A true k) with (R := [j; i]); [reflexivity| | | | |].
  - constructor; [intros [?|[]]; congruence|]. repeat constructor. intros [].
  - intros v [<-|[<-|[]]]; assumption.
  - cbn. lia.
  - cbn. destruct nedges; lia.
  - intros v. unfold mark. destruct (Nat.eqb_spec v i), (Nat.eqb_spec v j); cbn; intuition congruence.
Qed.
