(** C104: the spanning trees of the GP scripts. *)
From Coq Require Import Sorted.
From Verif Require Import Base ModelGpTree SpecGpTree ProofGpTree.

(** max_spanning: starting with the heaviest edge, the tree grows by the heaviest edge to a new point, the
    edges go from left to right, and the second result is the least weight. *)
Theorem C104_max_spanning :
  forall sort n w re nedges k, sort_ok sort -> (2 <= n)%nat -> k = match nedges with O => (n - 1)%nat | _ => nedges end -> (k <= n - 1)%nat ->
  exists root a b t m, max_spanning sort n w re nedges = Done ((a, b) :: t, m) /\ (root < n)%nat /\ length ((a, b) :: t) = k /\
    grows n root ((a, b) :: t) /\ best n root w ((a, b) :: t) /\ least_weight w ((a, b) :: t) m /\
    (forall u v, (u < n)%nat -> (v < n)%nat -> u <> v -> weight w u v <= weight w a b) /\
    (forall c d, In (c, d) ((a, b) :: t) -> re c <= re d).
Proof. exact max_spanning_ok. Qed.
Print Assumptions C104_max_spanning.

(** max_spanning_gc: the same, and the first end of each edge is a point reached before. *)
Theorem C104_max_spanning_gc :
  forall sort n w nedges k, sort_ok sort -> (2 <= n)%nat -> k = match nedges with O => (n - 1)%nat | _ => nedges end -> (k <= n - 1)%nat ->
  exists a b t m, max_spanning_gc sort n w nedges = Done ((a, b) :: t, m) /\ (a < n)%nat /\ length ((a, b) :: t) = k /\
    grows n a ((a, b) :: t) /\ best n a w ((a, b) :: t) /\ least_weight w ((a, b) :: t) m /\
    (forall u v, (u < n)%nat -> (v < n)%nat -> u <> v -> weight w u v <= weight w a b) /\
    (forall t1 c d t2, (a, b) :: t = t1 ++ (c, d) :: t2 -> reached a t1 c).
Proof. exact max_spanning_gc_ok. Qed.
Print Assumptions C104_max_spanning_gc.

(** For an odd number 2g+1 of points and 2g edges, the edges link all points, and no other set of edges
    that does so has a larger least weight. *)
Theorem C104_odd_degree :
  forall sort g w re t m, sort_ok sort -> (1 <= g)%nat ->
    max_spanning sort (2 * g + 1) w re (2 * g) = Done (t, m) \/ max_spanning_gc sort (2 * g + 1) w (2 * g) = Done (t, m) ->
    spans (2 * g + 1) (fun a b => In (a, b) t) /\ least_weight w t m /\
    forall E : nat -> nat -> Prop, spans (2 * g + 1) E -> exists u v, E u v /\ weight w u v <= m.
Proof.
  intros sort g w re t m SO Hg H. set (n := (2 * g + 1)%nat) in *. assert (Hn : (2 <= n)%nat) by (unfold n; lia).
  assert (X : exists root, (root < n)%nat /\ length t = (n - 1)%nat /\ grows n root t /\ best n root w t /\ least_weight w t m).
  { destruct H as [H|H].
    - destruct (max_spanning_ok sort n w re (2 * g) (2 * g) SO Hn) as [root [a [b [t' [m' [E [R1 [R2 [R3 [R4 [R5 _]]]]]]]]]]]; [destruct g; [lia|reflexivity]|unfold n; lia|].
      rewrite E in H. injection H as <- <-. exists root. split; [assumption|]. split; [rewrite R2; unfold n; lia|]. auto.
    - destruct (max_spanning_gc_ok sort n w (2 * g) (2 * g) SO Hn) as [a [b [t' [m' [E [R1 [R2 [R3 [R4 [R5 _]]]]]]]]]]; [destruct g; [lia|reflexivity]|unfold n; lia|].
      rewrite E in H. injection H as <- <-. exists a. split; [assumption|]. split; [rewrite R2; unfold n; lia|]. auto. }
  destruct X as [root [X1 [X2 [X3 [X4 X5]]]]]. split; [exact (grows_spans n root t X1 X3 X2)|]. split; [assumption|].
  intros E HE. exact (bottleneck n root w t m E X1 X3 X4 X5 HE).
Qed.
Print Assumptions C104_odd_degree.

(** For an even number 2g+2 of points and 2g edges, the edges are a tree on all points but one, and no
    other set of edges that links all points but one has a larger least weight. *)
Theorem C104_even_degree :
  forall sort g w re t m, sort_ok sort -> (1 <= g)%nat ->
    max_spanning sort (2 * g + 2) w re (2 * g) = Done (t, m) \/ max_spanning_gc sort (2 * g + 2) w (2 * g) = Done (t, m) ->
    (exists root, (root < 2 * g + 2)%nat /\ grows (2 * g + 2) root t) /\ length t = (2 * g)%nat /\ least_weight w t m /\
    forall q (E : nat -> nat -> Prop), spans_but (2 * g + 2) q E -> exists u v, E u v /\ weight w u v <= m.
Proof.
  intros sort g w re t m SO Hg H. set (n := (2 * g + 2)%nat) in *. assert (Hn : (2 <= n)%nat) by (unfold n; lia).
  assert (X : exists root a b t', t = (a, b) :: t' /\ (root < n)%nat /\ length t = (2 * g)%nat /\ grows n root t /\ best n root w t /\ least_weight w t m /\
    (forall u v, (u < n)%nat -> (v < n)%nat -> u <> v -> weight w u v <= weight w a b)).
  { destruct H as [H|H].
    - destruct (max_spanning_ok sort n w re (2 * g) (2 * g) SO Hn) as [root [a [b [t' [m' [E [R1 [R2 [R3 [R4 [R5 [R6 _]]]]]]]]]]]]; [destruct g; [lia|reflexivity]|unfold n; lia|].
      rewrite E in H. injection H as <- <-. exists root, a, b, t'. auto 10.
    - destruct (max_spanning_gc_ok sort n w (2 * g) (2 * g) SO Hn) as [a [b [t' [m' [E [R1 [R2 [R3 [R4 [R5 [R6 _]]]]]]]]]]]; [destruct g; [lia|reflexivity]|unfold n; lia|].
      rewrite E in H. injection H as <- <-. exists a, a, b, t'. auto 10. }
  destruct X as [root [a [b [t' [-> [X1 [X2 [X3 [X4 [X5 X6]]]]]]]]]]. split; [exists root; auto|]. split; [assumption|]. split; [assumption|].
  intros q E HE. apply (bottleneck_but n root w a b t' m q E); auto; [unfold n; lia|]. rewrite X2. unfold n. lia.
Qed.
Print Assumptions C104_even_degree.

(** With fewer than two points or too many edges both end with an error. *)
Theorem C104_error :
  forall sort n w re nedges, sort_ok sort -> (n < 2)%nat \/ (n <= nedges)%nat ->
    max_spanning sort n w re nedges = Fault OutOfBounds /\ max_spanning_gc sort n w nedges = Fault OutOfBounds.
Proof. intros sort n w re nedges SO H. split; [now apply max_spanning_error|now apply max_spanning_gc_error]. Qed.
Print Assumptions C104_error.

(** insertion sort *)
Fixpoint insert (x : wedge) (l : list wedge) : list wedge :=
  match l with [] => [x] | y :: l' => if fst x <=? fst y then x :: l else y :: insert x l' end.
Fixpoint isort (l : list wedge) : list wedge := match l with [] => [] | x :: l => insert x (isort l) end.
Lemma insert_perm x l : Permutation (x :: l) (insert x l).
Proof.
  induction l as [|y l IH]; cbn; [reflexivity|]. destruct (fst x <=? fst y); [reflexivity|]. rewrite perm_swap. now constructor.
Qed.
Lemma insert_sorted x l : StronglySorted (fun a b => fst a <= fst b) l -> StronglySorted (fun a b : wedge => fst a <= fst b) (insert x l).
Proof.
  induction 1 as [|y l S IH F]; cbn; [repeat constructor|]. destruct (fst x <=? fst y) eqn:E.
  - apply Z.leb_le in E. constructor; [now constructor|]. constructor; [assumption|]. eapply Forall_impl; [|exact F]. cbn. intros. lia.
  - apply Z.leb_gt in E. constructor; [assumption|]. apply (Permutation_Forall (insert_perm x l)). constructor; [lia|assumption].
Qed.
Lemma isort_ok : sort_ok isort.
Proof.
  intros l. split.
  - induction l as [|x l IH]; cbn; [constructor|]. rewrite <- insert_perm. now constructor.
  - assert (S : StronglySorted (fun a b : wedge => fst a <= fst b) (isort l)) by (induction l as [|x l IH]; cbn; [constructor|now apply insert_sorted]).
    intros l1 x l2 y l3 E. rewrite E in S. clear E. induction l1 as [|z l1 IH]; cbn in S; inversion S as [|? ? S' F]; subst; [|auto].
    rewrite Forall_forall in F. apply F. apply in_app_iff. right. now left.
Qed.
Example C104_nonvacuous :
  sort_ok isort /\
  max_spanning isort 5 (fun i j => Z.of_nat (7 * i + 3 * j) mod 11) (fun v => - Z.of_nat v) 0 = Done ([(3, 0); (2, 0); (3, 1); (4, 1)]%nat, 5) /\
  max_spanning_gc isort 6 (fun i j => Z.of_nat (7 * i + 3 * j) mod 11) 4 = Done ([(4, 5); (4, 1); (5, 2); (2, 0)]%nat, 6).
Proof. split; [exact isort_ok|]. split; vm_compute; reflexivity. Qed.
