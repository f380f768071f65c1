From Verif Require Import Base ModelTree SpecTree ProofTree ProofTreeMax.

(** a sort meeting the contract *)
Fixpoint insert (x : edge) (l : list edge) : list edge :=
  match l with
  | [] => [x]
  | y :: l => if dlt (er y) (er x) then y :: insert x l else x :: y :: l
  end.
Definition isort (l : list edge) : list edge := fold_right insert [] l.

Lemma insert_perm x l : Permutation (x :: l) (insert x l).
Proof.
  induction l as [|y l IH]; cbn; [apply Permutation_refl|].
  destruct (dlt _ _); [|apply Permutation_refl].
  eapply Permutation_trans; [apply perm_swap|]. apply perm_skip, IH.
Qed.
Lemma isort_perm l : Permutation l (isort l).
Proof.
  induction l as [|x l IH]; cbn; [apply Permutation_refl|].
  eapply Permutation_trans; [apply perm_skip, IH|apply insert_perm].
Qed.
Lemma insert_sorted x l : is_number (er x) -> (forall y, In y l -> is_number (er y)) -> sorted l -> sorted (insert x l).
Proof.
  intros Hx. induction l as [|y l IH]; intros Hl Hs; cbn; [split; [intros ? []|exact I]|].
  destruct Hs as [Hy Hs]. destruct (dlt (er y) (er x)) eqn:E.
  - cbn. split.
    + intros z Hz. apply (Permutation_in _ (Permutation_sym (insert_perm x l))) in Hz. destruct Hz as [<-|Hz]; [|apply Hy, Hz].
      unfold dlt in *. destruct (er x), (er y); try reflexivity; lia.
    + apply IH; [intros; apply Hl; right; assumption|exact Hs].
  - cbn. split; [|split; assumption].
    intros z [<-|Hz]; [exact E|]. specialize (Hy z Hz).
    pose proof (Hl y (or_introl eq_refl)) as Hyn. unfold is_number, dlt in *.
    destruct (er x), (er y), (er z); try reflexivity; try congruence; lia.
Qed.
Lemma isort_ok : qsort_ok isort.
Proof.
  intros l. split; [apply isort_perm|]. induction l as [|x l IH]; intros H; cbn; [exact I|].
  apply insert_sorted; [apply H; left; reflexivity| |apply IH; intros; apply H; right; assumption].
  intros y Hy. apply H. right. apply (Permutation_in _ (Permutation_sym (isort_perm l)) Hy).
Qed.

Lemma tree_final sort param len n r mn : (forall l, Permutation l (sort l)) -> (n < len)%nat ->
  exists l r' mn', spanning_tree sort param len n r mn = Done (l, r', mn') /\ length l = n /\
    growing l /\ connected l /\ acyclic l /\ (forall v, touched l v -> (v < len)%nat) /\
    ((1 <= n)%nat -> S n = len -> forall v, (v < len)%nat -> touched l v).
Proof.
  intros Hp Hn. destruct (tree_spec sort param len n r mn Hp Hn) as (l & E & Hl & Hg & Hr & _).
  do 3 eexists. conj; [exact E|exact Hl|exact Hg|apply growing_connected, Hg|apply growing_acyclic, Hg|exact Hr|].
  intros H1 H2. apply growing_spans; try assumption; [congruence|]. intros ->. cbn in Hl. lia.
Qed.

Lemma tree_max_final sort param len n r mn l r' mn' w : qsort_ok sort -> (n < len)%nat ->
  (forall y, In y (edges_init param len) -> is_number (er y)) ->
  spanning_tree sort param len n r mn = Done (l, r', mn') ->
  forall u v, touched l u -> touched l v ->
    linked (heavy w (edges_init param len)) u v -> linked (heavy w l) u v.
Proof.
  intros Hs Hn Hnum E u v Hu Hv.
  destruct (tree_spec sort param len n r mn (fun l => proj1 (Hs l)) Hn) as (l' & E' & _ & Hg & _ & Hfr & Hgr).
  assert (l' = l) by congruence. subst l'.
  apply (prim_bottleneck len); try assumption; [apply edges_init_complete|]. apply Hgr. apply Hs, Hnum.
Qed.

(** every chosen edge carries its own weight *)
Lemma tree_weights sort param len n r mn l r' mn' : (forall l, Permutation l (sort l)) -> (n < len)%nat ->
  spanning_tree sort param len n r mn = Done (l, r', mn') ->
  forall x, In x l -> er x = param_edge param (Nat.min (ea x) (eb x)) (Nat.max (ea x) (eb x)) len.
Proof.
  intros Hs Hn E x Hx.
  destruct (tree_spec sort param len n r mn Hs Hn) as (l' & E' & _ & _ & _ & Hfr & _).
  assert (l' = l) by congruence. subst l'. destruct (Hfr x Hx) as (y & Hy & [Er Hj]).
  apply edges_init_in in Hy. destruct Hy as [Hlt Ey]. rewrite <- Er, Ey.
  destruct Hj as [[<- <-]|[<- <-]].
  - rewrite Nat.min_l, Nat.max_r by lia. reflexivity.
  - rewrite Nat.min_r, Nat.max_l by lia. reflexivity.
Qed.

Lemma tree_worst sort param len n mn l r' mn' : (forall l, Permutation l (sort l)) -> (1 <= n < len)%nat ->
  spanning_tree sort param len n (Some 0) mn = Done (l, r', mn') ->
  (forall x, In x l -> exists y, er x = Some y /\ y <> 0) ->
  exists z x, r' = Some z /\ nth_error l mn' = Some x /\ er x = Some z /\ (forall x y, In x l -> er x = Some y -> z <= y).
Proof.
  intros Hs Hn E Hw.
  destruct (tree_spec sort param len n (Some 0) mn Hs ltac:(lia)) as (l' & E' & Hl & _).
  assert (l' = l) by congruence. subst l'.
  assert (l <> []) by (intros ->; cbn in Hl; lia).
  destruct (track_fresh l H Hw mn) as (z & mn0 & x & Et & Ex & Er & Hm).
  rewrite Et in E'. cbn [fst snd] in E'. rewrite E in E'. injection E' as -> ->.
  exists z, x. conj; try assumption. reflexivity.
Qed.

Lemma track_again l : forall k z mn, z <> 0 -> (forall x y, In x l -> er x = Some y -> z <= y) -> track l k (Some z) mn = (Some z, mn).
Proof.
  induction l as [|x l IH]; intros k z mn Hz H; [reflexivity|]. cbn [track dzero].
  destruct (Z.eqb_spec z 0); [contradiction|]. cbn [orb].
  assert (E : dlt (er x) (Some z) = false).
  { destruct (er x) as [y|] eqn:Ex; [|reflexivity]. cbn. specialize (H x y (or_introl eq_refl) Ex). lia. }
  rewrite E. apply IH; [exact Hz|]. intros; apply (H x0); [right|]; assumption.
Qed.

Lemma tree_again sort param len n mn l r' mn' : (forall l, Permutation l (sort l)) -> (1 <= n < len)%nat ->
  spanning_tree sort param len n (Some 0) mn = Done (l, r', mn') ->
  (forall x, In x l -> exists y, er x = Some y /\ y <> 0) ->
  spanning_tree sort param len n r' mn' = Done (l, r', mn').
Proof.
  intros Hs Hn E Hw. destruct (tree_worst _ _ _ _ _ _ _ _ Hs Hn E Hw) as (z & x & -> & Ex & Er & Hm).
  assert (Hz : z <> 0).
  { destruct (Hw x (nth_error_In _ _ Ex)) as (y & Ey & Hy). congruence. }
  (* the edges do not depend on r, mn *)
  assert (G : forall todo k e t r1 m1 r2 m2 l r' m', grow todo k e t r1 m1 = Done (l, r', m') ->
     exists r'' m'', grow todo k e t r2 m2 = Done (l, r'', m'')).
  { clear. induction todo as [|todo IH]; intros k e t r1 m1 r2 m2 l r' m'; cbn [grow].
    - intros H. injection H as <- <- <-. eauto.
    - destruct (length e); [discriminate|]. destruct (if (k =? 0)%nat then _ else _); try discriminate. cbn [bind].
      destruct (tget e a); try discriminate. cbn [bind]. destruct (tget t (eb a0)); try discriminate. cbn [bind].
      destruct (tget t _); try discriminate. cbn [bind].
      match goal with |- context[grow todo ?k' ?e' ?t' ?r0 ?m0] => destruct (grow todo k' e' t' r0 m0) as [[[l0 r0'] m0']| | |] eqn:E; try discriminate end.
      cbn [bind]. intros H. injection H as <- <- <-.
      match goal with |- context[grow todo ?k' ?e' ?t' ?r3 ?m3] => destruct (IH k' e' t' _ _ r3 m3 _ _ _ E) as (r'' & m'' & ->) end.
      cbn [bind]. eauto. }
  destruct (tree_spec sort param len n (Some z) mn' Hs ltac:(lia)) as (l2 & E2 & _).
  unfold spanning_tree in *.
  destruct (G _ _ _ _ _ _ (Some z) mn' _ _ _ E) as (r'' & m'' & E3).
  assert (l2 = l) by congruence. subst l2. rewrite E2. rewrite track_again by assumption. reflexivity.
Qed.
