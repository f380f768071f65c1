(** C24, C25: ordering of the branch points.  Statements only. *)
From Coq Require Import Reals List Permutation Lra.
From Verif Require Import ModelCmp SpecCmp ProofCmp.
Import ListNotations.
Local Open Scope R_scope.

(** C24 is false: for every enclosing subtraction of the precision in use, there are three balls,
    any two of them disjoint, that compare in a circle. *)
Theorem C24_circular_refuted :
  forall sub, sound sub -> tight sub -> exists a b c,
    acb_cmp_lex sub a b = 1%Z /\ acb_cmp_lex sub b c = 1%Z /\ acb_cmp_lex sub c a = 1%Z /\
    (forall v, ~ (cencloses a v /\ cencloses b v)) /\ (forall v, ~ (cencloses b v /\ cencloses c v)) /\
    (forall v, ~ (cencloses a v /\ cencloses c v)).
Proof.
  intros sub Hs Ht. destruct (cycle sub Hs Ht) as (H1 & H2 & _ & H3).
  eexists _, _, _. split; [exact H1|]. split; [exact H2|]. split; [exact H3|].
  assert (P : forall x v, encloses {| mid := x; rad := 0 |} v -> v = x).
  { intros x v H. unfold encloses in H. cbn in H. revert H. unfold Rabs. destruct (Rcase_abs _); lra. }
  repeat split; intros v [[_ A] [_ B]]; cbn in A, B; apply P in A; apply P in B; lra.
Qed.
Print Assumptions C24_circular_refuted.

(** Two balls with a common point are below each other both ways; the function never answers 0. *)
Theorem C24_common_point_refuted :
  forall sub a b v, sound sub -> cencloses a v -> cencloses b v ->
    acb_cmp_lex sub a b = (-1)%Z /\ acb_cmp_lex sub b a = (-1)%Z.
Proof. exact both_ways. Qed.
Print Assumptions C24_common_point_refuted.

(** It holds when any two real parts are separated or equal (for instance conjugate roots), and
    imaginary parts are separated in the latter case: then there is a sorted arrangement, it lists
    the roots in lexicographic order, and it is the only one, whatever order the roots came in.
    (Missing: balls whose real parts overlap without the real parts being equal.) *)
Theorem C24_sort_unique_partial :
  forall sub l, sound sub -> enclosures l -> all_separated sub l ->
    (exists l', Permutation l l' /\ ascending sub (map fst l')) /\
    (forall l', Permutation l l' -> ascending sub (map fst l') -> lex_sorted (map snd l')) /\
    (forall l1 l2, Permutation l l1 -> Permutation l l2 ->
       ascending sub (map fst l1) -> ascending sub (map fst l2) -> map snd l1 = map snd l2).
Proof. exact sort_unique. Qed.
Print Assumptions C24_sort_unique_partial.

(** Exact distinct points are always of this kind. *)
Theorem C24_exact_points_partial :
  forall sub v w, sound sub -> tight sub -> v <> w ->
    let p := ({| re := {| mid := fst v; rad := 0 |}; im := {| mid := snd v; rad := 0 |} |}, v) in
    let q := ({| re := {| mid := fst w; rad := 0 |}; im := {| mid := snd w; rad := 0 |} |}, w) in
    well_separated sub p q /\ (acb_cmp_lex sub (fst p) (fst q) = (-1)%Z <-> lex v w) /\
    (acb_cmp_lex sub (fst p) (fst q) = 1%Z <-> lex w v).
Proof.
  intros sub v w Hs Ht Hne p q.
  assert (Hw : well_separated sub p q) by exact (exact_points sub v w Hs Ht Hne). split; [exact Hw|].
  assert (E : forall x, encloses {| mid := x; rad := 0 |} x) by (intros x; apply encl; lra).
  destruct (cmp_correct sub p q Hs (conj (E _) (E _)) (conj (E _) (E _)) Hw) as [[A B]|[A B]]; rewrite A;
    split; split; intros H; try discriminate; try reflexivity; try exact B; exfalso;
    exact (lex_irrefl _ (lex_trans _ _ _ B H)).
Qed.
Print Assumptions C24_exact_points_partial.

(** enclosures of 1, i and -i of radius 1/8 *)
Example C24_nonvacuous :
  let l := [(pt 1 (1/8) 0 (1/8), (1, 0)); (pt 0 (1/8) 1 (1/8), (0, 1)); (pt 0 (1/8) (-1) (1/8), (0, -1))] in
  sound sub_exact /\ tight sub_exact /\ enclosures l /\ all_separated sub_exact l.
Proof.
  cbn zeta. split; [exact sub_exact_sound|]. split; [exact sub_exact_tight|]. split.
  - intros p [<-|[<-|[<-|[]]]]; split; apply encl; cbn; lra.
  - assert (S : forall a b, Rabs (a - b) > 1/4 -> separated sub_exact {| mid := a; rad := 1/8 |} {| mid := b; rad := 1/8 |}).
    { intros a b H. apply contains_zero_false. cbn. lra. }
    assert (S1 : forall a b, a - b > 1/4 \/ b - a > 1/4 -> separated sub_exact {| mid := a; rad := 1/8 |} {| mid := b; rad := 1/8 |}).
    { intros a b H. apply S. unfold Rabs. destruct (Rcase_abs _); lra. }
    intros i j d Hi Hj Hij. cbn [length] in Hi, Hj.
    destruct i as [|[|[|i]]]; [| | |exfalso; Lia.lia]; (destruct j as [|[|[|j]]]; [| | |exfalso; Lia.lia]);
      try (exfalso; apply Hij; reflexivity); cbn [nth]; unfold well_separated; cbn [fst snd re im pt].
    1,2,3,5: left; apply S1; lra.
    1,2: right; split; [reflexivity|apply S1; lra].
Qed.

(** C25 is false: the points i and 1/4 are listed in opposite orders, each order being the only
    one allowed, when their real parts are known with radius 1 and exactly. *)
Theorem C25_order_changes_refuted :
  forall sub, sound sub -> tight sub -> exists low1 low2 high1 high2,
    cencloses low1 (0, 1) /\ cencloses high1 (0, 1) /\ cencloses low2 (1/4, 0) /\ cencloses high2 (1/4, 0) /\
    ascending sub [low2; low1] /\ ascending sub [high1; high2] /\
    ~ ascending sub [low1; low2] /\ ~ ascending sub [high2; high1].
Proof. intros sub Hs Ht. eexists _, _, _, _. exact (order_changes sub Hs Ht). Qed.
Print Assumptions C25_order_changes_refuted.

(** It holds under the hypothesis of C24_sort_unique_partial at both precisions (with whatever
    subtractions): position by position, both lists enclose the same roots. *)
Theorem C25_same_order_partial :
  forall sub1 sub2 l1 l2, sound sub1 -> sound sub2 -> enclosures l1 -> enclosures l2 ->
    all_separated sub1 l1 -> all_separated sub2 l2 -> Permutation (map snd l1) (map snd l2) ->
    ascending sub1 (map fst l1) -> ascending sub2 (map fst l2) -> map snd l1 = map snd l2.
Proof. exact same_order. Qed.
Print Assumptions C25_same_order_partial.

Example C25_nonvacuous :
  let l1 := [(pt 0 (1/8) 1 (1/8), (0, 1)); (pt 1 (1/8) 0 (1/8), (1, 0))] in
  let l2 := [(pt 0 (1/64) 1 (1/64), (0, 1)); (pt 1 (1/64) 0 (1/64), (1, 0))] in
  ascending sub_exact (map fst l1) /\ ascending sub_exact (map fst l2) /\ enclosures l1 /\ enclosures l2.
Proof.
  cbn zeta. assert (T : forall r, 0 < r <= 1/8 -> ascending sub_exact [pt 0 r 1 r; pt 1 r 0 r]).
  { intros r Hr. constructor; [|constructor; [intros x []|constructor]]. intros x [<-|[]].
    unfold acb_cmp_lex, pt. cbn [re im].
    destruct (separated_neg sub_exact {| mid := 0; rad := r |} {| mid := 1; rad := r |} sub_exact_sound sub_exact_tight) as [-> ->]; cbn [mid rad]; try lra.
    reflexivity. }
  split; [apply T; lra|]. split; [apply T; lra|].
  split; intros p [<-|[<-|[]]]; split; apply encl; cbn; lra.
Qed.
