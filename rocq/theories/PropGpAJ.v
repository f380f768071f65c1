(** C105: the images of Weierstrass points in the GP scripts. *)
From Verif Require Import Base CBase SpecGpTree ProofGpTree ModelGpAJ SpecGpAJ ProofGpAJ.

(** For an odd degree 2g+1 and the tree of C104, AJWeierstrass(C,1) is half the coordinates of a path from the
    point P0 to each Weierstrass point, up to periods. *)
Theorem C105_loop_coordinates :
  forall g c AJ tree root p0, (1 <= g)%nat -> length tree = (2 * g)%nat -> (root < 2 * g + 1)%nat -> grows (2 * g + 1) root tree ->
    edges_are_half_loops (2 * g) c AJ tree -> (p0 < 2 * g + 1)%nat ->
    exists M, aj_loops tree p0 = Done M /\
      forall v, (v < 2 * g + 1)%nat -> half_chain (2 * g) c (fun f => AJ v f - AJ p0 f)%C (fun r => M r v).
Proof.
  intros g c AJ tree root p0 Hg LT Hr G H Hp.
  destruct (aj_loops_ok (2 * g) c AJ (2 * g + 1) tree p0) as [M [E X]]; [lia|now exists root|assumption|].
  exists M. split; [assumption|]. intros v Hv. apply (X) with (root := root); [|assumption|].
  - exists root. split; [|assumption]. apply (grows_all (2 * g + 1)); auto. lia.
  - apply (grows_all (2 * g + 1)); auto. lia.
Qed.
Print Assumptions C105_loop_coordinates.

(** AJWeierstrass(C) is the same in the symplectic basis, with coordinates 0 and 1/2. *)
Theorem C105_symplectic_coordinates :
  forall g c AJ tree root p0 ABtoC inverse, (1 <= g)%nat -> length tree = (2 * g)%nat -> (root < 2 * g + 1)%nat -> grows (2 * g + 1) root tree ->
    edges_are_half_loops (2 * g) c AJ tree -> (p0 < 2 * g + 1)%nat ->
    (forall i j, (i < 2 * g)%nat -> (j < 2 * g)%nat -> zsum (2 * g) (fun l => ABtoC i l * inverse l j) = if (i =? j)%nat then 1 else 0) ->
    exists A, AJWeierstrass (2 * g) inverse tree p0 = Done A /\ (forall l v, A l v = 0 \/ A l v = 1) /\
      forall v, (v < 2 * g + 1)%nat -> half_chain (2 * g) (base_change (2 * g) c ABtoC) (fun f => AJ v f - AJ p0 f)%C (fun l => A l v).
Proof.
  intros g c AJ tree root p0 P Q Hg LT Hr G H Hp PQ.
  assert (RA : forall v, (v < 2 * g + 1)%nat -> reached root tree v) by (intros v Hv; apply (grows_all (2 * g + 1)); auto; lia).
  destruct (AJWeierstrass_ok (2 * g) c AJ (2 * g + 1) P Q tree p0) as [A [E [X1 X2]]]; [lia|exists root; auto|assumption|assumption|].
  exists A. split; [assumption|]. split; [assumption|]. intros v Hv. apply (X2 v root); auto.
Qed.
Print Assumptions C105_symplectic_coordinates.

(** For an even degree 2g+2 the tree leaves out one point, and its column is wrong, although its image
    differs from those of the other points. *)
Theorem C105_even_degree_refuted :
  exists g c AJ tree root p0 v M, length tree = (2 * g)%nat /\ (root < 2 * g + 2)%nat /\ grows (2 * g + 2) root tree /\
    edges_are_half_loops (2 * g) c AJ tree /\ (p0 < 2 * g + 2)%nat /\ (v < 2 * g + 2)%nat /\
    (forall u w, (u < w)%nat -> (w < 2 * g + 2)%nat -> ~ in_lattice (2 * g) c (fun f => AJ w f - AJ u f)%C) /\
    aj_loops tree p0 = Done M /\ ~ half_chain (2 * g) c (fun f => AJ v f - AJ p0 f)%C (fun r => M r v).
Proof.
  exists 1%nat, c4, AJ4, [(0, 1); (1, 2)]%nat, 0%nat, 0%nat, 3%nat. eexists.
  split; [reflexivity|]. split; [lia|]. split; [apply grows4; lia|]. split; [exact edges4|]. split; [lia|]. split; [lia|]. split; [|split; [reflexivity|]].
  - intros u w Huw Hw H. change (2 * 1)%nat with 2%nat in H.
    assert (X : exists a b, (forall f, (AJ4 w f - AJ4 u f)%C = (RtoC (IZR a / 2) + RtoC (IZR b / 2) * Ci)%C) /\ (Z.even a && Z.even b)%bool = false).
    { destruct w as [|[|[|[|w]]]]; try lia; destruct u as [|[|[|u]]]; try lia;
        [exists 1, 0|exists 1, 1|exists 0, 1|exists 0, 1|exists (-1), 1|exists (-1), 0]; (split; [|reflexivity]); intros f; cbn [AJ4]; apply injective_projections; cbn; lra. }
    destruct X as [a [b [X1 X2]]]. destruct (ext4 _ a b X1 H) as [E1 E2]. rewrite E1, E2 in X2. discriminate.
  - intros [k H]. assert (Y : in_lattice 2 c4 (fun f => AJ4 3 f - AJ4 0 f)%C).
    { exists k. intros f. rewrite (H f). apply csum_ext. intros r _. cbn. f_equal. apply injective_projections; cbn; lra. }
    apply (ext4 _ 0 1) in Y; [now destruct Y|]. intros f. cbn [AJ4]. apply injective_projections; cbn; lra.
Qed.
Print Assumptions C105_even_degree_refuted.

Example C105_nonvacuous :
  length [(0, 1); (1, 2)]%nat = (2 * 1)%nat /\ grows (2 * 1 + 1) 0 [(0, 1); (1, 2)]%nat /\ edges_are_half_loops (2 * 1) c4 AJ4 [(0, 1); (1, 2)]%nat /\
  (forall i j, (i < 2 * 1)%nat -> (j < 2 * 1)%nat ->
     zsum (2 * 1) (fun l => (if (i <=? l)%nat then 1 else 0) * (if (l =? j)%nat then 1 else if (l <? j)%nat then -1 else 0)) = if (i =? j)%nat then 1 else 0).
Proof.
  split; [reflexivity|]. split; [apply grows4; lia|]. split; [exact edges4|].
  intros [|[|i]] [|[|j]] Hi Hj; try lia; reflexivity.
Qed.
