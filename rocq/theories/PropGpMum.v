(** C103: matrices of homology bases in the GP scripts. *)
From Verif Require Import Base ModelGpMum SpecGpMum ProofGpMum ProofGpMum2.

(** isSymplectic answers the question its name asks. *)
Theorem C103_isSymplectic : forall g M, isSymplectic g M = true <-> symplectic g M.
Proof. exact isSymplectic_ok. Qed.
Print Assumptions C103_isSymplectic.

(** The result of MumfordABtoC is a base change to a symplectic basis, as its comment says. *)
Theorem C103_mumford_basis :
  forall inverse g tree Ic R, (forall T Q, inverse T = Some Q -> meq (2 * g) (mmul (2 * g) T Q) ident) ->
    MumfordABtoC inverse g tree Ic = Done R -> meq (2 * g) (pullback (2 * g) R Ic) (matJ g).
Proof. exact mumford_ok. Qed.
Print Assumptions C103_mumford_basis.

(** The search for signs finds signs with which the intersections are those of the tree, and there
    are no such signs if it finds none. *)
Theorem C103_sign_search :
  forall g tree Ic,
    match test_all_signs g tree Ic with
    | Some T => signed (2 * g) (CtoABp g tree) T /\ meq (2 * g) (pullback (2 * g) T (int_ABp_ref g)) Ic
    | None => forall T, signed (2 * g) (CtoABp g tree) T -> ~ meq (2 * g) (pullback (2 * g) T (int_ABp_ref g)) Ic
    end.
Proof.
  intros g tree Ic. destruct (test_all_signs g tree Ic) as [T|] eqn:E; [now apply search_found|now apply search_none].
Qed.
Print Assumptions C103_sign_search.

(** int_ABp_ref holds the intersections of the loops A_i and B'_i = B_i - B_(i+1) if those of A_i and
    B_i are canonical, and transpose(ABptoAB) is the inverse of ABtoABp. *)
Theorem C103_bases :
  forall g, meq (2 * g) (pullback (2 * g) (ABtoABp g) (int_ABp_ref g)) (matJ g) /\
    meq (2 * g) (mmul (2 * g) (transpose (ABptoAB g)) (ABtoABp g)) ident.
Proof. intros g. split; [apply ref_ok|apply inverse_bases]. Qed.
Print Assumptions C103_bases.

(** For 2g+1 branch points, the column of CtoABp for an edge is, modulo 2, a chain of loops A_i, B'_i
    with the same ends as the edge. *)
Theorem C103_edges_in_loops :
  forall g a b, (1 <= a <= 2 * g + 1)%nat -> (1 <= b <= 2 * g + 1)%nat -> a <> b -> same_ends g (CtoABp_entry g a b) (a, b).
Proof. exact ends_ok. Qed.
Print Assumptions C103_edges_in_loops.

(** For 2g+2 points it is not, not even up to the class of all points, which is 0 in homology. *)
Theorem C103_even_degree_refuted :
  exists g a b, (1 <= a < b)%nat /\ b = (2 * g + 2)%nat /\
    ~ exists t, forall v, (1 <= v <= 2 * g + 2)%nat -> (zsum (2 * g) (fun r => CtoABp_entry g a b r * is_end v (loop_ends g r)) - is_end v (a, b) - t) mod 2 = 0.
Proof.
  exists 1%nat, 1%nat, 4%nat. split; [lia|]. split; [reflexivity|]. intros [t H].
  pose proof (H 1%nat ltac:(lia)) as H1. pose proof (H 3%nat ltac:(lia)) as H3.
  assert (E1 : zsum 2 (fun r => CtoABp_entry 1 1 4 r * is_end 1 (loop_ends 1 r)) - is_end 1 (1, 4)%nat = 0) by reflexivity.
  assert (E3 : zsum 2 (fun r => CtoABp_entry 1 1 4 r * is_end 3 (loop_ends 1 r)) - is_end 3 (1, 4)%nat = 1) by reflexivity.
  change (2 * 1)%nat with 2%nat in H1, H3. rewrite E1 in H1. rewrite E3 in H3.
  Z.to_euclidean_division_equations. lia.
Qed.
Print Assumptions C103_even_degree_refuted.

(** CtoAB multiplies by ABptoAB instead of its transpose: its columns are not, even modulo 2, the edges
    in the basis A_i, B_i. *)
Theorem C103_CtoAB_refuted :
  exists g tree, length tree = (2 * g)%nat /\ (forall e, In e tree -> (1 <= fst e < snd e)%nat /\ (snd e <= 2 * g + 1)%nat) /\
    exists i j, (i < 2 * g)%nat /\ (j < 2 * g)%nat /\ (mmul (2 * g) (ABtoABp g) (CtoAB g tree) i j - CtoABp g tree i j) mod 2 <> 0.
Proof.
  exists 2%nat, [(1, 2); (2, 3); (3, 4); (4, 5)]%nat. split; [reflexivity|]. split.
  - intros e [<-|[<-|[<-|[<-|[]]]]]; cbn; lia.
  - exists 2%nat, 3%nat. split; [lia|]. split; [lia|]. vm_compute. discriminate.
Qed.
Print Assumptions C103_CtoAB_refuted.

(** symplectic_inverse exchanges the blocks B and C.  It is the inverse if these are equal, *)
Theorem C103_symplectic_inverse_partial :
  forall g M, symplectic g M -> (forall i j, (i < g)%nat -> (j < g)%nat -> M i (g + j)%nat = M (g + i)%nat j) ->
    meq (2 * g) (mmul (2 * g) (symplectic_inverse g M) M) ident.
Proof. exact inverse_same_blocks. Qed.
Print Assumptions C103_symplectic_inverse_partial.

(** and not in general. *)
Theorem C103_symplectic_inverse_refuted :
  exists g M, symplectic g M /\ ~ meq (2 * g) (mmul (2 * g) (symplectic_inverse g M) M) ident.
Proof.
  exists 1%nat, (fun i j => if (i <=? j)%nat then 1 else 0). split.
  - apply isSymplectic_ok. reflexivity.
  - intros H. specialize (H 0%nat 1%nat ltac:(lia) ltac:(lia)). discriminate H.
Qed.
Print Assumptions C103_symplectic_inverse_refuted.

(** the inverse of matrices of order 2, the intersections of a chain of four edges *)
Definition own_inverse (T : gmat) : option gmat := if meqb 4 (mmul 4 T T) ident then Some T else None.
Definition chain4 : gmat := fun i j => if (j =? S i)%nat then (if (i =? 1)%nat then -1 else 1) else if (i =? S j)%nat then (if (j =? 1)%nat then 1 else -1) else 0.
Example C103_nonvacuous :
  (forall T Q, own_inverse T = Some Q -> meq 4 (mmul 4 T Q) ident) /\
  (forall e, In e [(1, 2); (3, 4); (2, 3); (4, 5)]%nat -> (1 <= fst e <= 2 * 2 + 1)%nat /\ fst e <> snd e) /\
  (exists T, test_all_signs 2 [(1, 2); (2, 3); (3, 4); (4, 5)]%nat chain4 = Some T) /\
  (exists R, MumfordABtoC own_inverse 2 [(1, 2); (3, 4); (2, 3); (4, 5)]%nat
      (fun i j => let s k := match k with 1 => 2 | 2 => 1 | k => k end%nat in chain4 (s i) (s j)) = Done R) /\
  symplectic 1 (fun i j => if (i =? j)%nat then 0 else if (i <? j)%nat then 1 else -1) /\
  symplectic 1 (fun i j => if (i =? j)%nat then (if (i =? 0)%nat then 2 else 1) else 1).
Proof.
  split; [intros T Q; unfold own_inverse; destruct (meqb 4 _ _) eqn:E; [|discriminate]; intros H; injection H as <-; now apply meqb_spec|].
  split; [intros e [<-|[<-|[<-|[<-|[]]]]]; cbn; lia|].
  split; [assert (E : (match test_all_signs 2 [(1, 2); (2, 3); (3, 4); (4, 5)]%nat chain4 with Some _ => true | None => false end) = true) by (vm_compute; reflexivity); destruct (test_all_signs 2 _ chain4); [eauto|discriminate]|].
  split; [match goal with |- exists R, ?x = _ => assert (E : (match x with Done _ => true | _ => false end) = true) by (vm_compute; reflexivity); destruct x; try discriminate; eauto end|].
  split; apply isSymplectic_ok; reflexivity.
Qed.
