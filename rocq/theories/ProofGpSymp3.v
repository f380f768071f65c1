(** Proofs about the symplectic reduction of the GP scripts, continued: matrices for which it fails. *)
From Verif Require Import Base ModelGpSymp SpecGpSymp ProofGpSymp ProofGpSymp2.

(** matrix given by its rows *)
Definition of_rows (l : list (list Z)) : columns := fun c r => nth c (nth r l []) 0.

Definition check_anti (n : nat) (M : columns) : bool :=
  forallb (fun a => forallb (fun b => M a b =? - M b a) (seq 0 n)) (seq 0 n).
Lemma anti_ok n M : check_anti n M = true -> antisymmetric n M.
Proof.
  unfold check_anti. rewrite forallb_forall. intros H a b La Lb. specialize (H a ltac:(apply in_seq; lia)). rewrite forallb_forall in H.
  specialize (H b ltac:(apply in_seq; lia)). now apply Z.eqb_eq.
Qed.
Definition check_inverse (l : nat) (M Q : columns) : bool :=
  forallb (fun a => forallb (fun b => zsum l (fun k => M k a * Q b k) =? if (a =? b)%nat then 1 else 0) (seq 0 l)) (seq 0 l).
Lemma inverse_ok l M Q : check_inverse l M Q = true -> invertible_block l M.
Proof.
  intros H. exists Q. unfold check_inverse in H. rewrite forallb_forall in H. intros a b La Lb. specialize (H a ltac:(apply in_seq; lia)).
  rewrite forallb_forall in H. specialize (H b ltac:(apply in_seq; lia)). now apply Z.eqb_eq.
Qed.

(** the canonical form itself *)
Definition J2 : columns := of_rows [[0;0;1;0]; [0;0;0;1]; [-1;0;0;0]; [0;-1;0;0]].
Lemma J2_error bezout : antisymmetric 4 J2 /\ invertible_block 4 J2 /\ symplectic_reduction bezout 9 4 J2 = Fault OutOfBounds.
Proof.
  split; [apply anti_ok; reflexivity|]. split; [|vm_compute; reflexivity].
  apply (inverse_ok 4 J2 (of_rows [[0;0;-1;0]; [0;0;0;-1]; [1;0;0;0]; [0;1;0;0]])). reflexivity.
Qed.

(** a matrix for which the result is no symplectic basis *)
Definition W3 : columns := of_rows [[0;0;0;1;0;0]; [0;0;1;0;-1;0]; [0;-1;0;0;1;-1]; [-1;0;0;0;0;0]; [0;1;-1;0;0;0]; [0;0;1;0;0;0]].
Definition W3i : columns := of_rows [[0;0;0;-1;0;0]; [0;0;0;0;1;1]; [0;0;0;0;0;1]; [1;0;0;0;0;0]; [0;-1;0;0;0;1]; [0;-1;-1;0;-1;0]].
Lemma W3_wrong bezout : antisymmetric 6 W3 /\ invertible_block 6 W3 /\
  exists P, symplectic_reduction bezout 20 6 W3 = Done (Some P) /\ ~ symplectic_basis 3 W3 P.
Proof.
  split; [apply anti_ok; reflexivity|]. split; [apply (inverse_ok 6 W3 W3i); reflexivity|].
  assert (E : match symplectic_reduction bezout 20 6 W3 with
    | Done (Some P) => existsb (fun ab => negb (form 6 W3 (P (fst ab)) (P (snd ab)) =? J_entry 3 (fst ab) (snd ab))) (list_prod (seq 0 6) (seq 0 6))
    | _ => false end = true) by (vm_compute; reflexivity).
  destruct (symplectic_reduction bezout 20 6 W3) as [[P|]| | |]; try discriminate E. exists P. split; [reflexivity|].
  intros HS. apply existsb_exists in E as ([a b] & Hin & Hb).
  apply in_prod_iff in Hin as [Ha Hb']. apply in_seq in Ha, Hb'. cbn [fst snd] in Hb.
  specialize (HS a b ltac:(lia) ltac:(lia)). change (2 * 3)%nat with 6%nat in HS. rewrite HS, Z.eqb_refl in Hb. discriminate.
Qed.

(** a matrix for which the program does not end *)
Definition L2 : columns := of_rows [[0;2;0;1]; [-2;0;1;0]; [0;-1;0;0]; [-1;0;0;0]].
Lemma L2_loop bezout : bezout 2 0 = (1, 0, 2) -> forall fuel e N P, N 1%nat 0%nat = 2 -> N 3%nat 0%nat = 1 -> N 1%nat 3%nat = 0 ->
  clear_loop bezout fuel 4 3 0 1 e N P = OutOfFuel.
Proof.
  intros Hb. induction fuel as [|fuel IH]; intros e N P H1 H2 H3; [reflexivity|]. cbn [clear_loop].
  change (4 <=? 3)%nat with false. cbv iota. rewrite H2, H1, H3. change ((3 =? 1)%nat || (1 =? 0)) with false. change (2 =? 0) with false. change (1 mod 2 =? 0) with false.
  cbv iota. rewrite Hb. apply IH; unfold row_comb, col_comb; cbn [Nat.eqb]; lia.
Qed.
Lemma L2_endless bezout : bezout 2 0 = (1, 0, 2) -> antisymmetric 4 L2 /\ invertible_block 4 L2 /\
  forall fuel, symplectic_reduction bezout fuel 4 L2 = OutOfFuel.
Proof.
  intros Hb. split; [apply anti_ok; reflexivity|]. split.
  { apply (inverse_ok 4 L2 (of_rows [[0;0;0;-1]; [0;0;-1;0]; [0;1;0;-2]; [1;0;2;0]])). reflexivity. }
  intros fuel. unfold symplectic_reduction. change (Nat.odd 4) with false. cbv iota.
  assert (E : forall f e P, clear_loop bezout f 4 0 0 1 e L2 P = OutOfFuel).
  { intros f e P. destruct f as [|[|[|f]]]; try reflexivity. cbn [clear_loop].
    change ((0 =? 1)%nat || (L2 0%nat 0%nat =? 0)) with true. change ((1 =? 1)%nat || (L2 1%nat 0%nat =? 0)) with true. change ((2 =? 1)%nat || (L2 2%nat 0%nat =? 0)) with true.
    cbn [Nat.leb]. cbv iota. now apply L2_loop. }
  destruct fuel as [|f]; [reflexivity|]. cbn [blocks]. change (4 / 2 <=? 0)%nat with false. cbv iota.
  unfold block_step. cbn [Nat.mul Nat.add pivot]. change (4 <=? 1)%nat with false. change (L2 1%nat 0%nat) with 2. cbv iota. change (2 =? 0) with false. cbn [bind]. cbv beta iota zeta.
  change (L2 1%nat 0%nat) with 2. change (2 <? 0) with false. cbv iota. rewrite E. reflexivity.
Qed.

(** a tree with six edges: a star of three edges, two more edges at one of its ends, one edge at an end of these *)
Definition T3 : columns := of_rows [[0;1;1;0;0;0]; [-1;0;1;1;-1;0]; [-1;-1;0;0;0;0]; [0;-1;0;0;-1;1]; [0;1;0;1;0;0]; [0;0;0;-1;0;0]].
Lemma T3_ok : antisymmetric 6 T3 /\ forall d, (d <= 3)%nat -> invertible_block (2 * d) T3.
Proof.
  split; [apply anti_ok; reflexivity|]. intros d Hd. destruct d as [|[|[|[|d]]]]; [..|lia].
  - exists T3. intros; lia.
  - apply (inverse_ok 2 T3 (of_rows [[0;-1]; [1;0]])). reflexivity.
  - apply (inverse_ok 4 T3 (of_rows [[0;0;-1;1]; [0;0;0;-1]; [1;0;0;1]; [-1;1;-1;0]])). reflexivity.
  - apply (inverse_ok 6 T3 (of_rows [[0;0;-1;0;-1;-1]; [0;0;0;0;1;1]; [1;0;0;0;-1;-1]; [0;0;0;0;0;-1]; [1;-1;1;0;0;-1]; [1;-1;1;1;1;0]])). reflexivity.
Qed.
