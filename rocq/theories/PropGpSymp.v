(** C102: the symplectic reduction of the GP scripts. *)
From Verif Require Import Base ModelGpSymp SpecGpSymp ProofGpSymp2 ProofGpSymp3.

(** If the blocks of the first 2, 4, .. 2g rows and columns of an antisymmetric matrix M have integral
    inverses then the function ends, without an error, with P such that transpose(P) M P is the
    canonical form.  (It is so for the intersections of the edges of a tree of which the first
    2d edges are the edges of a tree with 2d+1 ends.) *)
Theorem C102_symplectic_basis :
  forall bezout fuel g M, antisymmetric (2 * g) M -> (forall d, (d <= g)%nat -> invertible_block (2 * d) M) -> (3 * g < fuel)%nat ->
    exists P, symplectic_reduction bezout fuel (2 * g) M = Done (Some P) /\ symplectic_basis g M P.
Proof. exact reduction_ok. Qed.
Print Assumptions C102_symplectic_basis.

Example C102_nonvacuous : antisymmetric (2 * 3) T3 /\ (forall d, (d <= 3)%nat -> invertible_block (2 * d) T3) /\
  exists P, symplectic_reduction (fun _ _ => (0, 0, 0)) 10 6 T3 = Done (Some P) /\ symplectic_basis 3 T3 P.
Proof. split; [apply T3_ok|]. split; [apply T3_ok|]. apply (reduction_ok _ 10 3 T3); [apply T3_ok|apply T3_ok|lia]. Qed.

(** For an odd dimension the result is the number 0 whatever the matrix. *)
Theorem C102_odd_dimension :
  forall bezout fuel n M, Nat.odd n = true -> symplectic_reduction bezout fuel n M = Done None.
Proof. exact reduction_odd. Qed.
Print Assumptions C102_odd_dimension.

(** It is not enough, as the comment before the function says, that M is antisymmetric, invertible and
    of even dimension.  For the canonical form itself the program stops with an error; *)
Theorem C102_error_refuted :
  exists g M, antisymmetric (2 * g) M /\ invertible_block (2 * g) M /\ symplectic_basis g M matid /\
    forall bezout, exists fuel, symplectic_reduction bezout fuel (2 * g) M = Fault OutOfBounds.
Proof.
  exists 2%nat, J2. destruct (J2_error (fun _ _ => (0, 0, 0))) as (H1 & H2 & _). split; [exact H1|]. split; [exact H2|].
  split; [intros a b La Lb; destruct a as [|[|[|[|a]]]]; [..|lia]; (destruct b as [|[|[|[|b]]]]; [..|lia]); reflexivity|].
  intros bezout. exists 9%nat. apply J2_error.
Qed.
Print Assumptions C102_error_refuted.

(** for another matrix it returns vectors that are no symplectic basis; *)
Theorem C102_wrong_basis_refuted :
  exists g M, antisymmetric (2 * g) M /\ invertible_block (2 * g) M /\
    forall bezout, exists fuel P, symplectic_reduction bezout fuel (2 * g) M = Done (Some P) /\ ~ symplectic_basis g M P.
Proof.
  exists 3%nat, W3. destruct (W3_wrong (fun _ _ => (0, 0, 0))) as (H1 & H2 & _). split; [exact H1|]. split; [exact H2|].
  intros bezout. destruct (W3_wrong bezout) as (_ & _ & P & E & H). now exists 20%nat, P.
Qed.
Print Assumptions C102_wrong_basis_refuted.

(** for another one it does not end (with bezout(2, 0) = [1, 0, 2], which is its value in GP). *)
Theorem C102_endless_refuted :
  exists g M, antisymmetric (2 * g) M /\ invertible_block (2 * g) M /\
    forall bezout, bezout 2 0 = (1, 0, 2) -> forall fuel, symplectic_reduction bezout fuel (2 * g) M = OutOfFuel.
Proof.
  exists 2%nat, L2. destruct (L2_endless (fun _ _ => (1, 0, 2)) eq_refl) as (H1 & H2 & _). split; [exact H1|]. split; [exact H2|].
  intros bezout Hb fuel. now apply (L2_endless bezout).
Qed.
Print Assumptions C102_endless_refuted.
