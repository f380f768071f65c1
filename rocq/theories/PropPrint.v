(** C53: error report.  Statements only. *)
From Coq Require Import Reals List ZArith Lra.
From Verif Require Import ModelPrint SpecPrint ProofPrint.
Import ListNotations.

(** C53: if some radius is nonzero, the number printed is the largest radius, real or imaginary,
    over all entries, and the position printed is the first entry, in reading order, that has it. *)
Theorem C53_largest_radius_partial :
  forall m, (exists i j e, entry m i j = Some e /\ (0 < Rmax (fst e) (snd e))%R) ->
    exists i j e, entry m i j = Some e /\ print_error m = (Rmax (fst e) (snd e), Z.of_nat i, Z.of_nat j) /\
      (forall i' j' e', entry m i' j' = Some e' -> (fst e' <= Rmax (fst e) (snd e) /\ snd e' <= Rmax (fst e) (snd e))%R) /\
      (forall i' j' e', before i' j' i j -> entry m i' j' = Some e' -> (Rmax (fst e') (snd e') < Rmax (fst e) (snd e))%R).
Proof. exact max_position. Qed.
Print Assumptions C53_largest_radius_partial.

Example C53_nonvacuous : exists i j e, entry [[(0, 1); (3, 0)]; [(2, 2); (0, 3)]]%R i j = Some e /\ (0 < Rmax (fst e) (snd e))%R.
Proof. exists 0%nat, 1%nat, (3, 0)%R. split; [reflexivity|]. cbn. rewrite Rmax_left; lra. Qed.

(** Otherwise the value 0 is right and the position is (-1,-1), which is not an entry. *)
Theorem C53_exact_matrix_refuted :
  forall m, (forall i j e, entry m i j = Some e -> e = (0, 0)%R) -> print_error m = (0%R, (-1)%Z, (-1)%Z).
Proof. exact exact_matrix. Qed.
Print Assumptions C53_exact_matrix_refuted.
