(** C78: the small period matrix does not depend on the leading coefficient.  Statement only. *)
Set Warnings "-notation-overridden,-ambiguous-paths".
From mathcomp Require Import all_ssreflect all_algebra.
From Verif Require Base.
From Verif Require Import ModelTau SpecTau ProofTau.
Import GRing.Theory Num.Theory.
Set Implicit Arguments.
Unset Strict Implicit.
Unset Printing Implicit Defensive.
Local Open Scope ring_scope.

(** [A] and [B] are the period matrices of the curve, [d] the nonzero factors by which the rows of
    the matrices of the program differ from theirs: if a strategy before the last one succeeds, the
    matrix returned is the small period matrix of the curve. *)
Theorem C78_tau_partial :
  forall (C : numClosedFieldType) (lu clu dz : forall n, 'M[C]_n -> bool) (b : bool) g (A B : 'M[C]_g) (d : 'rV[C]_g),
    lu_sound lu -> lu_sound clu -> det_sound dz -> (forall i, d 0 i != 0) ->
    let omega0 := \matrix_(i, k) (d 0 i * A i k) in let omega1 := \matrix_(i, k) (d 0 i * B i k) in
    forall tau,
      clu g omega0 \/ solve_real lu omega0 omega1 <> None \/ solve_real lu ('i *: omega0) ('i *: omega1) <> None ->
      tau_matrix lu clu dz b omega0 omega1 = Base.Done tau -> A *m tau = B.
Proof.
move=> C lu clu dz b g A B d Hlu Hclu Hdz Hd omega0 omega1 tau H E.
have K := multi_ok Hlu Hclu H E.
apply/matrixP=> i k; have /matrixP/(_ i k) := K; rewrite !mxE => Ki.
apply: (mulfI (Hd i)); rewrite -Ki mulr_sumr; apply: eq_bigr => l _; by rewrite !mxE mulrA.
Qed.
Print Assumptions C78_tau_partial.

Example C78_tau_nonvacuous : forall C : numClosedFieldType, exists (A B : 'M[C]_1) (d : 'rV[C]_1),
  let ok := fun n (a : 'M[C]_n) => a \in unitmx in
  lu_sound ok /\ (forall i, d 0 i != 0) /\ d 0 0 = 2%:R /\ (\matrix_(i, k) (d 0 i * A i k) : 'M_1) \in unitmx.
Proof.
move=> C; exists 1%:M, 'i%:M, (const_mx 2%:R) => ok; split; first by [].
have n2 : 2%:R != 0 :> C by rewrite pnatr_eq0.
split; first by move=> i; rewrite mxE.
split; first by rewrite mxE.
have -> : (\matrix_(i, k) ((const_mx 2%:R : 'rV[C]_1) 0 i * (1%:M : 'M[C]_1) i k) : 'M[C]_1) = 2%:R%:M.
  by apply/matrixP=> i k; rewrite !mxE (ord1 i) (ord1 k) eqxx mulr1.
by rewrite unitmxE det_scalar expr1 unitfE.
Qed.
