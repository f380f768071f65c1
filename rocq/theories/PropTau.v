(** C45-C47: the small period matrix.  Statements only. *)
Set Warnings "-notation-overridden,-ambiguous-paths".
From mathcomp Require Import all_ssreflect all_algebra.
From Verif Require Base.
From Verif Require Import ModelTau SpecTau ProofTau.
Import GRing.Theory Num.Theory.
Set Implicit Arguments.
Unset Strict Implicit.
Unset Printing Implicit Defensive.
Local Open Scope ring_scope.

(** C45: success of the solver by two real decompositions *)
Theorem C45_real_reduction :
  forall (C : numClosedFieldType) (lu : forall n, 'M[C]_n -> bool) n m (A : 'M[C]_n) (B X : 'M[C]_(n, m)),
    lu_sound lu -> solve_real lu A B = Some X ->
    A *m X = B /\ ((0 < n)%N -> (0 < m)%N -> A \in unitmx).
Proof.
move=> C lu n m A B X Hlu E; split; first exact: (solve_real_ok Hlu E).
by move=> Hn Hm; exact: (solve_real_unit Hlu Hn Hm E).
Qed.
Print Assumptions C45_real_reduction.

(** when decompositions fail on singular matrices only, the solver succeeds on every invertible
    matrix whose real part is invertible *)
Theorem C45_success :
  forall (C : numClosedFieldType) (lu : forall n, 'M[C]_n -> bool) n m (A : 'M[C]_n) (B : 'M[C]_(n, m)),
    (forall n (a : 'M[C]_n), lu n a = (a \in unitmx)) ->
    A \in unitmx -> \matrix_(i, j) 'Re (A i j) \in unitmx ->
    exists X, solve_real lu A B = Some X.
Proof. exact: solve_real_complete. Qed.
Print Assumptions C45_success.

Example C45_nonvacuous : forall C : numClosedFieldType, exists (A : 'M[C]_2) X,
  lu_sound (fun n (a : 'M[C]_n) => a \in unitmx) /\
  solve_real (fun n (a : 'M[C]_n) => a \in unitmx) A (1%:M : 'M_2) = Some X.
Proof.
move=> C; exists ((1 + 'i)%:M).
have R1 : 'Re (1 + 'i : C) = 1 by rewrite -[X in _ + X]mulr1 Re_rect ?real1.
have [||X E] := @C45_success C (fun n (a : 'M[C]_n) => a \in unitmx) 2 2 ((1 + 'i)%:M) 1%:M (fun _ _ => erefl).
- rewrite unitmxE det_scalar unitrX // unitfE; apply/eqP => H; move: R1; rewrite H raddf0 => /eqP.
  by rewrite eq_sym oner_eq0.
- suff -> : \matrix_(i, j) 'Re ((1 + 'i)%:M i j) = (1%:M : 'M[C]_2) by rewrite unitmx1.
  apply/matrixP => i j; rewrite !mxE; case: (i == j); rewrite ?mulr1n ?mulr0n ?R1 //; exact: raddf0.
- by exists X; split; [move=> n a|exact: E].
Qed.

(** C46 is false: the matrix returned through the characteristic polynomial is the opposite of
    the solution if the in-place division reads its divisor first, and otherwise the solution
    times minus the constant coefficient. *)
Theorem C46_value_returned_refuted :
  forall (C : numClosedFieldType) (reads_first : bool) n m (A : 'M[C]_n.+1) (B : 'M[C]_(n.+1, m)),
    A \in unitmx ->
    A *m solve_charpoly reads_first A B = - ((if reads_first then 1 else (-1) ^+ n.+1 * \det A) *: B).
Proof. exact: charpoly_value. Qed.
Print Assumptions C46_value_returned_refuted.

Theorem C46_not_a_solution_refuted :
  forall (C : numClosedFieldType) (reads_first : bool) n, (0 < n)%N ->
    exists (A B : 'M[C]_n), A \in unitmx /\ A *m solve_charpoly reads_first A B <> B.
Proof. exact: charpoly_wrong. Qed.
Print Assumptions C46_not_a_solution_refuted.

(** C47: if a strategy before the last one succeeds the result is a solution; a singular matrix
    always aborts, and nothing else than a determinant that may be zero does.
    (Missing: the last strategy, see C46.) *)
Theorem C47_strategies_partial :
  forall (C : numClosedFieldType) (lu clu dz : forall n, 'M[C]_n -> bool) (b : bool) g (omega0 omega1 : 'M[C]_g),
    lu_sound lu -> lu_sound clu -> det_sound dz ->
    (forall tau,
       clu g omega0 \/ solve_real lu omega0 omega1 <> None \/ solve_real lu ('i *: omega0) ('i *: omega1) <> None ->
       tau_matrix lu clu dz b omega0 omega1 = Base.Done tau -> omega0 *m tau = omega1) /\
    (omega0 \notin unitmx -> tau_matrix lu clu dz b omega0 omega1 = Base.Abort) /\
    (tau_matrix lu clu dz b omega0 omega1 = Base.Abort <-> clu g omega0 = false /\ dz g omega0 = true).
Proof.
move=> C lu clu dz b g A B Hlu Hclu Hdz; split; [|split].
- by move=> tau; exact: multi_ok.
- exact: multi_singular.
- exact: multi_abort.
Qed.
Print Assumptions C47_strategies_partial.

(** with the best possible decompositions and determinant, and 1 + i on the diagonal *)
Example C47_nonvacuous : forall C : numClosedFieldType,
  let lu := (fun n (a : 'M[C]_n) => a \in unitmx) in let dz := (fun n (a : 'M[C]_n) => \det a == 0) in
  lu_sound lu /\ det_sound dz /\ lu 2%N ((1 + 'i)%:M) /\
  exists tau, tau_matrix lu lu dz true ((1 + 'i)%:M : 'M_2) ((2 * 'i)%:M) = Base.Done tau /\ tau = (1 + 'i)%:M.
Proof.
move=> C lu dz; have Hl : lu_sound lu by [].
have Hd : det_sound dz by move=> n a /eqP.
have R1 : 'Re (1 + 'i : C) = 1 by rewrite -[X in _ + X]mulr1 Re_rect ?real1.
have N0 : (1 + 'i : C) != 0 by apply/eqP => H; move: R1; rewrite H raddf0 => /eqP; rewrite eq_sym oner_eq0.
have U : lu 2%N ((1 + 'i)%:M) by rewrite /lu unitmxE det_scalar unitrX // unitfE.
split=> //; split=> //; split=> //.
have [H1 [_ H3]] := @C47_strategies_partial C lu lu dz true 2 ((1 + 'i)%:M) ((2 * 'i)%:M) Hl Hl Hd.
exists (invmx (1 + 'i)%:M *m (2 * 'i)%:M); split; first by rewrite /tau_matrix /solve_multi U.
have -> : ((2 * 'i)%:M : 'M[C]_2) = (1 + 'i)%:M *m (1 + 'i)%:M.
  rewrite -scalar_mxM; congr (_%:M); rewrite -expr2 sqrrD expr1n sqrCi mul1r addrAC subrr add0r.
  by rewrite mulr2n mulrDl mul1r.
by rewrite mulmxA mulVmx // mul1mx.
Qed.

(** With the best possible real decompositions and determinant, and a complex decomposition that
    failed, the invertible matrix diag(1, i) is given a wrong solution. *)
Theorem C47_last_strategy_refuted :
  forall (C : numClosedFieldType) (b : bool),
    let lu := (fun n (a : 'M[C]_n) => a \in unitmx) in
    let clu := (fun n (_ : 'M[C]_n) => false) in
    let dz := (fun n (a : 'M[C]_n) => \det a == 0) in
    let omega0 : 'M[C]_2 := diag_mx (\row_j (if j == ord0 then 1 else 'i)) in
    lu_sound lu /\ lu_sound clu /\ det_sound dz /\ omega0 \in unitmx /\
    exists tau, tau_matrix lu clu dz b omega0 1%:M = Base.Done tau /\ omega0 *m tau <> 1%:M.
Proof.
move=> C b lu clu dz omega0; split=> //; split=> //; split; first by move=> n a /eqP.
split; [exact: one_i_unit|exact: multi_wrong].
Qed.
Print Assumptions C47_last_strategy_refuted.
