(** C15, C16: from the base change to loops.  Statements only. *)
From Verif Require Import Base ModelSymp SpecSymp ProofSymp ProofSympRed ProofSympMain ProofSympRank ProofSympEx
  ModelBasis SpecBasis ProofBasis CBase ModelPeriod SpecPeriod ProofPeriod ProofPeriodMain.

(** C15: given the base change P, loop alpha_k is row 2k, beta_k is row 2k+1, as long as
    the entries fit in a machine word; otherwise the program aborts. *)
Theorem C15_loops_are_the_rows :
  forall xgcd inter g m s, 2 <= m ->
    symplectic_reduction xgcd inter g = Done s -> (2 * g <= length (stP s))%nat ->
    (rows_fit (2 * g) (stP s) ->
       exists loops, symplectic_basis xgcd inter g m = Done loops /\ length loops = g /\
         forall k, (k < g)%nat ->
           faithful (m - 1) (nth (2 * k) (stP s) []) (fst (nth k loops ([], []))) /\
           faithful (m - 1) (nth (2 * k + 1) (stP s) []) (snd (nth k loops ([], [])))) /\
    (~ rows_fit (2 * g) (stP s) -> symplectic_basis xgcd inter g m = Abort).
Proof. exact symplectic_basis_done. Qed.
Print Assumptions C15_loops_are_the_rows.

(** Indices stay in the range of edges when the row has one entry per edge and shift,
    and every coefficient is an entry of the row. *)
Theorem C15_indices_and_coefficients_in_range :
  forall m1 edges row l, 0 < m1 -> length row = (edges * Z.to_nat m1)%nat -> faithful m1 row l ->
    forall x, In x l -> 0 <= gindex x < Z.of_nat edges /\ 0 <= gshift x < m1 /\ In (gcoeff x) row.
Proof.
  intros m1 edges row l H1 H2 H3 x Hx.
  destruct (faithful_index m1 edges row l H1 H2 H3 x Hx) as [A B].
  exact (conj A (conj B (faithful_coeff_in m1 row l x H1 H3 Hx))).
Qed.
Print Assumptions C15_indices_and_coefficients_in_range.

Definition inter_ex : mat := [[0;2;3;0]; [-2;0;1;1]; [-3;-1;0;1]; [0;-1;-1;0]].
Example C15_nonvacuous :
  exists s loops, symplectic_reduction egcd inter_ex 2 = Done s /\ (2 * 2 <= length (stP s))%nat /\
    rows_fit (2 * 2) (stP s) /\ symplectic_basis egcd inter_ex 2 3 = Done loops /\
    fst (nth 1 loops ([], [])) =
      [{| gcoeff := 1; gshift := 0; gindex := 0 |}; {| gcoeff := -3; gshift := 1; gindex := 0 |};
       {| gcoeff := 2; gshift := 0; gindex := 1 |}].
Proof.
  eexists. eexists. split; [vm_compute; reflexivity|]. split; [cbn; lia|]. split.
  - intros i Hi. do 4 (destruct i as [|i]; [cbn [stP nth]; intros x Hx; cbn [In] in Hx; lia|]). lia.
  - split; vm_compute; reflexivity.
Qed.

(** C16: coefficients below 2^62 are used with their value ... *)
Theorem C16_small_coefficients_keep_their_value_partial :
  forall x, -9223372036854775808 <= x < 4611686018427387904 -> slong_as_fmpz x = Done x.
Proof. exact slong_as_fmpz_small. Qed.
Print Assumptions C16_small_coefficients_keep_their_value_partial.

(** ... but larger ones accepted by the extraction are then taken for a pointer. *)
Theorem C16_large_coefficients_become_pointers_refuted :
  forall x m1, 0 < m1 -> 4611686018427387904 <= x <= 9223372036854775807 ->
    exists l, loop_of_row [x] m1 = Done l /\ loop_coeff m1 l 0 = x /\
      forall c a z res, (length a = 1)%nat ->
        periods_terms c a z l res = Fault BadPointer.
Proof.
  intros x m1 Hm Hx. unfold loop_of_row. cbn [count_coeffs].
  destruct (Z.eqb_spec x 0); [lia|]. cbn [set_loops next_nonzero].
  destruct (Z.eqb_spec x 0); [lia|]. cbn [bind].
  rewrite (proj2 (fits_spec x)) by lia. cbn [negb].
  destruct (Z.eqb_spec m1 0); [lia|]. eexists. split; [reflexivity|]. split.
  - cbn [loop_coeff]. rewrite Z.mod_0_l, Z.div_0_l by lia. cbn [position gindex gshift gcoeff].
    unfold position. cbn [gindex gshift gcoeff]. rewrite Z.mul_0_l. cbn [Z.add Z.eqb]. lia.
  - intros c a z res Ha. cbn [periods_terms]. unfold periods_term. cbn [gindex gcoeff].
    rewrite Ha, Z.div_0_l by lia. cbn [Z.ltb Z.compare Z.leb Z.of_nat orb Pos.of_succ_nat].
    rewrite slong_as_fmpz_big by exact Hx. reflexivity.
Qed.
Print Assumptions C16_large_coefficients_become_pointers_refuted.
