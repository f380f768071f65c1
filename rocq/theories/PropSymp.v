(** C09-C14: symplectic reduction.  [xgcd] is FLINT's extended gcd: any function
    meeting its contract.  Statements only. *)
From Verif Require Import Base ModelSymp SpecSymp ProofSymp ProofSympRed ProofSympMain ProofSympRank ProofSympEx.

(** The contract is satisfiable. *)
Theorem C09_xgcd_contract_satisfiable : xgcd_ok egcd.
Proof. exact egcd_ok. Qed.

(** C09, C10: whenever the reduction returns, M' = P M P^T with P unimodular. *)
Theorem C09_reduction_is_congruence :
  forall xgcd r m g s, xgcd_ok xgcd -> square r m -> antisymmetric r m ->
    symplectic_reduction xgcd m g = Done s ->
    square r (stP s) /\ square r (stM s) /\ congruent r (stP s) m (stM s) /\
    antisymmetric r (stM s).
Proof.
  intros xgcd r m g s Hx HS HA H.
  destruct (reduction_congruence r m g xgcd s Hx HS HA H) as (H1 & H2 & H3 & _ & H5).
  exact (conj H1 (conj H2 (conj H3 H5))).
Qed.
Print Assumptions C09_reduction_is_congruence.

Theorem C10_base_change_unimodular :
  forall xgcd r m g s, xgcd_ok xgcd -> square r m -> antisymmetric r m ->
    symplectic_reduction xgcd m g = Done s -> unimodular r (stP s).
Proof.
  intros xgcd r m g s Hx HS HA H.
  destruct (reduction_congruence r m g xgcd s Hx HS HA H) as (_ & _ & _ & H4 & _). exact H4.
Qed.
Print Assumptions C10_base_change_unimodular.

(** C11: with 2g independent rows the reduction returns (no fault, no
    divergence).  Without that hypothesis the only possible failure is to leave
    the matrix, and it does happen. *)
Theorem C11_reduction_terminates_in_bounds :
  forall xgcd r m g, xgcd_ok xgcd -> square r m -> antisymmetric r m ->
    independent_rows r (2 * g) m -> exists s, symplectic_reduction xgcd m g = Done s.
Proof.
  intros xgcd r m g Hx HS HA HR.
  destruct (block_final xgcd r g m Hx HS HA HR) as (s & H & _). exists s. exact H.
Qed.
Print Assumptions C11_reduction_terminates_in_bounds.

Theorem C11_outcomes_for_every_matrix :
  forall xgcd r m g, xgcd_ok xgcd -> square r m -> antisymmetric r m ->
    (exists s, symplectic_reduction xgcd m g = Done s) \/
    (symplectic_reduction xgcd m g = Fault OutOfBounds /\ ~ independent_rows r (2 * g) m).
Proof. intros xgcd r m g. exact (outcomes_final xgcd r g m). Qed.
Print Assumptions C11_outcomes_for_every_matrix.

Theorem C11_small_rank_leaves_the_matrix_refuted :
  exists m g, square 4 m /\ antisymmetric 4 m /\
    forall xgcd, symplectic_reduction xgcd m g = Fault OutOfBounds.
Proof.
  exists m_small, 2%nat. split; [apply square_check; reflexivity|].
  split; [apply antisym_check; reflexivity|]. exact m_small_fault.
Qed.
Print Assumptions C11_small_rank_leaves_the_matrix_refuted.

(** C12 *)
Theorem C12_block_diagonal :
  forall xgcd r g m, xgcd_ok xgcd -> square r m -> antisymmetric r m ->
    independent_rows r (2 * g) m ->
    exists s, symplectic_reduction xgcd m g = Done s /\ block_rows r g (stM s) /\
      antisymmetric r (stM s).
Proof. exact block_final. Qed.
Print Assumptions C12_block_diagonal.

(** The hypotheses of C09-C12 hold for a 6x6 form reduced with Bezout steps. *)
Definition m_ex : mat :=
  [[0;4;6;0;1;0]; [-4;0;5;2;0;3]; [-6;-5;0;1;7;0]; [0;-2;-1;0;2;2]; [-1;0;-7;-2;0;9]; [0;-3;0;-2;-9;0]].
Example C12_nonvacuous :
  square 6 m_ex /\ antisymmetric 6 m_ex /\ independent_rows 6 (2 * 3) m_ex /\
  exists s, symplectic_reduction egcd m_ex 3 = Done s /\ get (stM s) 4 5 = 177.
Proof.
  split; [apply square_check; reflexivity|]. split; [apply antisym_check; reflexivity|]. split.
  - exists (fun a => a). split; [lia|]. intros c Hc a Ha.
    pose proof (Hc 0%nat ltac:(lia)). pose proof (Hc 1%nat ltac:(lia)). pose proof (Hc 2%nat ltac:(lia)).
    pose proof (Hc 3%nat ltac:(lia)). pose proof (Hc 4%nat ltac:(lia)). pose proof (Hc 5%nat ltac:(lia)).
    cbn -[Z.mul Z.add] in *. do 6 (destruct a as [|a]; [lia|]). lia.
  - eexists. split; vm_compute; reflexivity.
Qed.

(** C13: a square unimodular form (the case r = 2g, i.e. gcd(m,n) = 1 or m | n for
    intersection forms) is brought to canonical form ... *)
Theorem C13_canonical_basis_partial :
  forall xgcd g m, xgcd_ok xgcd -> square (2 * g) m -> antisymmetric (2 * g) m ->
    unimodular (2 * g) m ->
    exists s, symplectic_reduction xgcd m g = Done s /\ canonical (2 * g) g (stM s).
Proof. exact unimodular_reduction_final. Qed.
Print Assumptions C13_canonical_basis_partial.

(** ... and for every form unimodular modulo its radical the blocks are +1 or -1. *)
Theorem C13_blocks_are_units_partial :
  forall xgcd r g m, xgcd_ok xgcd -> square r m -> antisymmetric r m ->
    independent_rows r (2 * g) m -> saturated r m ->
    exists s, symplectic_reduction xgcd m g = Done s /\
      forall e, (e < g)%nat -> Z.abs (get (stM s) (2 * e) (2 * e + 1)) = 1.
Proof. exact saturated_reduction_final. Qed.
Print Assumptions C13_blocks_are_units_partial.

(** But the sign may be wrong: for this form of rank 2, unimodular modulo its
    radical, every extended gcd leads to a block [0,-1;1,0]. *)
Theorem C13_sign_refuted :
  exists m, square 3 m /\ antisymmetric 3 m /\ independent_rows 3 (2 * 1) m /\ saturated 3 m /\
    forall xgcd, xgcd_ok xgcd ->
      exists s, symplectic_reduction xgcd m 1 = Done s /\ get (stM s) 0 1 = -1.
Proof.
  exists m_sign. split; [apply square_check; reflexivity|].
  split; [apply antisym_check; reflexivity|]. split; [exact m_sign_rank|].
  split; [exact m_sign_saturated|exact m_sign_minus].
Qed.
Print Assumptions C13_sign_refuted.

Definition m_uni : mat := [[0;2;3;0]; [-2;0;1;1]; [-3;-1;0;1]; [0;-1;-1;0]].
Example C13_nonvacuous :
  square 4 m_uni /\ antisymmetric 4 m_uni /\ unimodular 4 m_uni /\
  exists s, symplectic_reduction egcd m_uni 2 = Done s /\ stM s = [[0;1;0;0];[-1;0;0;0];[0;0;0;1];[0;0;-1;0]].
Proof.
  split; [apply square_check; reflexivity|]. split; [apply antisym_check; reflexivity|]. split.
  - exists [[0;1;-1;1]; [-1;0;0;-3]; [1;0;0;2]; [-1;3;-2;0]].
    split; [apply square_check; reflexivity|].
    intros i j Hi Hj.
    assert (H : forall i j, (i < 4)%nat -> (j < 4)%nat -> _) by
      (exact (all2_check (fun i j => (zsum 4 (fun k => get m_uni i k * get [[0;1;-1;1]; [-1;0;0;-3]; [1;0;0;2]; [-1;3;-2;0]] k j) =? delta i j) &&
        (zsum 4 (fun k => get [[0;1;-1;1]; [-1;0;0;-3]; [1;0;0;2]; [-1;3;-2;0]] i k * get m_uni k j) =? delta i j)) 4 eq_refl)).
    specialize (H i j Hi Hj). apply andb_true_iff in H. destruct H as [H1 H2].
    split; apply Z.eqb_eq; assumption.
  - eexists. split; vm_compute; reflexivity.
Qed.

(** C14: what the self-check accepts: block structure of any value. *)
Theorem C14_self_check_structure_partial :
  forall m g g2, is_symplectic_j m g g2 = true <->
    forall i, (i < g)%nat ->
      (forall j, (j < g2)%nat -> j <> (2 * i + 1)%nat -> get m (2 * i) j = 0) /\
      (forall j, (j < g2)%nat -> j <> (2 * i)%nat -> get m (2 * i + 1) j = 0) /\
      get m (2 * i + 1) (2 * i) = - get m (2 * i) (2 * i + 1).
Proof. exact is_symplectic_j_spec. Qed.
Print Assumptions C14_self_check_structure_partial.

Theorem C14_self_check_accepts_every_result :
  forall xgcd r g m s, xgcd_ok xgcd -> square r m -> antisymmetric r m ->
    independent_rows r (2 * g) m -> symplectic_reduction xgcd m g = Done s ->
    is_symplectic_j (stM s) g r = true.
Proof. exact check_after_reduction. Qed.
Print Assumptions C14_self_check_accepts_every_result.

(** The check accepts the result of the wrong sign of C13, blocks of any value and
    the zero matrix. *)
Theorem C14_self_check_refuted :
  (exists m s, symplectic_reduction egcd m 1 = Done s /\ is_symplectic_j (stM s) 1 3 = true /\
     ~ canonical 3 1 (stM s)) /\
  (forall d, is_symplectic_j [[0; d]; [-d; 0]] 1 2 = true /\
     (d <> 1 -> ~ canonical 2 1 [[0; d]; [-d; 0]])).
Proof.
  split.
  - exists m_sign. eexists. split; [vm_compute; reflexivity|]. split; [vm_compute; reflexivity|].
    intros H. destruct (H 0%nat ltac:(lia)) as [H1 _]. vm_compute in H1. discriminate.
  - intros d. split.
    + apply is_symplectic_j_spec. intros i Hi. replace i with 0%nat by lia.
      split; [|split]; [| |reflexivity]; intros [|[|j]] Hj Hne; cbn; lia.
    + intros Hd H. destruct (H 0%nat ltac:(lia)) as [H1 _]. cbn in H1. lia.
Qed.
Print Assumptions C14_self_check_refuted.
