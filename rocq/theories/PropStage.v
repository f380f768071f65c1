(** C49: stages of the computation.  Statements only.  The computations made in each stage are
    arbitrary functions; the spanning tree is that of ModelTree. *)
From Verif Require Import Base ModelCli ModelTree SpecTree ProofTreeEx ModelStage SpecStage ProofStage.
Local Open Scope Z_scope.

Section C49.
Context {Roots Ydata Loops Ints Omega Tau : Type}.
Context (branch_points : Z -> Roots)
        (sort : list edge -> list edge) (param : int_method -> Roots -> nat -> nat -> nat -> dbl)
        (extraprec : list edge -> Roots -> Z)
        (ydata : list edge -> Roots -> Z -> Ydata)
        (basis : list edge -> Ydata -> Loops * Loops)
        (integrals : int_method -> list edge -> Ydata -> Z -> Z -> Ints)
        (period : Loops -> Ints -> Z -> Omega)
        (trim_omega : Omega -> Omega) (trim_tau : Tau -> Tau)
        (tau_matrix : Omega -> Omega -> Z -> Tau)
        (m n : Z) (edges : nat).
Notation compute := (compute branch_points sort param extraprec ydata basis integrals period trim_omega trim_tau tau_matrix m n edges).
Notation session := (session branch_points sort param extraprec ydata basis integrals period trim_omega trim_tau tau_matrix m n edges).

(** Results excluded by the flags are left as they were. *)
Theorem C49_untouched :
  forall s flag prec s', compute s flag prec = Done s' ->
    (Z.land flag AJ_NO_INT <> 0 -> st_ints s' = st_ints s) /\
    (Z.land flag AJ_NO_INT <> 0 \/ Z.land flag AJ_NO_AB <> 0 -> st_omega0 s' = st_omega0 s /\ st_omega1 s' = st_omega1 s) /\
    (Z.land flag AJ_NO_INT <> 0 \/ Z.land flag AJ_NO_AB <> 0 \/ Z.land flag AJ_NO_TAU <> 0 -> st_tau s' = st_tau s).
Proof. exact (untouched branch_points sort param extraprec ydata basis integrals period trim_omega trim_tau tau_matrix m n edges). Qed.

(** The computation succeeds, and every result it announces is computed from this run: it is the
    same whatever was in the structure before. *)
Theorem C49_own_data :
  forall s1 s2 flag prec, (forall l, Permutation l (sort l)) -> (edges < Z.to_nat n)%nat ->
    exists t1 t2, compute s1 flag prec = Done t1 /\ compute s2 flag prec = Done t2 /\ same_results flag t1 t2.
Proof.
  intros s1 s2 flag prec Hs Hn.
  destruct (compute_agree branch_points sort param extraprec ydata basis integrals period trim_omega trim_tau tau_matrix m n edges s1 s2 flag prec Hs Hn)
    as (t1 & t2 & E1 & E2 & H & _). exact (ex_intro _ t1 (ex_intro _ t2 (conj E1 (conj E2 H)))).
Qed.

(** What each result is: the points and edges at the working precision, the basis of loops of
    those edges, the integrals of those edges, the periods of the two families of loops, and the
    matrix tau of those periods; with the option that trims, only the stored value is trimmed. *)
Theorem C49_fields :
  forall s flag prec s', compute s flag prec = Done s' ->
    let p := prec + extraprec (st_edges s') (branch_points 64) in
    let d := ydata (st_edges s') (st_roots s') (p + 10) in
    st_type s' = int_type m n flag /\ st_roots s' = branch_points (p + 10) /\
    st_a s' = fst (basis (st_edges s') d) /\ st_b s' = snd (basis (st_edges s') d) /\
    (Z.land flag AJ_NO_INT = 0 -> st_ints s' = integrals (st_type s') (st_edges s') d flag p) /\
    (Z.land flag AJ_NO_INT = 0 -> Z.land flag AJ_NO_AB = 0 ->
      (if (Z.land flag AJ_TRIM =? 0)%Z then
        st_omega0 s' = period (st_a s') (st_ints s') p /\ st_omega1 s' = period (st_b s') (st_ints s') p
      else
        st_omega0 s' = trim_omega (period (st_a s') (st_ints s') p) /\ st_omega1 s' = trim_omega (period (st_b s') (st_ints s') p))) /\
    (Z.land flag AJ_NO_INT = 0 -> Z.land flag AJ_NO_AB = 0 -> Z.land flag AJ_NO_TAU = 0 ->
      (if (Z.land flag AJ_TRIM =? 0)%Z then st_tau s' = tau_matrix (st_omega0 s') (st_omega1 s') p
      else st_tau s' = trim_tau (tau_matrix (st_omega0 s') (st_omega1 s') p))).
Proof. exact (fields branch_points sort param extraprec ydata basis integrals period trim_omega trim_tau tau_matrix m n edges). Qed.

(** What the program prints does not depend on the initial contents of the matrices: only fields
    computed in the session are printed, for all flags. *)
Theorem C49_printed :
  forall s1 s2 print run flag prec, (forall l, Permutation l (sort l)) -> (edges < Z.to_nat n)%nat ->
    st_r s1 = st_r s2 -> st_min s1 = st_min s2 -> (print = true -> 1 <= run) ->
    exists o, session s1 print run flag prec = Done o /\ session s2 print run flag prec = Done o /\ (o = None <-> print = false).
Proof. exact (session_agree branch_points sort param extraprec ydata basis integrals period trim_omega trim_tau tau_matrix m n edges). Qed.
End C49.
Print Assumptions C49_untouched.
Print Assumptions C49_own_data.
Print Assumptions C49_fields.
Print Assumptions C49_printed.

(** a curve y^2 = cubic whose edges have quality 3 for one method and 5 for the other *)
Definition c49_compute (s : @state unit unit unit Z Z Z) flag prec :=
  compute (fun _ => tt) isort (fun t _ _ _ _ => Some (match t with INT_DE => 5 | _ => 3 end)) (fun _ _ => 0) (fun _ _ _ => tt)
    (fun _ _ => (tt, tt)) (fun _ _ _ _ p => p) (fun _ i _ => i) (fun w => w) (fun t => t) (fun w0 w1 _ => w0 + w1) 2 3 2 s flag prec.
Definition c49_fresh : @state unit unit unit Z Z Z :=
  {| st_type := INT_GC; st_roots := tt; st_edges := []; st_r := Some 0; st_min := 0%nat; st_data := None;
     st_a := tt; st_b := tt; st_ints := 0; st_omega0 := 0; st_omega1 := 0; st_tau := 0 |}.
Example C49_example :
  (forall l, Permutation l (isort l)) /\
  exists s, c49_compute c49_fresh (AJ_NO_TAU + AJ_VERBOSE) 64 = Done s /\ st_omega0 s = 64 /\ st_tau s = 0.
Proof. split; [exact isort_perm|]. eexists. split; [vm_compute; reflexivity|]. split; reflexivity. Qed.

(** The quality of the worst edge and its index (tree->r, tree->min, printed by tree_print) are not
    of this run when the structure was used before: they are read before being written. *)
Theorem C49_worst_edge_refuted :
  exists s1 s2 s3, c49_compute c49_fresh 0 64 = Done s1 /\ c49_compute s1 AJ_USE_DE 64 = Done s2 /\
    c49_compute c49_fresh AJ_USE_DE 64 = Done s3 /\ st_r s2 = Some 3 /\ st_r s3 = Some 5.
Proof. do 3 eexists. split; [vm_compute; reflexivity|]. split; [vm_compute; reflexivity|]. split; [vm_compute; reflexivity|]. split; reflexivity. Qed.
Print Assumptions C49_worst_edge_refuted.
