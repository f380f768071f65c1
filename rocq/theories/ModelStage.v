(** Model of arb/aj_struct.c:73-182 and of what arb/example/periods.c:190-213 prints: which field is
    computed from which other fields, under which flags. *)
From Verif Require Import Base ModelCli ModelTree.
Local Open Scope Z_scope.

Definition has (flag b : Z) : bool := negb (Z.land flag b =? 0).

Section Compute.
(** approximations of the branch points, data of the edges, homology basis, matrices *)
Context {Roots Ydata Loops Ints Omega Tau : Type}.
(** the computations of each stage, modelled in ModelCmp, ModelTree, ModelEdge, ModelInter,
    ModelSymp, ModelQuad, ModelCache, ModelPer and ModelTau.  The curve is fixed. *)
Context (branch_points : Z -> Roots)
        (sort : list edge -> list edge) (param : int_method -> Roots -> nat -> nat -> nat -> dbl)
        (extraprec : list edge -> Roots -> Z)
        (ydata : list edge -> Roots -> Z -> Ydata)
        (basis : list edge -> Ydata -> Loops * Loops)
        (integrals : int_method -> list edge -> Ydata -> Z -> Z -> Ints)
        (period : Loops -> Ints -> Z -> Omega)
        (trim_omega : Omega -> Omega) (trim_tau : Tau -> Tau)
        (tau_matrix : Omega -> Omega -> Z -> Tau).
(** exponent m, degree n, number of edges of the tree *)
Context (m n : Z) (edges : nat).

(** abel_jacobi.h:125-165.  [st_data]: tree->data, freed after the integrals. *)
Record state := {
  st_type : int_method; st_roots : Roots;
  st_edges : list edge; st_r : dbl; st_min : nat; st_data : option Ydata;
  st_a : Loops; st_b : Loops; st_ints : Ints; st_omega0 : Omega; st_omega1 : Omega; st_tau : Tau }.

(** aj_struct.c:73-182 *)
Definition compute (s : state) (flag prec : Z) : outcome state :=
  let type := int_type m n flag in
  let roots := branch_points 64 in
  do t <- spanning_tree sort (param type roots) (Z.to_nat n) edges (st_r s) (st_min s);
  let '(e, r, mn) := t in
  let intprec := prec + extraprec e roots in
  let cstprec := intprec + 10 in
  let roots := branch_points cstprec in
  let data := ydata e roots cstprec in
  let '(a, b) := basis e data in
  if has flag AJ_NO_INT then
    Done {| st_type := type; st_roots := roots; st_edges := e; st_r := r; st_min := mn; st_data := Some data;
            st_a := a; st_b := b; st_ints := st_ints s; st_omega0 := st_omega0 s; st_omega1 := st_omega1 s; st_tau := st_tau s |}
  else
  let ints := integrals type e data flag intprec in
  if has flag AJ_NO_AB then
    Done {| st_type := type; st_roots := roots; st_edges := e; st_r := r; st_min := mn; st_data := None;
            st_a := a; st_b := b; st_ints := ints; st_omega0 := st_omega0 s; st_omega1 := st_omega1 s; st_tau := st_tau s |}
  else
  let w0 := period a ints intprec in
  let w1 := period b ints intprec in
  let w0 := if has flag AJ_TRIM then trim_omega w0 else w0 in
  let w1 := if has flag AJ_TRIM then trim_omega w1 else w1 in
  if has flag AJ_NO_TAU then
    Done {| st_type := type; st_roots := roots; st_edges := e; st_r := r; st_min := mn; st_data := None;
            st_a := a; st_b := b; st_ints := ints; st_omega0 := w0; st_omega1 := w1; st_tau := st_tau s |}
  else
  let tau := tau_matrix w0 w1 intprec in
  let tau := if has flag AJ_TRIM then trim_tau tau else tau in
    Done {| st_type := type; st_roots := roots; st_edges := e; st_r := r; st_min := mn; st_data := None;
            st_a := a; st_b := b; st_ints := ints; st_omega0 := w0; st_omega1 := w1; st_tau := tau |}.

(** a sequence of calls *)
Fixpoint computes (s : state) (calls : list (Z * Z)) : outcome state :=
  match calls with
  | [] => Done s
  | (flag, prec) :: calls => do s <- compute s flag prec; computes s calls
  end.

(** what the program prints, periods.c:193-212 *)
Inductive output :=
| PrintTree (r : dbl) (e : list edge)
| PrintInts (i : Ints)
| PrintOmegas (w0 w1 : Omega)
| PrintTau (t : Tau).
Definition printed (flag : Z) (s : state) : output :=
  if has flag AJ_NO_INT then PrintTree (st_r s) (st_edges s)
  else if has flag AJ_NO_AB then PrintInts (st_ints s)
  else if has flag AJ_NO_TAU then PrintOmegas (st_omega0 s) (st_omega1 s)
  else PrintTau (st_tau s).

(** periods.c:190-212: [run] rounds, then print unless in benchmark mode; [None]: nothing printed *)
Definition session (s : state) (print : bool) (run flag prec : Z) : outcome (option output) :=
  do s <- computes s (repeat (flag, prec) (Z.to_nat run));
  Done (if print then Some (printed flag s) else None).
End Compute.
