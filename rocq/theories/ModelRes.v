(** Model of the resources (memory blocks with the numbers initialised in them) acquired and released
    by arb/aj_struct.c, se_curve.c:19-59, homol.c, spanning_tree.c:75-150, ydata.c, symplectic_basis.c,
    intersections_tree.c:96-145, integrals_gc.c, integrals_de.c, gc_int.c, de_int.c, period_matrix.c and
    tau_matrix.c.  Values are not modelled here; decisions that depend on them are arguments. *)
From Verif Require Import Base ModelCli ModelStage.
Local Open Scope Z_scope.

(** [cells i]: 0 if block i was never acquired or is entirely released; 1 + k for a live block with k
    initialised elements; - k for a released block with k elements that were not cleared. *)
Record heap := { h_next : nat; h_cell : nat -> Z }.
Definition M (A : Type) := heap -> outcome (A * heap).
Definition ret {A} (a : A) : M A := fun h => Done (a, h).
Definition andthen {A B} (p : M A) (q : A -> M B) : M B := fun h => do r <- p h; q (fst r) (snd r).
Notation "'let!' x := p 'in' q" := (andthen p (fun x => q)) (at level 200, x name, p at level 100, q at level 200).
Notation "p ;! q" := (andthen p (fun _ => q)) (at level 100, right associativity).

(** flint_malloc (k = 0), arb_init etc. (k = 1), _acb_vec_init, acb_mat_init (k = number of entries) *)
Definition init (k : Z) : M nat := fun h =>
  Done (h_next h, {| h_next := S (h_next h); h_cell := fun i => if (i =? h_next h)%nat then 1 + k else h_cell h i |}).
(** flint_free, arb_clear, _acb_vec_clear, acb_mat_clear *)
Definition clear (i : nat) (k : Z) : M unit := fun h =>
  if h_cell h i <=? 0 then Fault BadPointer
  else if h_cell h i - 1 <? k then Fault OutOfBounds
  else Done (tt, {| h_next := h_next h; h_cell := fun j => if (j =? i)%nat then k - (h_cell h i - 1) else h_cell h j |}).

Fixpoint each {A B} (l : list A) (f : A -> M B) : M (list B) :=
  match l with
  | [] => ret []
  | a :: l => let! b := f a in let! r := each l f in ret (b :: r)
  end.
(** local variables initialised at the beginning and cleared at the end of a function *)
Fixpoint locals {A} (ks : list Z) (body : M A) : M A :=
  match ks with
  | [] => body
  | k :: ks => let! i := init k in let! a := locals ks body in clear i k ;! ret a
  end.

(** Everything else a run depends on.  [n], [m], [g]: the curve; [edges]: size of the tree. *)
Record choices := {
  ch_root : nat -> bool;               (* edge k: constant_cab multiplies by a root of unity *)
  ch_meet : list (nat * nat);          (* pairs of edges with a common point *)
  ch_a : list Z; ch_b : list Z;        (* numbers of terms of the loops *)
  ch_gc : nat -> option Z;             (* edge k: new Gauss-Chebychev scheme with that many points *)
  ch_de : nat -> option Z;             (* edge k: new double exponential scheme *)
  ch_turn : nat -> list bool;          (* edge k: values of the root, true: acb_prod_turn gives up *)
  ch_solve : bool; ch_det0 : bool; ch_real1 : bool; ch_real2 : bool }.

Section Program.
Context (m n g : Z) (edges : nat).

(** ** structures *)
(** abel_jacobi.h:125-165; a loop is its number of terms and its block *)
Record aj := {
  a_pol : nat; a_ni : nat; a_roots : nat; a_e : nat; a_data : option (nat * list nat);
  a_cyca : nat; a_cycb : nat; a_loopa : list (Z * nat); a_loopb : list (Z * nat);
  a_ints : nat; a_omega0 : nat; a_omega1 : nat; a_tau : nat; a_proj : nat }.

(** homol.c:36-38: loops of length 0 without a block; block number 0 stands for garbage *)
Definition no_loops : list (Z * nat) := repeat (0, O) (Z.to_nat g).

(** aj_struct.c:19-56, se_curve.c:19-51, spanning_tree.c:137-144, homol.c:32-39 *)
Definition aj_init : M aj :=
  let! pol := init 1 in let! ni := init 0 in
  let! roots := init n in
  let! e := init 0 in
  let! ca := init 0 in let! cb := init 0 in
  let! ints := init (Z.of_nat edges * g) in
  let! w0 := init (g * g) in let! w1 := init (g * g) in let! tau := init (g * g) in
  let! proj := init (2 * g * (2 * g)) in
  ret {| a_pol := pol; a_ni := ni; a_roots := roots; a_e := e; a_data := None; a_cyca := ca; a_cycb := cb;
         a_loopa := no_loops; a_loopb := no_loops; a_ints := ints; a_omega0 := w0; a_omega1 := w1; a_tau := tau; a_proj := proj |}.

(** homol.c:16-21, 41-49 *)
Definition loop_clear (l : Z * nat) : M unit := if fst l =? 0 then ret tt else clear (snd l) 0.
Definition homol_clear (cyc : nat) (l : list (Z * nat)) : M unit := each l loop_clear ;! clear cyc 0.

(** aj_struct.c:58-71, spanning_tree.c:146-150, se_curve.c:53-59 *)
Definition aj_clear (a : aj) : M unit :=
  clear (a_roots a) n ;!
  clear (a_ints a) (Z.of_nat edges * g) ;!
  clear (a_omega0 a) (g * g) ;! clear (a_omega1 a) (g * g) ;! clear (a_tau a) (g * g) ;!
  clear (a_proj a) (2 * g * (2 * g)) ;!
  clear (a_e a) 0 ;!
  homol_clear (a_cyca a) (a_loopa a) ;! homol_clear (a_cycb a) (a_loopb a) ;!
  clear (a_pol a) 1 ;! clear (a_ni a) 0.

(** ** stages *)
(** spanning_tree.c:81-133: w, e, t *)
Definition spanning_res : M unit := locals [0; 0; 0] (ret tt).
(** ydata.c:151-232: temporaries of the edges and of their coefficients, here one pair per edge *)
Definition extraprec_res : M unit :=
  locals [1; 1] (each (seq 0 edges) (fun _ => locals [1; 1; 1; 1; 1; 1] (locals [1; 1] (ret tt))) ;! ret tt).
(** ydata.c:10-35, 80-96 and 98-124 *)
Definition ydata_init_edge (c : choices) (k : nat) : M nat :=
  let! u := init (n - 2 + 5) in
  (if ch_root c k then locals [1] (ret tt) else ret tt) ;!
  locals [1; 1] (locals [1] (ret tt)) ;!
  locals [1; 1] (locals [1] (ret tt)) ;!
  ret u.
(** ydata.c:131-138 *)
Definition ydata_init (c : choices) : M (nat * list nat) :=
  let! d := init 0 in
  let! l := each (seq 0 edges) (ydata_init_edge c) in
  ret (d, l).
(** ydata.c:140-147 *)
Definition ydata_clear (y : nat * list nat) : M unit :=
  each (snd y) (fun u => clear u (n - 2 + 5)) ;! clear (fst y) 0.

(** intersections_tree.c:97-130: rho and psi are not cleared; 42-77, 79-94: temporaries *)
Definition shift_number_res : M unit :=
  let! _ := init 1 in let! _ := init 1 in
  locals [1; 1] (ret tt) ;! locals [1; 1] (ret tt) ;! locals [1] (ret tt).
(** homol.c:9-14 *)
Definition loop_init (len : Z) : M (Z * nat) := let! i := init 0 in ret (len, i).
(** symplectic_basis.c:36-84; the temporaries of symplectic_reduction hold integers only *)
Definition basis_res (c : choices) : M (list (Z * nat) * list (Z * nat)) :=
  let len := Z.of_nat edges * (m - 1) in
  let! mm := init (len * len) in let! p := init (len * len) in
  each (ch_meet c) (fun _ => shift_number_res) ;!
  clear mm (len * len) ;!
  let! l := each (combine (ch_a c) (ch_b c)) (fun ab =>
      let! a := loop_init (fst ab) in let! b := loop_init (snd ab) in ret (a, b)) in
  clear p (len * len) ;!
  ret (split l).

(** mth_root_pol.c:82-136: t is not cleared when the function gives up *)
Definition prod_turn_res (fail : bool) : M unit :=
  if fail then let! _ := init 1 in ret tt else locals [1] (ret tt).

(** gc_int.c:10-47; [None]: nothing precomputed, n = 0 *)
Definition gc_init (np : Z) : M (Z * nat) :=
  let len := np / 2 in
  let! x := init len in
  (if np =? 0 then ret tt
   else let! t := init (len + 1) in locals [1] (ret tt) ;! clear t len) ;!
  ret (len, x).
Definition gc_clear (s : Z * nat) : M unit := clear (snd s) (fst s).
(** integrals_gc.c:9-84 and 95-112; [d] from mag_init *)
Definition edge_gc (c : choices) (s : Z * nat) (k : nat) : M (Z * nat) :=
  locals [1] (
    let! s := match ch_gc c k with
              | Some np => gc_clear s ;! gc_init np
              | None => ret s
              end in
    locals [1; 1; 1; 1] (each (ch_turn c k) prod_turn_res ;! ret tt) ;!
    ret s).
(** loop over the edges with a scheme carried along *)
Fixpoint carry {S} (f : S -> nat -> M S) (l : list nat) (s : S) : M S :=
  match l with
  | [] => ret s
  | k :: l => let! s := f s k in carry f l s
  end.
(** integrals_gc.c:120-140 *)
Definition tree_gc (c : choices) : M unit :=
  let! t := init 0 in
  let! s := gc_init 0 in
  let! s := carry (edge_gc c) (seq 0 edges) s in
  gc_clear s ;! clear t 0.

(** de_int.c:33-101, 103-116: n = 0 for no scheme; h, l, e, factor, x, dx, ch2m *)
Definition de_init (np : Z) : M (Z * list nat) :=
  if np =? 0 then ret (0, [])
  else
    let! h := init 1 in let! l := init 1 in let! e := init 1 in let! fa := init 1 in
    let! x := init np in let! dx := init np in let! ch := init np in
    locals [1; 1; 1; 1; 1; 1; 1] (ret tt) ;!
    ret (np, [h; l; e; fa; x; dx; ch]).
Definition de_clear (s : Z * list nat) : M unit :=
  if fst s =? 0 then ret tt
  else each (combine (snd s) [1; 1; 1; 1; fst s; fst s; fst s]) (fun ik => clear (fst ik) (snd ik)) ;! ret tt.
(** integrals_de.c:9-117, 141-173 *)
Definition edge_de (c : choices) (s : Z * list nat) (k : nat) : M (Z * list nat) :=
  locals [1; 1; 1] (
    let! s := match ch_de c k with
              | Some np => de_clear s ;! de_init np
              | None => ret s
              end in
    locals [1; 1; 1; 1; m] (each (ch_turn c k) prod_turn_res ;! ret tt) ;!
    ret s).
(** integrals_de.c:176-200 *)
Definition tree_de (c : choices) : M unit :=
  let! t := init 0 in
  let! s := carry (edge_de c) (seq 0 edges) (0, []) in
  de_clear s ;! clear t 0.

(** integrals_de.c:202-230 *)
Definition d2_res : M unit := locals [1; 1; 1] (ret tt).
(** period_matrix.c:10-58 *)
Definition period_res : M unit := locals [m] (each (repeat tt (Z.to_nat g)) (fun _ => locals [1] (ret tt)) ;! ret tt).

(** tau_matrix.c:46-110 on square matrices of size g: x is initialised again instead of cleared *)
Definition solve_real_res : M unit :=
  if g =? 0 then ret tt
  else
    let! a := init (g * g) in let! b := init (g * g) in let! t := init (g * g) in
    let! c := init (g * g) in let! d := init (g * g) in let! _ := init (g * g) in
    let! perm := init 0 in let! lu := init (g * g) in
    clear a (g * g) ;! clear b (g * g) ;! clear t (g * g) ;! clear c (g * g) ;! clear d (g * g) ;!
    let! _ := init (g * g) in
    clear lu (g * g) ;! clear perm 0.
(** tau_matrix.c:112-133 *)
Definition charpoly_res : M unit := locals [1; g * g] (ret tt).
(** tau_matrix.c:136-181: det is not cleared *)
Definition tau_res (c : choices) : M unit :=
  if ch_solve c then ret tt
  else
    let! _ := init 1 in
    if ch_det0 c then fun _ => Abort
    else
      solve_real_res ;!
      if ch_real1 c then ret tt
      else locals [1; g * g; g * g] (solve_real_res ;! if ch_real2 c then ret tt else charpoly_res).

(** aj_struct.c:73-182.  The method is D2, GC or DE according to the flag and the curve. *)
Definition aj_compute (flag : Z) (c : choices) (a : aj) : M aj :=
  spanning_res ;!
  extraprec_res ;!
  let! y := ydata_init c in
  let! ab := basis_res c in
  let a := {| a_pol := a_pol a; a_ni := a_ni a; a_roots := a_roots a; a_e := a_e a; a_data := Some y;
              a_cyca := a_cyca a; a_cycb := a_cycb a; a_loopa := fst ab; a_loopb := snd ab;
              a_ints := a_ints a; a_omega0 := a_omega0 a; a_omega1 := a_omega1 a; a_tau := a_tau a; a_proj := a_proj a |} in
  if has flag AJ_NO_INT then ret a
  else
    let! ints := init (Z.of_nat edges * g) in
    match int_type m n flag with INT_D2 => d2_res | INT_GC => tree_gc c | INT_DE => tree_de c end ;!
    ydata_clear y ;!
    let a := {| a_pol := a_pol a; a_ni := a_ni a; a_roots := a_roots a; a_e := a_e a; a_data := Some y;
                a_cyca := a_cyca a; a_cycb := a_cycb a; a_loopa := a_loopa a; a_loopb := a_loopb a;
                a_ints := ints; a_omega0 := a_omega0 a; a_omega1 := a_omega1 a; a_tau := a_tau a; a_proj := a_proj a |} in
    if has flag AJ_NO_AB then ret a
    else
      period_res ;! period_res ;!
      if has flag AJ_NO_TAU then ret a
      else tau_res c ;! ret a.

Fixpoint computes_res (calls : list (Z * choices)) (a : aj) : M aj :=
  match calls with
  | [] => ret a
  | (flag, c) :: calls => let! a := aj_compute flag c a in computes_res calls a
  end.
(** initialise, compute any number of times, clear *)
Definition life (calls : list (Z * choices)) : M unit :=
  let! a := aj_init in
  let! a := computes_res calls a in
  aj_clear a.
End Program.

Definition empty_heap : heap := {| h_next := 0; h_cell := fun _ => 0 |}.
