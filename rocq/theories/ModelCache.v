(** Model of the loops over the edges of the tree: arb/integrals_gc.c:95-140 and
    arb/integrals_de.c:141-200, with the reuse of precomputed schemes. *)
From Verif Require Import Base ModelTree ModelCurve.
From Coq Require Import ZArith List.
Import ListNotations.
Local Open Scope Z_scope.

(** integrals_gc.c:101-105: slong arithmetic; [cached] is gc->n, [n] the requested number of
    points; result: number of points of the scheme that is used *)
Definition gc_scheme (c : sec) (cached n : Z) : outcome Z :=
  if cached =? 0 then Done n
  else
    let s := sec_n c + sec_g c in
    let d := cached - n in
    let p := d * s in
    if negb (is_slong s && is_slong d && is_slong p) then Fault SignedOverflow
    else if p >? n then Done n else Done cached.

(** ulong arithmetic *)
Definition wrap (z : Z) : Z := z mod 2 ^ 64.

(** parameters of a double exponential scheme: number of points, the edge they were computed
    for (which determines step, lambda and error radius) *)
Record de_scheme := { ds_n : Z; ds_edge : nat }.
Definition no_scheme : de_scheme := {| ds_n := 0; ds_edge := 0 |}.
(** integrals_de.c:152-163; de->n is an ulong, so the difference and the product wrap.
    [same] is the flag AJ_DE_SAME. *)
Definition de_update (c : sec) (same : bool) (de : de_scheme) (edge : nat) (n : Z) : de_scheme :=
  if (ds_n de =? 0) || negb same then
    if (ds_n de =? 0) || (wrap (wrap (ds_n de - n) * wrap (sec_n c + sec_g c)) >? wrap n)
    then {| ds_n := n; ds_edge := edge |} else de
  else de.

(** integrals_gc.c:131-136: requests in the order of the loop; schemes used *)
Fixpoint gc_schemes (c : sec) (cached : Z) (requests : list Z) : outcome (list Z) :=
  match requests with
  | [] => Done []
  | n :: requests =>
      do s <- gc_scheme c cached n;
      do l <- gc_schemes c s requests;
      Done (s :: l)
  end.
(** integrals_de.c:187-192 *)
Fixpoint de_schemes (c : sec) (same : bool) (de : de_scheme) (requests : list (nat * Z)) : list de_scheme :=
  match requests with
  | [] => []
  | (k, n) :: requests =>
      let de := de_update c same de k n in
      de :: de_schemes c same de requests
  end.

Section Tree.
(** a row of integrals; a scheme carried from edge to edge; the integration of edge k *)
Context {Row Scheme : Type} (noscheme : Scheme) (integ : Scheme -> nat -> outcome (Row * Scheme)).
(** key of an edge and qsort *)
Context {Key : Type} (qsort : list (Key * nat) -> list (Key * nat)).

(** integrals_gc.c:132-136, integrals_de.c:188-192 *)
Fixpoint edge_loop (t : list (Key * nat)) (s : Scheme) (rows : list Row) : outcome (list Row) :=
  match t with
  | [] => Done rows
  | (_, k) :: t =>
      do r <- integ s k;
      if (k <? length rows)%nat then edge_loop t (snd r) (upd rows k (fst r))
      else Fault OutOfBounds
  end.
(** integrals_gc.c:120-139, integrals_de.c:176-194; [rows] is the matrix before *)
Definition integrals_tree (keys : list Key) (rows : list Row) : outcome (list Row) :=
  edge_loop (qsort (combine keys (seq 0 (length keys)))) noscheme rows.
End Tree.
