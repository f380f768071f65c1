(** Model of arb/spanning_tree.c. *)
From Verif Require Import Base.

(** A double as far as comparisons see it: NaN or a number (finite doubles are
    multiples of 2^-1074, infinities are numbers beyond all finite ones). *)
Definition dbl := option Z.
Definition dlt (x y : dbl) : bool :=
  match x, y with Some a, Some b => a <? b | _, _ => false end.
Definition dzero (x : dbl) : bool := match x with Some z => z =? 0 | None => false end.

(** abel_jacobi.h:85-92 *)
Record edge := { er : dbl; ea : nat; eb : nat }.

(** spanning_tree.c:10-12 *)
Definition edge_flip (x : edge) : edge := {| er := er x; ea := eb x; eb := ea x |}.

(** spanning_tree.c:35-49; [param i j k] is the value of param(w[i], w[j], w[k]).  The
    initial value -1 is only compared with 0. *)
Fixpoint param_loop (ks : list nat) (f : nat -> dbl) (i j : nat) (p : dbl) : dbl :=
  match ks with
  | [] => p
  | k :: ks =>
      if ((k =? i) || (k =? j))%nat then param_loop ks f i j p
      else
        let tmp := f k in
        param_loop ks f i j (if dlt p (Some 0) || dlt tmp p then tmp else p)
  end.
Definition param_edge (param : nat -> nat -> nat -> dbl) (i j len : nat) : dbl :=
  param_loop (seq 0 len) (param i j) i j (Some (-1)).

(** spanning_tree.c:51-67: the array in the order it is filled *)
Definition edges_init (param : nat -> nat -> nat -> dbl) (len : nat) : list edge :=
  flat_map (fun i => map (fun j => {| er := param_edge param i j len; ea := i; eb := j |})
                         (seq (S i) (len - S i))) (seq 0 len).

(** array accesses *)
Definition tget {A} (t : list A) (i : nat) : outcome A :=
  match nth_error t i with Some x => Done x | None => Fault OutOfBounds end.
Fixpoint upd {A} (t : list A) (i : nat) (v : A) : list A :=
  match t, i with
  | [], _ => []
  | _ :: t, O => v :: t
  | x :: t, S i => x :: upd t i v
  end.

(** spanning_tree.c:112: [for (i = n-1; t[e[i].a] == t[e[i].b]; i--)], started at index i *)
Fixpoint scan (e : list edge) (t : list bool) (i : nat) : outcome nat :=
  do x <- tget e i;
  do ta <- tget t (ea x);
  do tb <- tget t (eb x);
  if Bool.eqb ta tb then
    match i with O => Fault OutOfBounds | S i => scan e t i end
  else Done i.

(** spanning_tree.c:105-129; [r], [mn] are tree->r and tree->min; k = 0 takes the last edge *)
Fixpoint grow (todo k : nat) (e : list edge) (t : list bool) (r : dbl) (mn : nat)
  : outcome (list edge * dbl * nat) :=
  match todo with
  | O => Done ([], r, mn)
  | S todo =>
      match length e with
      | O => Fault OutOfBounds
      | S last =>
          do i <- (if (k =? 0)%nat then Done last else scan e t last);
          do x <- tget e i;
          do tb <- tget t (eb x);
          let x := if tb then edge_flip x else x in
          do _ <- tget t (ea x);
          let t := upd (upd t (ea x) true) (eb x) true in
          let better := dzero r || dlt (er x) r in
          do res <- grow todo (S k) (upd e i x) t
                     (if better then er x else r) (if better then k else mn);
          let '(l, r, mn) := res in
          Done (x :: l, r, mn)
      end
  end.

(** spanning_tree.c:75-134 on a tree with [n] edges to choose; [sort] is qsort; [r], [mn]
    are the values tree->r, tree->min found in the structure (0 and 0 after
    tree_init, spanning_tree.c:141-142) *)
Definition spanning_tree (sort : list edge -> list edge) (param : nat -> nat -> nat -> dbl)
   (len n : nat) (r : dbl) (mn : nat) : outcome (list edge * dbl * nat) :=
  grow n 0 (sort (edges_init param len)) (repeat false len) r mn.
