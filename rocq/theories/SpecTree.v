(** Graph vocabulary. *)
From Coq Require Export Permutation.
From Verif Require Import Base ModelTree.

Definition joins (x : edge) (u v : nat) : Prop :=
  (ea x = u /\ eb x = v) \/ (ea x = v /\ eb x = u).

(** u and v are connected by edges of the list *)
Inductive linked (l : list edge) (u : nat) : nat -> Prop :=
| linked_refl : linked l u u
| linked_step v w x : linked l u v -> In x l -> joins x v w -> linked l u w.

Definition touched (l : list edge) (v : nat) : Prop := exists x, In x l /\ (ea x = v \/ eb x = v).

(** each edge goes from a point already reached to a new one *)
Definition growing (l : list edge) : Prop :=
  forall l1 x l2, l = l1 ++ x :: l2 ->
    ea x <> eb x /\ ~ touched l1 (eb x) /\ (l1 <> [] -> touched l1 (ea x)).

(** tree on the points 0 .. len-1: k edges, k+1 points, connected, no cycle (no edge can be
    spared) *)
Definition connected (l : list edge) : Prop := forall u v, touched l u -> touched l v -> linked l u v.
Definition acyclic (l : list edge) : Prop :=
  forall l1 x l2, l = l1 ++ x :: l2 -> ~ linked (l1 ++ l2) (ea x) (eb x).

(** a graph on 0 .. len-1 given by a list of edges, each pair once *)
Definition complete (len : nat) (l : list edge) : Prop :=
  (forall x, In x l -> (ea x < len)%nat /\ (eb x < len)%nat /\ ea x <> eb x) /\
  (forall u v, (u < len)%nat -> (v < len)%nat -> u <> v -> exists x, In x l /\ joins x u v).

(** edges of weight at least w *)
Definition heavy (w : Z) (l : list edge) : list edge :=
  filter (fun x => match er x with Some z => w <=? z | None => false end) l.

Definition is_number (x : dbl) : Prop := x <> None.

(** increasing order for the comparison of spanning_tree.c *)
Fixpoint sorted (l : list edge) : Prop :=
  match l with
  | [] => True
  | x :: l => (forall y, In y l -> dlt (er y) (er x) = false) /\ sorted l
  end.

(** contract of qsort: a permutation, sorted when all weights are comparable *)
Definition qsort_ok (sort : list edge -> list edge) : Prop :=
  forall l, Permutation l (sort l) /\
    ((forall x, In x l -> is_number (er x)) -> sorted (sort l)).
