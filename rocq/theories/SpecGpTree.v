(** Vocabulary for trees on the points 0 .. n-1 with weights. *)
From Coq Require Export Permutation.
From Verif Require Import Base.

(** contract of vecsort(.,1): a permutation, increasing for the first component *)
Definition sort_ok (sort : list (Z * (nat * nat)) -> list (Z * (nat * nat))) : Prop :=
  forall l, Permutation l (sort l) /\ forall l1 x l2 y l3, sort l = l1 ++ x :: l2 ++ y :: l3 -> fst x <= fst y.

(** weight of an edge from the weights of i < j *)
Definition weight (w : nat -> nat -> Z) (u v : nat) : Z := w (Nat.min u v) (Nat.max u v).

(** the root and the ends of edges *)
Definition reached (root : nat) (t : list (nat * nat)) (v : nat) : Prop := v = root \/ exists e, In e t /\ (v = fst e \/ v = snd e).

(** every edge has one end among the points reached before and one among the others *)
Definition grows (n root : nat) (t : list (nat * nat)) : Prop :=
  forall t1 a b t2, t = t1 ++ (a, b) :: t2 -> (a < n)%nat /\ (b < n)%nat /\
    ((reached root t1 a /\ ~ reached root t1 b) \/ (reached root t1 b /\ ~ reached root t1 a)).

(** and it has the largest weight of these edges *)
Definition best (n root : nat) (w : nat -> nat -> Z) (t : list (nat * nat)) : Prop :=
  forall t1 a b t2, t = t1 ++ (a, b) :: t2 -> forall u v, (u < n)%nat -> (v < n)%nat ->
    reached root t1 u -> ~ reached root t1 v -> weight w u v <= weight w a b.

(** m is the least weight of the edges *)
Definition least_weight (w : nat -> nat -> Z) (t : list (nat * nat)) (m : Z) : Prop :=
  (exists a b, In (a, b) t /\ weight w a b = m) /\ forall a b, In (a, b) t -> m <= weight w a b.

(** u and v are linked by edges of the set E *)
Inductive linked_by (E : nat -> nat -> Prop) (u : nat) : nat -> Prop :=
| linked_refl : linked_by E u u
| linked_step v x : linked_by E u v -> E v x \/ E x v -> linked_by E u x.

(** E links all points *)
Definition spans (n : nat) (E : nat -> nat -> Prop) : Prop :=
  (forall u v, E u v -> (u < n)%nat /\ (v < n)%nat /\ u <> v) /\
  forall u v, (u < n)%nat -> (v < n)%nat -> linked_by E u v.

(** E links all points but q *)
Definition spans_but (n q : nat) (E : nat -> nat -> Prop) : Prop :=
  (forall u v, E u v -> (u < n)%nat /\ (v < n)%nat /\ u <> v) /\
  forall u v, (u < n)%nat -> (v < n)%nat -> u <> q -> v <> q -> linked_by E u v.
