(** Vocabulary for the operations on vectors. *)
From Verif Require Import CBase.
Local Open Scope nat_scope.

(** v' is v with the entries off .. off+len-1 replaced by f 0 .. f (len-1) *)
Definition replaced (v v' : list C) (off len : nat) (f : nat -> C) : Prop :=
  length v' = length v /\
  (forall l, l < len -> vget v' (off + l) = f l) /\
  (forall i, i < off \/ off + len <= i -> vget v' i = vget v i).

Fixpoint binom (n k : nat) : nat :=
  match n, k with
  | _, O => 1
  | O, S _ => 0
  | S n, S k => binom n k + binom n (S k)
  end.
Definition NC (n : nat) : C := RtoC (INR n).

(** L is linear on polynomial functions *)
Definition linear_functional (L : (C -> C) -> C) : Prop :=
  forall n (a : nat -> C), L (fun t => csum n (fun i => a i * cpow t i)%C) = csum n (fun i => a i * L (fun t => cpow t i))%C.

(** the entries are the moments of L *)
Definition moments (L : (C -> C) -> C) (v : list C) (off len : nat) : Prop :=
  forall l, l < len -> vget v (off + l) = L (fun t => cpow t l).
