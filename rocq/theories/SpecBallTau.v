(** Contract of Arb for the functions on matrices of ModelBallTau, and linear systems.
    An exact matrix is the function of its entries. *)
From Coq Require Import Reals.
From Verif Require Import CArg ModelBall ModelBallTau.
Local Open Scope R_scope.

(** sum of f k, k < n *)
Fixpoint sumC (n : nat) (f : nat -> C) : C := match n with O => RtoC 0 | S n => (sumC n f + f n)%C end.
Fixpoint sumR (n : nat) (f : nat -> R) : R := match n with O => 0 | S n => sumR n f + f n end.
(** a x = b, for a square matrix a of size n, and matrices x, b with m columns *)
Definition solves (n m : nat) (a x b : nat -> nat -> C) : Prop :=
  forall i j, (i < n)%nat -> (j < m)%nat -> sumC n (fun k => a i k * x k j)%C = b i j.
Definition solvesR (n m : nat) (a x b : nat -> nat -> R) : Prop :=
  forall i j, (i < n)%nat -> (j < m)%nat -> sumR n (fun k => a i k * x k j) = b i j.
(** only 0 is sent to 0 *)
Definition nonsingular (n : nat) (a : nat -> nat -> C) : Prop :=
  forall v, (forall i, (i < n)%nat -> sumC n (fun k => a i k * v k)%C = RtoC 0) -> forall k, (k < n)%nat -> v k = RtoC 0.
Definition nonsingularR (n : nat) (a : nat -> nat -> R) : Prop :=
  forall v, (forall i, (i < n)%nat -> sumR n (fun k => a i k * v k) = 0) -> forall k, (k < n)%nat -> v k = 0.

(** the entries of the matrix are in the balls *)
Definition enc {A : arith} (mem : ball A -> C -> Prop) (n m : nat) (X : list (list (ball A))) (x : nat -> nat -> C) : Prop :=
  forall i j, (i < n)%nat -> (j < m)%nat -> mem (bent A X i j) (x i j).
Definition encR {A : arith} (mem : ball A -> C -> Prop) (n m : nat) (X : list (list (ball A))) (x : nat -> nat -> R) : Prop :=
  forall i j, (i < n)%nat -> (j < m)%nat -> mem (bent A X i j) (RtoC (x i j)).

Record msound (A : arith) (M : mats A) (mem : ball A -> C -> Prop) : Prop := {
  (* a decomposition only succeeds if all the matrices of the ball are invertible, and it encloses the solutions *)
  u_lu : forall p n X lu a, mt_lu A M p n X = Some lu -> encR mem n n X a ->
    nonsingularR n a /\
    forall m Y b, encR mem n m Y b -> exists x, encR mem n m (mt_lu_solve A M p n m lu Y) x /\ solvesR n m a x b;
  u_solve : forall p n m X Y Z a b, (0 < m)%nat -> mt_solve A M p n m X Y = Some Z -> enc mem n n X a -> enc mem n m Y b ->
    nonsingular n a /\ exists x, enc mem n m Z x /\ solves n m a x b;
  u_mul : forall p n k m X Y a b, encR mem n k X a -> encR mem k m Y b ->
    encR mem n m (mt_mul A M p n k m X Y) (fun i j => sumR k (fun l => a i l * b l j));
  u_re : forall X x, mem X x -> mem (mt_re A M X) (RtoC (fst x));
  u_im : forall X x, mem X x -> mem (mt_im A M X) (RtoC (snd x));
  u_join : forall X Y r s, mem X (RtoC r) -> mem Y (RtoC s) -> mem (mt_join A M X Y) (r, s);
  u_onei : mem (mt_onei A M) (0, 1)
}.
