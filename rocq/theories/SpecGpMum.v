(** Integral matrices and bases of the homology of a hyperelliptic curve. *)
From Verif Require Import Base ModelGpMum.

(** equal in the first n rows and columns *)
Definition meq (n : nat) (A B : gmat) : Prop := forall i j, (i < n)%nat -> (j < n)%nat -> A i j = B i j.
(** transpose(M) A M *)
Definition pullback (n : nat) (M A : gmat) : gmat := mmul n (mmul n (transpose M) A) M.
Definition symplectic (g : nat) (M : gmat) : Prop := meq (2 * g) (pullback (2 * g) M (matJ g)) (matJ g).

(** ends of the loops: A_i goes around the points 2i-1 and 2i, B'_i around 2i and 2i+1 (i from 1);
    in row r of a matrix with 2g rows (r from 0) *)
Definition loop_ends (g r : nat) : nat * nat :=
  if (r <? g)%nat then (2 * r + 1, 2 * r + 2)%nat else (2 * (r - g) + 2, 2 * (r - g) + 3)%nat.
Definition is_end (v : nat) (e : nat * nat) : Z := (if (v =? fst e)%nat then 1 else 0) + (if (v =? snd e)%nat then 1 else 0).
(** the chain with coefficients [col] has the ends of the edge [e], modulo 2, at the points 1 .. 2g+2 *)
Definition same_ends (g : nat) (col : nat -> Z) (e : nat * nat) : Prop :=
  forall v, (1 <= v <= 2 * g + 2)%nat -> (zsum (2 * g) (fun r => col r * is_end v (loop_ends g r)) - is_end v e) mod 2 = 0.

(** T has the entries of A but for their signs *)
Definition signed (n : nat) (A T : gmat) : Prop := forall i j, (i < n)%nat -> (j < n)%nat -> T i j = A i j \/ T i j = - A i j.
