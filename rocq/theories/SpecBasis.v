(** What a loop means: coefficient of each shifted elementary cycle.  The cycle
    gamma_k^(s) has position k (m-1) + s in the rows of the base change. *)
From Verif Require Import Base ModelBasis.

Definition position (m1 : Z) (x : gamma) : Z := gindex x * m1 + gshift x.

Fixpoint loop_coeff (m1 : Z) (l : list gamma) (k : Z) : Z :=
  match l with
  | [] => 0
  | x :: l => (if position m1 x =? k then gcoeff x else 0) + loop_coeff m1 l k
  end.

Fixpoint increasing (l : list Z) : Prop :=
  match l with
  | [] => True
  | x :: l => (forall y, In y l -> x < y) /\ increasing l
  end.

(** [l] is a faithful sparse form of [row] *)
Definition faithful (m1 : Z) (row : list Z) (l : list gamma) : Prop :=
  (forall k, (k < length row)%nat -> loop_coeff m1 l (Z.of_nat k) = nth k row 0) /\
  (forall x, In x l -> gcoeff x <> 0 /\ 0 <= gshift x < m1 /\ 0 <= gindex x /\
     position m1 x < Z.of_nat (length row)) /\
  increasing (map (position m1) l).

(** all coefficients of the row fit in a machine word *)
Definition row_fits (row : list Z) : Prop :=
  forall x, In x row -> -9223372036854775808 <= x <= 9223372036854775807.

Definition rows_fit (k : nat) (p : list (list Z)) : Prop := forall i, (i < k)%nat -> row_fits (nth i p []).
