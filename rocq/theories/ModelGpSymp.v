(** Model of the symplectic reduction of the GP scripts: symplectic_reduction in
    gp/periods.gp:706-781, which is the same text as gp/gcperiods.gp:351-427 but for
    the declarations of local variables.

    A matrix is stored there as a vector of columns; [A c r] is row r of column c.
    GP counts from 1 and the model from 0: the loop counter d of the code is S e.
    An index out of range and a division by 0 stop a GP program with an error: they
    are [Fault].  The inner loops may run for ever, so that all loops have fuel.
    Matrices are functions: no property below looks at entries out of range. *)
From Verif Require Import Base.

Definition columns := nat -> nat -> Z.

(** periods.gp:709, matid *)
Definition matid : columns := fun c r => if (c =? r)%nat then 1 else 0.

(** periods.gp:753-754: column k of A is replaced by column k - q * column jj *)
Definition col_sub (k jj : nat) (q : Z) (A : columns) : columns :=
  fun c r => if (c =? k)%nat then A k r - q * A jj r else A c r.
(** periods.gp:755: the same for the rows, in all columns *)
Definition row_sub (k jj : nat) (q : Z) (A : columns) : columns :=
  fun c r => if (r =? k)%nat then A c k - q * A c jj else A c r.
(** periods.gp:760-761: column ii is replaced by u * column ii + v * column jj *)
Definition col_comb (ii jj : nat) (u v : Z) (A : columns) : columns :=
  fun c r => if (c =? ii)%nat then u * A ii r + v * A jj r else A c r.
(** periods.gp:762: the same for the rows, in all columns *)
Definition row_comb (ii jj : nat) (u v : Z) (A : columns) : columns :=
  fun c r => if (r =? ii)%nat then u * A c ii + v * A c jj else A c r.
(** periods.gp:738-739: column j is replaced by its opposite *)
Definition col_neg (j : nat) (A : columns) : columns := fun c r => if (c =? j)%nat then - A j r else A c r.
(** periods.gp:740: row j is replaced by its opposite *)
Definition row_neg (j : nat) (A : columns) : columns := fun c r => if (r =? j)%nat then - A c j else A c r.
(** periods.gp:770-775: columns a and b are exchanged; rows are not *)
Definition col_swap (a b : nat) (A : columns) : columns :=
  fun c r => if (c =? a)%nat then A b r else if (c =? b)%nat then A a r else A c r.

(** periods.gp:731-735: look for a non-zero entry; an index out of range is an error *)
Fixpoint pivot (fuel n : nat) (N : columns) (i j : nat) : outcome (nat * nat) :=
  match fuel with
  | O => OutOfFuel
  | S fuel =>
      if (n <=? j)%nat then Fault OutOfBounds
      else if N j i =? 0 then
        (if (n <=? S j)%nat then pivot fuel n N (S i) (S (S i)) else pivot fuel n N i (S j))
      else Done (i, j)
  end.

Section Reduction.
(** bezout of GP: (u, v, d) with u a + v b = d *)
Variable bezout : Z -> Z -> Z * Z * Z.

(** periods.gp:746-766: the loop on k, from k on.  In the second branch the counter of
    the outer loop is overwritten by the gcd, and k stays the same. *)
Fixpoint clear_loop (fuel n k ii jj e : nat) (N P : columns) : outcome (columns * columns * nat) :=
  match fuel with
  | O => OutOfFuel
  | S fuel =>
      if (n <=? k)%nat then Done (N, P, e)
      else if (k =? jj)%nat || (N k ii =? 0) then clear_loop fuel n (S k) ii jj e N P
      else if N jj ii =? 0 then Fault DivByZero
      else if N k ii mod N jj ii =? 0 then
        let q := N k ii / N jj ii in
        clear_loop fuel n (S k) ii jj e (row_sub k jj q (col_sub k jj q N)) (col_sub k jj q P)
      else
        let '(u, v, d) := bezout (N jj ii) (N jj k) in
        clear_loop fuel n k ii jj (Z.to_nat d - 1) (row_comb ii jj u v (col_comb ii jj u v N)) (col_comb ii jj u v P)
  end.

(** periods.gp:723-776: the body of the loop on d.  The loop "while(jj" is run for
    (ii,jj) = (i,j) and then for (j,i), as i < j. *)
Definition block_step (fuel n e : nat) (N P : columns) : outcome (columns * columns * nat) :=
  do ij <- pivot fuel n N (2 * e) (2 * e + 1);
  let '(i, j) := ij in
  let '(N, P) := if N j i <? 0 then (row_neg j (col_neg j N), col_neg j P) else (N, P) in
  do s <- clear_loop fuel n (2 * e) i j e N P;
  let '(N, P, e) := s in
  do s <- clear_loop fuel n (2 * e) j i e N P;
  let '(N, P, e) := s in
  if (n <=? 2 * e + 1)%nat then Fault OutOfBounds
  else Done (col_swap (2 * e + 1) j (col_swap (2 * e) i N), col_swap (2 * e + 1) j (col_swap (2 * e) i P), e).

(** periods.gp:723: the loop on d; the counter goes on from the value the body leaves *)
Fixpoint blocks (fuel n e : nat) (N P : columns) : outcome columns :=
  match fuel with
  | O => OutOfFuel
  | S fuel' =>
      if (n / 2 <=? e)%nat then Done P
      else
        do s <- block_step fuel n e N P;
        let '(N, P, e) := s in blocks fuel' n (S e) N P
  end.

(** periods.gp:778: first the columns of even number, then the others *)
Definition reorder (g : nat) (P : columns) : columns :=
  fun c r => if (c <? g)%nat then P (2 * c)%nat r else P (2 * (c - g) + 1)%nat r.

(** periods.gp:706-781; the result is the number 0 ([None]) for an odd dimension *)
Definition symplectic_reduction (fuel n : nat) (M : columns) : outcome (option columns) :=
  if Nat.odd n then Done None
  else do P <- blocks fuel n 0 M matid; Done (Some (reorder (n / 2) P)).
End Reduction.
