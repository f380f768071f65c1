(** Model of magma/se_periods/se_symplectic_basis.m, the symplectic reduction of
    the Magma package.  Matrices, row and column operations are those of
    ModelSymp.v; Magma's indices start from 1 and those of the model from 0.

    Simplification: where the code swaps (or adds) rows of B, rows of G and
    columns of G in this order for two pairs of indices, the model does it for one
    pair after the other ([swap_step], [transvect_step]); operations on rows and on
    columns commute.  A runtime error of Magma (an assertion) is [Abort]. *)
From Verif Require Import Base ModelSymp.

(** se_symplectic_basis.m:60-71: first entry equal to 1 with both indices at least
    the pivot, row after row *)
Definition find_one (m : mat) (p n : nat) : option (nat * nat) :=
  find (fun ij => get m (fst ij) (snd ij) =? 1) (list_prod (range p n) (range p n)).

(** se_symplectic_basis.m:11-57, called with Column = i and Row = j *)
Definition move_to_pivot (i j p : nat) (s : st) : outcome st :=
  let v := get (stM s) i j in
  let first := ((i =? p + 1) && (j =? p))%nat && negb (get (stM s) (p + 1) p =? v) in
  do s <-
    (if first then swap_step s p (p + 1)
     else if ((i =? p) && (j =? p + 1))%nat then swap_step s p (p + 1)
     else if (negb (j =? p) && negb (j =? p + 1) && negb (i =? p) && negb (i =? p + 1))%nat then
       do s <- swap_step s p j; swap_step s (p + 1) i
     else if (j =? p)%nat then swap_step s (p + 1) i
     else if (j =? p + 1)%nat then swap_step s p i
     else if (i =? p)%nat then swap_step s (p + 1) j
     else if (i =? p + 1)%nat then swap_step s p j
     else Done s);
  if negb (get (stM s) (p + 1) p =? v) && negb first then swap_step s p (p + 1) else Done s.

(** se_symplectic_basis.m:100-109, body of the loop cleaning row Pivot *)
Definition clean_row (p j : nat) (sa : st * bool) : outcome (st * bool) :=
  let '(s, all_zero) := sa in
  let v := - get (stM s) p j in
  if v =? 0 then Done (s, all_zero)
  else do s <- transvect_step s j (p + 1) v; Done (s, false).

(** se_symplectic_basis.m:113-122, body of the loop cleaning row Pivot+1 *)
Definition clean_next (p j : nat) (sa : st * bool) : outcome (st * bool) :=
  let '(s, all_zero) := sa in
  let v := get (stM s) (p + 1) j in
  if v =? 0 then Done (s, all_zero)
  else do s <- transvect_step s j p v; Done (s, false).

(** se_symplectic_basis.m:87-129: the while loop; the results are the matrices, the
    list PS and the list Zeros *)
Fixpoint basis_loop (fuel p n : nat) (s : st) (ps : list (Z * nat)) (zeros : list nat) :
  outcome (st * list (Z * nat) * list nat) :=
  match fuel with
  | O => OutOfFuel
  | S fuel =>
      if (n <=? p)%nat then Done (s, ps, zeros)
      else
        match find_one (stM s) p n with
        | None => basis_loop fuel (p + 1) n s ps (zeros ++ [p])
        | Some (row, column) =>
            do s <- move_to_pivot column row p s;
            do sa <- for_each (range (p + 2) n) (clean_row p) (s, true);
            do sa <- for_each (range (p + 2) n) (clean_next p) sa;
            let '(s, all_zero) := sa in
            if all_zero then basis_loop fuel (p + 2) n s (ps ++ [(get (stM s) (p + 1) p, p)]) zeros
            else basis_loop fuel p n s ps zeros
        end
  end.

(** Magma's Sort on a sequence of pairs of integers: lexicographic order *)
Definition pair_le (x y : Z * nat) : bool :=
  (fst x <? fst y) || ((fst x =? fst y) && (snd x <=? snd y)%nat).
Fixpoint insert (x : Z * nat) (l : list (Z * nat)) : list (Z * nat) :=
  match l with
  | [] => [x]
  | y :: l => if pair_le x y then x :: y :: l else y :: insert x l
  end.
Definition sort_pairs (l : list (Z * nat)) : list (Z * nat) := fold_right insert [] l.

(** se_symplectic_basis.m:75-79, the assertions that K is antisymmetric and square *)
Definition antisymmetric_b (n : nat) (k : mat) : bool :=
  (ncols k =? n)%nat &&
  forallb (fun i => forallb (fun j => get k i j + get k j i =? 0) (seq 0 n)) (seq 0 n).

(** se_symplectic_basis.m:73-137 *)
Definition symplectic_basis (k : mat) : outcome mat :=
  let n := nrows k in
  if negb (antisymmetric_b n k) then Abort
  else
    do r <- basis_loop (2 * n + 1) 0 n {| stP := mat_one n; stM := k |} [] [];
    let '(s, ps, zeros) := r in
    let ps := rev (sort_pairs ps) in
    let es := map snd ps in
    let fs := map (fun p => (snd p + 1)%nat) ps in
    Done (map (fun i => nth i (stP s) []) (es ++ fs ++ zeros)).
