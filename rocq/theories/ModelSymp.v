(** Model of arb/fmpz_mat_extras.c and arb/symplectic_reduction.c.

    [fmpz] entries are unbounded integers.  A matrix is the list of its rows.
    Every function that works in place returns the new matrix.  The functions
    that receive indices check them against the dimensions of the matrix and
    answer [Fault OutOfBounds] otherwise (the C code does not check). *)
From Verif Require Import Base.

Definition mat := list (list Z).

(** fmpz_mat_entry *)
Definition get (m : mat) (i j : nat) : Z := nth j (nth i m []) 0.

(** r x c matrix with entries f i j; the loops of fmpz_mat_extras.c treat the
    entries of a row (or column) independently, so that each of them is the
    tabulation of a function of the old entries. *)
Definition tab (r c : nat) (f : nat -> nat -> Z) : mat :=
  map (fun i => map (fun j => f i j) (seq 0 c)) (seq 0 r).

Definition nrows (m : mat) : nat := length m.
Definition ncols (m : mat) : nat := length (nth 0 m []).

(** fmpz_mat_extras.c:11-15 *)
Definition row_swap (m : mat) (i1 i2 : nat) : mat :=
  tab (nrows m) (ncols m) (fun i j =>
    if (i =? i1)%nat then get m i2 j
    else if (i =? i2)%nat then get m i1 j else get m i j).
(** fmpz_mat_extras.c:17-23 *)
Definition col_swap (m : mat) (j1 j2 : nat) : mat :=
  tab (nrows m) (ncols m) (fun i j =>
    if (j =? j1)%nat then get m i j2
    else if (j =? j2)%nat then get m i j1 else get m i j).
(** fmpz_mat_extras.c:25-31 *)
Definition col_neg (m : mat) (j0 : nat) : mat :=
  tab (nrows m) (ncols m) (fun i j => if (j =? j0)%nat then - get m i j else get m i j).
(** fmpz_mat_extras.c:33-39 *)
Definition row_neg (m : mat) (i0 : nat) : mat :=
  tab (nrows m) (ncols m) (fun i j => if (i =? i0)%nat then - get m i j else get m i j).
(** fmpz_mat_extras.c:41-47: column j0 += v * column k *)
Definition col_addmul (m : mat) (j0 k : nat) (v : Z) : mat :=
  tab (nrows m) (ncols m) (fun i j =>
    if (j =? j0)%nat then get m i j + v * get m i k else get m i j).
(** fmpz_mat_extras.c:49-55: row i0 += v * row k *)
Definition row_addmul (m : mat) (i0 k : nat) (v : Z) : mat :=
  tab (nrows m) (ncols m) (fun i j =>
    if (i =? i0)%nat then get m i j + v * get m k j else get m i j).
(** fmpz_mat_extras.c:59-77: the second row is assigned last *)
Definition row_bezout (m : mat) (i1 i2 : nat) (a b c d : Z) : mat :=
  tab (nrows m) (ncols m) (fun i j =>
    if (i =? i2)%nat then c * get m i1 j + d * get m i2 j
    else if (i =? i1)%nat then a * get m i1 j + b * get m i2 j else get m i j).
(** fmpz_mat_extras.c:78-96 *)
Definition col_bezout (m : mat) (j1 j2 : nat) (a b c d : Z) : mat :=
  tab (nrows m) (ncols m) (fun i j =>
    if (j =? j2)%nat then c * get m i j1 + d * get m i j2
    else if (j =? j1)%nat then a * get m i j1 + b * get m i j2 else get m i j).

(** fmpz_mat_extras.c:119-140; [g2] is the number of columns tested. *)
Definition is_symplectic_j (m : mat) (g g2 : nat) : bool :=
  forallb (fun i =>
    forallb (fun j =>
      ((j =? 2 * i + 1)%nat || (get m (2 * i) j =? 0)) &&
      ((j =? 2 * i)%nat || (get m (2 * i + 1) j =? 0))) (seq 0 g2)
    && (- get m (2 * i) (2 * i + 1) =? get m (2 * i + 1) (2 * i))) (seq 0 g).

(** The pair (P, M) updated by the reduction. *)
Record st := { stP : mat; stM : mat }.

Definition inb (s : st) (i : nat) : bool :=
  (i <? nrows (stM s))%nat && (i <? nrows (stP s))%nat.

Definition guard {A} (b : bool) (k : outcome A) : outcome A :=
  if b then k else Fault OutOfBounds.

(** symplectic_reduction.c:24-32 *)
Definition swap_step (s : st) (i1 i2 : nat) : outcome st :=
  if (i1 =? i2)%nat then Done s
  else guard (inb s i1 && inb s i2)
    (Done {| stP := row_swap (stP s) i1 i2;
             stM := col_swap (row_swap (stM s) i1 i2) i1 i2 |}).

(** symplectic_reduction.c:34-40 *)
Definition neg_step (s : st) (i : nat) : outcome st :=
  guard (inb s i)
    (Done {| stP := row_neg (stP s) i; stM := col_neg (row_neg (stM s) i) i |}).

(** symplectic_reduction.c:41-47 *)
Definition transvect_step (s : st) (i1 i2 : nat) (q : Z) : outcome st :=
  guard (inb s i1 && inb s i2)
    (Done {| stP := row_addmul (stP s) i1 i2 q;
             stM := col_addmul (row_addmul (stM s) i1 i2 q) i1 i2 q |}).

Section WithXgcd.
(** FLINT's fmpz_xgcd(g, u, v, a, b): an oracle, see [xgcd_ok] in SpecSymp.v *)
Variable xgcd : Z -> Z -> Z * Z * Z.

(** symplectic_reduction.c:49-74 *)
Definition bezout_step (s : st) (i k : nat) (a b : Z) : outcome st :=
  let '(g, u, v) := xgcd a b in
  if g =? 0 then Fault DivByZero
  else
    let u1 := - (b / g) in
    let v1 := a / g in
    guard (inb s i && inb s k)
      (Done {| stP := row_bezout (stP s) i k u v u1 v1;
               stM := col_bezout (row_bezout (stM s) i k u v u1 v1) i k u v u1 v1 |}).

(** symplectic_reduction.c:76-98: first entry +-1, else first entry of smallest
    absolute value, else len. *)
Fixpoint pivot_scan (row : nat -> Z) (js : list nat) (v : Z) (jv : nat) : nat :=
  match js with
  | [] => jv
  | j :: js =>
      let x := row j in
      if x =? 0 then pivot_scan row js v jv
      else if Z.abs x =? 1 then j
      else if (v =? 0) || (Z.abs x <? Z.abs v) then pivot_scan row js x j
      else pivot_scan row js v jv
  end.
Definition pivot_line (m : mat) (i len : nat) : nat :=
  pivot_scan (get m i) (seq (i + 1) (len - (i + 1))) 0 len.

(** symplectic_reduction.c:114-121: the pivot search moves empty lines to the
    end.  Result: [None] when the function returns early (line 119-120),
    [Some (len, j)] when a pivot is found. [len = 0] would access row -1. *)
Fixpoint find_pivot (len : nat) (s : st) (d : nat) : outcome (st * option (nat * nat)) :=
  let i := (2 * d)%nat in
  let j := pivot_line (stM s) i len in
  if (j =? len)%nat then
    match len with
    | O => Fault OutOfBounds
    | S l =>
        do s <- swap_step s i l;
        if (l =? 2 * d)%nat then Done (s, None) else find_pivot l s d
    end
  else Done (s, Some (len, j)).

(** fmpz_divisible / fmpz_divexact (x divisible by y); y = 0 raises an exception. *)
Definition divisible (x y : Z) : bool := x mod y =? 0.

Fixpoint for_each {S} (ks : list nat) (body : nat -> S -> outcome S) (s : S) : outcome S :=
  match ks with
  | [] => Done s
  | k :: ks => do s <- body k s; for_each ks body s
  end.

(** symplectic_reduction.c:140-150, body of the loop clearing row i *)
Definition clear_i_body (i j k : nat) (s : st) : outcome st :=
  let mik := get (stM s) i k in
  let mij := get (stM s) i j in
  if mik =? 0 then Done s
  else if mij =? 0 then Fault DivByZero
  else if divisible mik mij then transvect_step s k j (- (mik / mij))
  else bezout_step s j k mij mik.

(** symplectic_reduction.c:156-168, body of the loop clearing row j *)
Definition clear_j_body (i j k : nat) (sc : st * bool) : outcome (st * bool) :=
  let '(s, cleared) := sc in
  let mjk := get (stM s) j k in
  let mij := get (stM s) i j in
  if mjk =? 0 then Done (s, cleared)
  else if mij =? 0 then Fault DivByZero
  else if divisible mjk mij then
    do s <- transvect_step s k i (mjk / mij); Done (s, cleared)
  else
    do s <- bezout_step s i k (get (stM s) j i) mjk; Done (s, false).

Definition range (a b : nat) : list nat := seq a (b - a).

(** symplectic_reduction.c:133-172: while (!cleared) ... *)
Fixpoint clear_loop (fuel : nat) (i j len : nat) (s : st) : outcome st :=
  match fuel with
  | O => OutOfFuel
  | S fuel =>
      do s <- for_each (range (j + 1) len) (clear_i_body i j) s;
      do sc <- for_each (range (j + 1) len) (clear_j_body i j) (s, true);
      let '(s, cleared) := sc in
      if cleared then Done s else clear_loop fuel i j len s
  end.

(** symplectic_reduction.c:123-172, the part of the main loop after the pivot
    search.  The fuel is logarithmic in the pivot. *)
Definition reduce_block (i j len : nat) (s : st) : outcome st :=
  do s <- (if (j =? i + 1)%nat then Done s else swap_step s j (i + 1));
  let j := (i + 1)%nat in
  do s <- (if get (stM s) i j <? 0 then neg_step s j else Done s);
  clear_loop (S (Z.to_nat (Z.log2 (Z.abs (get (stM s) i j))))) i j len s.

(** symplectic_reduction.c:109-173: main loop, [todo] iterations left *)
Fixpoint main_loop (todo d len : nat) (s : st) : outcome st :=
  match todo with
  | O => Done s
  | S todo =>
      do r <- find_pivot len s d;
      let '(s, res) := r in
      match res with
      | None => Done s
      | Some (len, j) =>
          do s <- reduce_block (2 * d) j len s;
          main_loop todo (S d) len s
      end
  end.

(** fmpz_mat_one *)
Definition mat_one (r : nat) : mat := tab r r (fun i j => if (i =? j)%nat then 1 else 0).

(** symplectic_reduction.c:100-174; p is created with the size of m
    (symplectic_basis.c:43-44). *)
Definition symplectic_reduction (m : mat) (g : nat) : outcome st :=
  main_loop g 0 (nrows m) {| stP := mat_one (nrows m); stM := m |}.

End WithXgcd.

(** A concrete extended gcd meeting FLINT's contract, used to run the model. *)
Fixpoint egcd_pos (fuel : nat) (a b : Z) : Z * Z * Z :=
  match fuel with
  | O => (a, 1, 0)
  | S fuel =>
      if b =? 0 then (a, 1, 0)
      else let '(g, u, v) := egcd_pos fuel b (a mod b) in (g, v, u - v * (a / b))
  end.
Definition egcd (a b : Z) : Z * Z * Z :=
  let '(g, u, v) := egcd_pos (S (Z.to_nat (2 * (1 + Z.log2 (Z.abs b))))) (Z.abs a) (Z.abs b) in
  (g, Z.sgn a * u, Z.sgn b * v).
