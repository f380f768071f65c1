(** Model of arb/parse.c.

    A string in memory is the list of its bytes, the terminator included; a
    pointer into it is the list of the bytes from there on.  Reading at the end
    of the list is [Fault OutOfBounds].  A polynomial is its coefficient
    function. *)
From Verif Require Import Base.

Definition text := list Z.
Definition poly := Z -> Z.

Definition c_nul := 0.
Definition c_space := 32.
Definition c_plus := 43.
Definition c_minus := 45.
Definition c_star := 42.
Definition c_x := 120.
Definition c_hat := 94.

Definition is_space (c : Z) : bool := (c =? 32) || ((9 <=? c) && (c <=? 13)).
Definition is_digit (c : Z) : bool := (48 <=? c) && (c <=? 57).

(** FLINT's fmpz_poly_set_coeff_si(poly, e, c).  The index must be non-negative
    and e + 1 must not overflow; running out of memory is not modelled. *)
Definition set_coeff (p : poly) (e c : Z) : outcome poly :=
  if e <? 0 then Fault BadIndex
  else if slong_max <=? e then Fault SignedOverflow
  else Done (fun k => if k =? e then c else p k).

(** The C library's strtol(str, &end, 10) on 64 bits: value and [end]. *)
Fixpoint skip_space (l : text) : outcome text :=
  match l with
  | [] => Fault OutOfBounds
  | c :: t => if is_space c then skip_space t else Done l
  end.
Fixpoint digits (l : text) (acc : Z) (some : bool) : outcome (Z * bool * text) :=
  match l with
  | [] => Fault OutOfBounds
  | c :: t => if is_digit c then digits t (10 * acc + (c - 48)) true else Done (acc, some, l)
  end.
Definition clamp (z : Z) : Z := Z.max slong_min (Z.min slong_max z).
Definition strtol (l : text) : outcome (Z * text) :=
  do l1 <- skip_space l;
  match l1 with
  | [] => Fault OutOfBounds
  | c :: t =>
      let sgn := if c =? c_minus then -1 else 1 in
      let l2 := if (c =? c_minus) || (c =? c_plus) then t else l1 in
      do r <- digits l2 0 false;
      let '(v, some, rest) := r in
      if some then Done (clamp (sgn * v), rest) else Done (0, l)
  end.

(** [ctx->str == end] *)
Definition same_ptr (a b : text) : bool := (length a =? length b)%nat.

(** parse.c:17-22: skip blanks and signs *)
Fixpoint skip_signs (l : text) (s : Z) : outcome (Z * text) :=
  match l with
  | [] => Fault OutOfBounds
  | c :: t =>
      if (c =? c_space) || (c =? c_plus) || (c =? c_minus)
      then skip_signs t (if c =? c_minus then -1 else s)
      else Done (s, l)
  end.

(** parse.c:39-40 *)
Fixpoint skip_stars (l : text) : outcome text :=
  match l with
  | [] => Fault OutOfBounds
  | c :: t => if (c =? c_space) || (c =? c_star) then skip_stars t else Done l
  end.

Definition peek (l : text) : outcome Z :=
  match l with [] => Fault OutOfBounds | c :: _ => Done c end.

(** slong multiplication *)
Definition smul (a b : Z) : outcome Z :=
  if is_slong (a * b) then Done (a * b) else Fault SignedOverflow.

(** parse.c:48-71: exponent and remaining text *)
Definition exponent (l : text) : outcome (Z * text) :=
  match l with
  | [] => Fault OutOfBounds
  | c :: t =>
      if c =? c_x then
        do c2 <- peek t;
        if c2 =? c_hat then
          do r <- strtol (tl t);
          let '(e, rest) := r in
          Done (if same_ptr (tl t) rest then 1 else e, rest)
        else Done (1, t)
      else Done (0, l)
  end.

(** parse.c:10-75: polynomial, remaining text and accepted *)
Definition accept_term (p : poly) (l : text) : outcome (poly * text * bool) :=
  do r <- skip_signs l 1;
  let '(s, l) := r in
  do r <- strtol l;
  let '(c, rest) := r in
  do c0 <- peek l;
  if same_ptr l rest && negb (c0 =? c_x) then Done (p, l, false)
  else
    let c := if same_ptr l rest then 1 else c in
    do c <- smul c s;
    do l <- skip_stars rest;
    do r <- exponent l;
    let '(e, l) := r in
    do p <- set_coeff p e c;
    Done (p, l, true).

(** parse.c:83-92 *)
Fixpoint parse_loop (fuel : nat) (p : poly) (l : text) : outcome (poly * bool) :=
  match fuel with
  | O => OutOfFuel
  | S fuel =>
      do c <- peek l;
      if c =? c_nul then Done (p, true)
      else
        do r <- accept_term p l;
        let '(p, l, ok) := r in
        if ok then parse_loop fuel p l else Done (p, false)
  end.

(** parse.c:77-93 *)
Definition poly_parse (p : poly) (l : text) : outcome (poly * bool) :=
  parse_loop (length l) p l.
