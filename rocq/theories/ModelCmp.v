(** Model of the ordering of the branch points: arb/utils.c:133-151 and arb/aj_struct.c:10-17. *)
From Coq Require Import Reals List Lra.
Import ListNotations.
Local Open Scope R_scope.

(** arb_t: midpoint and radius; acb_t: real and imaginary balls *)
Record ball := { mid : R; rad : R }.
Record cball := { re : ball; im : ball }.

(** arb_contains_zero, arb_is_positive (library) *)
Definition contains_zero (x : ball) : bool := if Rle_dec (Rabs (mid x)) (rad x) then true else false.
Definition is_positive (x : ball) : bool := if Rlt_dec (rad x) (mid x) then true else false.

Section Cmp.
(** arb_sub at 30 bits (library): rounds the midpoint and enlarges the radius in some way *)
Variable sub : ball -> ball -> ball.

(** utils.c:135-147 *)
Definition acb_cmp_lex (a b : cball) : Z :=
  let t := sub (re a) (re b) in
  let t := if contains_zero t then sub (im a) (im b) else t in
  if is_positive t then 1%Z else (-1)%Z.

(** utils.c:148-151: what qsort guarantees about its result when the comparison function is
    consistent: the elements are those of the input, and no element compares greater than a later
    one.  C leaves the result unspecified (and the behaviour undefined) otherwise. *)
Inductive ascending : list cball -> Prop :=
| asc_nil : ascending []
| asc_cons : forall a l, (forall b, In b l -> (acb_cmp_lex a b < 0)%Z) -> ascending l -> ascending (a :: l).
End Cmp.
