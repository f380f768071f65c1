(** Model of the printing functions: arb/utils.c:56-105 (option --gp), arb/spanning_tree.c:152-160
    (option --tree) and arb/homol.c:23-29.  The output is the list of the characters written.
    Simplification: write errors of the C library are not modelled. *)
From Coq Require Import Bool List ZArith Ascii String.
Import ListNotations.
Local Open Scope Z_scope.

Definition txt (s : string) : list ascii := list_ascii_of_string s.

(** midpoint of a ball (arf_t): m 2^e, an infinity or not a number *)
Inductive arf := Nan | Inf (neg : bool) | Fin (m e : Z).
(** arf_sgn of Arb: 0 on zero and on not-a-number *)
Definition arf_sgn (x : arf) : Z :=
  match x with Nan => 0 | Inf neg => if neg then -1 else 1 | Fin m _ => Z.sgn m end.
Definition is_zero (z : Z) : bool := z =? 0.

Section Print.
(** arf_printd(x, d) of Arb for the number of digits asked for *)
Variable arf_printd : arf -> list ascii.

(** utils.c:71-85: one entry, its midpoints (re, im) *)
Definition entry_printd (u : arf * arf) : list ascii :=
  let (re, im) := u in
  let zr := arf_sgn re in
  let zi := arf_sgn im in
  (if is_zero zr && is_zero zi then txt "0" else []) ++
  (if negb (is_zero zr) then
     arf_printd re ++ (if 0 <? zi then txt " + " else if zi <? 0 then txt " " else [])
   else []) ++
  (if negb (is_zero zi) then arf_printd im ++ txt " * I" else []).
(** utils.c:61-89: loop on k *)
Fixpoint vec_printd (k : Z) (u : list (arf * arf)) (sep : list ascii) : list ascii :=
  match u with
  | [] => []
  | x :: u => (if negb (is_zero k) then sep else []) ++ entry_printd x ++ vec_printd (k + 1) u sep
  end.
(** utils.c:98-103: loop on i *)
Fixpoint rows_print (i : Z) (m : list (list (arf * arf))) : list ascii :=
  match m with
  | [] => []
  | r :: m => (if negb (is_zero i) then txt ";" else []) ++ vec_printd 0 r (txt ", ") ++ rows_print (i + 1) m
  end.
(** utils.c:91-105 *)
Definition mat_print_gp (m : list (list (arf * arf))) : list ascii := txt "[" ++ rows_print 0 m ++ txt "]".
End Print.

(** the conversion %ld of flint_printf *)
Definition digit_char (d : Z) : ascii := ascii_of_nat (Z.to_nat (48 + d)).
Fixpoint nat_digits (fuel : nat) (n : Z) : list ascii :=
  match fuel with
  | O => []
  | S f => (if n <? 10 then [] else nat_digits f (n / 10)) ++ [digit_char (n mod 10)]
  end.
Definition ld (n : Z) : list ascii :=
  (if n <? 0 then txt "-" else []) ++ nat_digits (S (Z.to_nat (Z.log2 (Z.abs n)))) (Z.abs n).

(** spanning_tree.c:157-158: loop on k *)
Definition edges_print (e : list (Z * Z)) : list ascii :=
  flat_map (fun ab => txt ",[" ++ ld (fst ab) ++ txt "," ++ ld (snd ab) ++ txt "]") e.
(** newline *)
Definition nl : list ascii := ["010"%char].
(** spanning_tree.c:152-160; [lf] is the result of the conversion %lf of tree->r *)
Definition tree_print (lf : list ascii) (e : list (Z * Z)) : list ascii :=
  nl ++ txt "[" ++ lf ++ txt ", " ++ ld (Z.of_nat (List.length e)) ++ edges_print e ++ txt "]" ++ nl.

(** homol.c:23-29: coefficient, edge and sheet of every term *)
Fixpoint loop_print (k : Z) (l : list (Z * Z * Z)) : list ascii :=
  match l with
  | [] => []
  | (c, i, s) :: l =>
      (if is_zero k then [] else txt "+ ") ++ ld c ++ txt "*g_" ++ ld i ++ txt "^(" ++ ld s ++ txt ")" ++ loop_print (k + 1) l
  end.
