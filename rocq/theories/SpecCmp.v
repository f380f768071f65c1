(** Enclosures of complex numbers and the lexicographic order. *)
From Coq Require Import Reals List Permutation.
From Verif Require Import ModelCmp.
Import ListNotations.
Local Open Scope R_scope.

Definition encloses (x : ball) (v : R) : Prop := Rabs (v - mid x) <= rad x.
Definition cencloses (x : cball) (v : R * R) : Prop := encloses (re x) (fst v) /\ encloses (im x) (snd v).

(** a subtraction of balls that is an enclosure of the difference *)
Definition sound (sub : ball -> ball -> ball) : Prop :=
  forall x y v w, encloses x v -> encloses y w -> encloses (sub x y) (v - w).
(** at 30 bits the midpoint has a relative error 2^-29 at most and the radius exceeds the sum of the
    radii and that error by a relative 2^-20 at most *)
Definition tight (sub : ball -> ball -> ball) : Prop :=
  forall x y, 0 <= rad x -> 0 <= rad y -> Rabs (mid (sub x y) - (mid x - mid y)) <= / 2 ^ 29 * Rabs (mid x - mid y) /\
    rad (sub x y) <= (1 + / 2 ^ 20) * (rad x + rad y + / 2 ^ 29 * Rabs (mid x - mid y)).

(** lexicographic order of complex numbers *)
Definition lex (v w : R * R) : Prop := fst v < fst w \/ (fst v = fst w /\ snd v < snd w).

(** the difference of two balls is known to be nonzero *)
Definition separated (sub : ball -> ball -> ball) (x y : ball) : Prop := contains_zero (sub x y) = false.

(** two balls with the points they enclose, that are told apart the way lexicographic order needs *)
Definition well_separated (sub : ball -> ball -> ball) (p q : cball * (R * R)) : Prop :=
  separated sub (re (fst p)) (re (fst q)) \/
  (fst (snd p) = fst (snd q) /\ separated sub (im (fst p)) (im (fst q))).

Inductive lex_sorted : list (R * R) -> Prop :=
| lex_nil : lex_sorted []
| lex_cons : forall a l, (forall b, In b l -> lex a b) -> lex_sorted l -> lex_sorted (a :: l).

(** balls and points listed together: same length, each ball enclosing its point *)
Definition enclosures (l : list (cball * (R * R))) : Prop := forall p, In p l -> cencloses (fst p) (snd p).
(** any two different positions are well separated *)
Definition all_separated (sub : ball -> ball -> ball) (l : list (cball * (R * R))) : Prop :=
  forall i j d, (i < length l)%nat -> (j < length l)%nat -> i <> j -> well_separated sub (nth i l d) (nth j l d).
