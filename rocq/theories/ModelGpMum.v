(** Model of the matrices of homology bases in gp/periods.gp: symplectic_inverse, CtoABp,
    CtoAB, int_ABp_ref, ABtoABp, ABptoAB, test_all_signs_C, MumfordABtoC, isSymplectic.

    [A i j] is row i and column j.  GP counts from 1 and the model from 0; the ends of the edges of
    the tree are those of the code (from 1).  Entries out of range are never read. *)
From Verif Require Import Base.

Definition gmat := nat -> nat -> Z.
Definition transpose (A : gmat) : gmat := fun i j => A j i.
Definition mmul (n : nat) (A B : gmat) : gmat := fun i j => zsum n (fun k => A i k * B k j).
Definition msub (A B : gmat) : gmat := fun i j => A i j - B i j.
Definition ident : gmat := fun i j => if (i =? j)%nat then 1 else 0.
(** == of GP on matrices with n rows and columns *)
Definition meqb (n : nat) (A B : gmat) : bool := forallb (fun i => forallb (fun j => A i j =? B i j) (seq 0 n)) (seq 0 n).
(** gp/test.gp:408, matJ *)
Definition matJ (g : nat) : gmat := fun i j => if (i + g =? j)%nat then 1 else if (i =? j + g)%nat then -1 else 0.

(** gp/periods.gp:783-801, symplectic_inverse *)
Definition symplectic_inverse (g : nat) (M : gmat) : gmat := fun i j =>
  if (i <? g)%nat then (if (j <? g)%nat then M (g + j)%nat (g + i)%nat else - M (g + (j - g))%nat i)
  else (if (j <? g)%nat then - M j (g + (i - g))%nat else M (j - g)%nat (i - g)%nat).

(** gp/periods.gp:1128-1137, ABtoABp *)
Definition ABtoABp (g : nat) : gmat := fun i j =>
  if (j <? g)%nat then (if (i =? j)%nat then 1 else 0) else if (j <=? i)%nat then 1 else 0.
(** gp/periods.gp:1138-1146, ABptoAB *)
Definition ABptoAB (g : nat) : gmat := fun i j =>
  if (g <=? i)%nat && (j =? S i)%nat then -1 else if (i =? j)%nat then 1 else 0.
(** gp/periods.gp:1121-1124, int_ABp_ref *)
Definition int_ABp_ref (g : nat) : gmat :=
  mmul (2 * g) (mmul (2 * g) (ABptoAB g) (matJ g)) (transpose (ABptoAB g)).

(** gp/periods.gp:1069-1076, CtoABp: the rows of column j that are set to 1; [a] and [b] are the ends
    of the edge.  Line 1072 sets the rows floor((s+2)/2) .. floor(e/2), line 1075 the rows
    g + floor((s+1)/2) .. g + floor((e-1)/2). *)
Definition CtoABp_entry (g a b i : nat) : Z :=
  let s := if (a <? b)%nat then a else b in
  let e := if (a <? b)%nat then b else a in
  let r := S i in
  if ((((s + 2) / 2 <=? r) && (r <=? e / 2)) || ((g + (s + 1) / 2 <=? r) && (r <=? g + (e - 1) / 2)))%nat then 1 else 0.
Definition CtoABp (g : nat) (tree : list (nat * nat)) : gmat :=
  fun i j => let ab := nth j tree (O, O) in CtoABp_entry g (fst ab) (snd ab) i.
(** gp/periods.gp:1080-1082, CtoAB *)
Definition CtoAB (g : nat) (tree : list (nat * nat)) : gmat := mmul (2 * g) (ABptoAB g) (CtoABp g tree).

(** gp/periods.gp:1158-1168: the entries that get a sign, row after row *)
Definition sign_places (n : nat) (A : gmat) : list (nat * nat) :=
  filter (fun p => negb (A (fst p) (snd p) =? 0)) (list_prod (seq 0 n) (seq 0 n)).
(** the number of (i, j) in the list, if any *)
Fixpoint place (l : list (nat * nat)) (i j : nat) : option nat :=
  match l with
  | [] => None
  | (a, b) :: l => if (a =? i)%nat && (b =? j)%nat then Some O else option_map S (place l i j)
  end.
(** gp/periods.gp:1164: entry number s of them gets the sign of bit s of k *)
Definition with_signs (n : nat) (A : gmat) (k : nat) : gmat :=
  fun i j => match place (sign_places n A) i j with
             | Some s => if Nat.testbit k s then -1 else 1
             | None => A i j
             end.
(** gp/periods.gp:1148-1174, test_all_signs_C.  The result is [None] for the string
    "no signs found".  The number of signs, computed as a trace, is that of entries 1. *)
Definition test_all_signs (g : nat) (tree : list (nat * nat)) (Ic : gmat) : option gmat :=
  let n := (2 * g)%nat in
  let A := CtoABp g tree in
  let fits k := let T := with_signs n A k in meqb n (mmul n (mmul n (transpose T) (int_ABp_ref g)) T) Ic in
  option_map (with_signs n A) (find fits (seq 0 (2 ^ length (sign_places n A)))).
(** gp/periods.gp:1181-1184, MumfordABtoC.  [inverse] is ^(-1) of GP for integral matrices with an
    integral inverse, and an error otherwise; the inverse of a string is an error. *)
Definition MumfordABtoC (inverse : gmat -> option gmat) (g : nat) (tree : list (nat * nat)) (Ic : gmat) : outcome gmat :=
  match test_all_signs g tree Ic with
  | None => Abort
  | Some T => match inverse T with None => Abort | Some Q => Done (mmul (2 * g) Q (ABtoABp g)) end
  end.

(** vecextract with masks: rows and columns whose bit is set *)
Definition mask_indices (n : nat) (mask : Z) : list nat := filter (fun i => Z.testbit mask (Z.of_nat i)) (seq 0 n).
Definition vecextract (n : nat) (M : gmat) (lines cols : Z) : gmat :=
  fun i j => M (nth i (mask_indices n lines) O) (nth j (mask_indices n cols) O).
(** gp/periods.gp:1196-1208, isSymplectic; printing left out *)
Definition isSymplectic (g : nat) (M : gmat) : bool :=
  let n := (2 * g)%nat in
  let lo := 2 ^ Z.of_nat g - 1 in
  let hi := 4 ^ Z.of_nat g - 2 ^ Z.of_nat g in
  let a := vecextract n M lo lo in let b := vecextract n M lo hi in
  let c := vecextract n M hi lo in let d := vecextract n M hi hi in
  meqb g (msub (mmul g (transpose a) d) (mmul g (transpose c) b)) ident
  && meqb g (mmul g (transpose a) c) (mmul g (transpose c) a)
  && meqb g (mmul g (transpose b) d) (mmul g (transpose d) b).
