(** Model of arb/intersections_tree.c: the combinatorial part.  The relative sheet
    numbers (shift_number, lines 98-129) and the orientation test (is_neg_abad,
    lines 131-142) are arguments; ModelAngle.v models them. *)
From Verif Require Import Base ModelTree.

(** the integer matrix: number of rows and columns, entries *)
Record imat := { isize : Z; cell : Z -> Z -> Z }.

(** [*c(i,j) = v] *)
Definition put (c : imat) (i j v : Z) : outcome imat :=
  if (0 <=? i) && (i <? isize c) && (0 <=? j) && (j <? isize c) then
    Done {| isize := isize c; cell := fun x y => if (x =? i) && (y =? j) then v else cell c x y |}
  else Fault OutOfBounds.

(** intersections_tree.c:23-24: C remainders truncate towards zero *)
Definition positive_rem (x m : Z) : Z := Z.rem (Z.rem x m + m) m.

(** intersections_tree.c:27-32 (v = 1) and 33-38 (v = -1) *)
Definition fill_pair (c : imat) (i j k s m v : Z) : outcome imat :=
  let l := Z.rem (k + s) m in
  if l <? m - 1 then
    do c <- put c (i + k) (j + l) v;
    put c (j + l) (i + k) (- v)
  else Done c.

(** intersections_tree.c:25-39, from row k on *)
Fixpoint fill_rows (todo : nat) (k : Z) (c : imat) (i j sp sm m : Z) : outcome imat :=
  match todo with
  | O => Done c
  | S todo =>
      do c <- fill_pair c i j k sp m 1;
      do c <- fill_pair c i j k sm m (-1);
      fill_rows todo (k + 1) c i j sp sm m
  end.

(** intersections_tree.c:18-40 *)
Definition fill_block (c : imat) (i j sp sm m : Z) : outcome imat :=
  fill_rows (Z.to_nat (m - 1)) 0 c i j (positive_rem sp m) (positive_rem sm m) m.

(** intersections_tree.c:96 *)
Inductive incidence := ABAD | ABBD.

Section Oracles.
(** [shift k l type]: result of shift_number on edges k, l; it may abort.
    [neg k l]: result of is_neg_abad. *)
Context (shift : nat -> nat -> incidence -> outcome Z) (neg : nat -> nat -> bool).

(** intersections_tree.c:165-191 for one pair *)
Definition pair_block (c : imat) (k l : nat) (ek el : edge) (m : Z) : outcome imat :=
  let size := m - 1 in
  let i := Z.of_nat k * size in
  let j := Z.of_nat l * size in
  if negb (ea ek =? ea el)%nat && negb (eb ek =? ea el)%nat then Done c
  else if (ea el =? ea ek)%nat then
    do s <- shift k l ABAD;
    if neg k l then fill_block c i j (- s) (-1 - s) m
    else fill_block c i j (1 - s) (- s) m
  else if (ea el =? eb ek)%nat then
    do s <- shift k l ABBD;
    fill_block c i j (- s) (1 - s) m
  else Abort.

(** intersections_tree.c:163-192 *)
Fixpoint row_blocks (c : imat) (k l : nat) (ek : edge) (rest : list edge) (m : Z) : outcome imat :=
  match rest with
  | [] => Done c
  | el :: rest =>
      do c <- pair_block c k l ek el m;
      row_blocks c k (S l) ek rest m
  end.

(** intersections_tree.c:154-193 *)
Fixpoint tree_blocks (c : imat) (k : nat) (es : list edge) (m : Z) : outcome imat :=
  match es with
  | [] => Done c
  | ek :: rest =>
      do c <- fill_block c (Z.of_nat k * (m - 1)) (Z.of_nat k * (m - 1)) 1 (-1) m;
      do c <- row_blocks c k (S k) ek rest m;
      tree_blocks c (S k) rest m
  end.

(** intersections_tree.c:144-194 on the matrix allocated at symplectic_basis.c:41-42 *)
Definition intersection_tree (es : list edge) (m : Z) : outcome imat :=
  tree_blocks {| isize := Z.of_nat (length es) * (m - 1); cell := fun _ _ => 0 |} 0 es m.
End Oracles.

(** the matrix as a list of rows, as the reduction takes it *)
Definition to_rows (c : imat) : list (list Z) :=
  map (fun i => map (fun j => cell c (Z.of_nat i) (Z.of_nat j)) (seq 0 (Z.to_nat (isize c)))) (seq 0 (Z.to_nat (isize c))).
