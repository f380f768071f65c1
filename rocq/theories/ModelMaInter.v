(** Model of the intersection matrix of the Magma package: magma/se_periods/se_intersection.m:14-105,
    its caller se_period_matrix.m:113-124, and TreeData (se_spanning_tree.m:345-350).

    Complex numbers are exact.  Magma's indices start from 1 and those of lists of the model from 0.
    An index out of range, or an entry that was not assigned, is [Fault OutOfBounds]; a call of error
    or a division by zero is [Abort]. *)
From Verif Require Import CArg ModelTree ModelVec ModelPeriod ModelTurn ModelMaRoot ModelMaTree ModelSymp.
Local Open Scope nat_scope.

(** Round; the two ways to round a half are not distinguished here, its argument is always an
    integer below *)
Definition round_near (r : R) : Z := Int_part (r + / 2).

(** se_intersection.m:50: number of different end points *)
Definition end_points (i j k l : nat) : nat := length (nodup Nat.eq_dec [i; j; k; l]).

Definition cdiv (z w : C) : outcome C := if Ceq_dec w (RtoC 0) then Abort else Done (z / w)%C.
(** se_intersection.m:73-76: value at an end of the edge; [1] and [-1] *)
Definition end_value (s : R) (e : se_edge) (ze : vec) (m n : nat) : outcome C :=
  do ar <- ac_mth_root s e ze m (n - 2);
  do c <- vread (e_data e) n;
  Done (c * ar)%C.

(** se_intersection.m:49-105; [i], [j] are the ends of the first edge, [k], [l] those of the second *)
Definition se_intersection_number (i j : nat) (e1 : se_edge) (k l : nat) (e2 : se_edge) (points : vec) (m n : nat) (ze : vec) : outcome (Z * Z) :=
  if end_points i j k l =? 4 then Done (0, 0)%Z
  else
    do a <- vread points i; do b <- vread points j; do c <- vread points k; do d <- vread points l;
    let eq z w := if Ceq_dec z w then true else false in
    if eq a b || eq c d then Abort
    else if (eq a c && eq b d) || (eq a d && eq d c) then Abort
    else
      do h1 <- vread (e_data e1) (n - 2);
      do h2 <- vread (e_data e2) (n - 2);
      do q <- cdiv h1 h2;
      let phi := carg q in
      if eq a c then
        do v1 <- end_value (-1) e1 ze m n;
        do v2 <- end_value (-1) e2 ze m n;
        do v <- cdiv v2 v1;
        let s := round_near (/ (2 * PI) * (phi + INR m * carg v)) in
        if Rlt_dec 0 phi then Done (1 - s, - s)%Z else Done (- s, -1 - s)%Z
      else if eq b c then
        do v1 <- end_value 1 e1 ze m n;
        do v2 <- end_value (-1) e2 ze m n;
        do v <- cdiv v2 v1;
        let s := round_near (/ (2 * PI) * (phi + INR m * carg v) + / 2) in
        Done (- s, 1 - s)%Z
      else Abort.

(** a matrix that is assigned entry after entry, indices from 1 *)
Definition block := nat -> nat -> Z.
Definition zero_block : block := fun _ _ => 0%Z.
Definition assign (b : block) (i j : nat) (v : Z) : block :=
  fun u w => if (u =? i) && (w =? j) then v else b u w.
(** se_intersection.m:18-22 *)
Definition self_block (m : nat) : block :=
  fold_left (fun b i => assign (assign b i (i + 1) 1) (i + 1) i (-1)) (seq 1 (m - 2)) zero_block.
(** se_intersection.m:29-40: [sp], [sm] are remainders modulo m *)
Definition shift_step (m : nat) (sp sm : Z) (b : block) (i : nat) : block :=
  let j := Z.to_nat ((Z.of_nat i + sp) mod Z.of_nat m) in
  let b := if j =? 0 then b else assign b i j 1 in
  let j := Z.to_nat ((Z.of_nat i + sm) mod Z.of_nat m) in
  if j =? 0 then b else assign b i j (-1).
Definition shift_block (m : nat) (sp sm : Z) : block :=
  if (sp =? 0)%Z && (sm =? 0)%Z then zero_block
  else fold_left (shift_step m sp sm) (seq 1 (m - 1)) zero_block.
(** se_intersection.m:43 *)
Definition minus_transpose (b : block) : block := fun u w => (- b w u)%Z.

(** the sequence Blocks, indices from 1, and the pairs spsm_Matrix, both with missing entries *)
Definition blocks := nat -> option block.
Definition put_block (bs : blocks) (i : nat) (b : block) : blocks := fun k => if k =? i then Some b else bs k.
Definition pairs := nat -> nat -> option (Z * Z).

(** se_intersection.m:26-45, body of the inner loop *)
Definition inner_block (sps : pairs) (m n j : nat) (bs : blocks) (l : nat) : outcome blocks :=
  match sps j l with
  | None => Fault OutOfBounds
  | Some (sp, sm) =>
      let b := shift_block m sp sm in
      Done (put_block (put_block bs ((j - 1) * (n - 1) + l) b) ((l - 1) * (n - 1) + j) (minus_transpose b))
  end.
Fixpoint oloop {A} (f : A -> nat -> outcome A) (l : list nat) (a : A) : outcome A :=
  match l with [] => Done a | i :: l => do a <- f a i; oloop f l a end.
(** se_intersection.m:24-46 *)
Definition outer_block (sps : pairs) (m n : nat) (bs : blocks) (j : nat) : outcome blocks :=
  oloop (inner_block sps m n j) (seq (j + 1) (n - 1 - j)) (put_block bs ((j - 1) * n + 1) (self_block m)).
(** BlockMatrix(n-1,n-1,Blocks): an entry that is missing is an error *)
Definition block_matrix (m n : nat) (bs : blocks) : outcome mat :=
  if forallb (fun k => match bs k with Some _ => true | None => false end) (seq 1 ((n - 1) * (n - 1))) then
    Done (tab ((n - 1) * (m - 1)) ((n - 1) * (m - 1)) (fun r c =>
      match bs (r / (m - 1) * (n - 1) + c / (m - 1) + 1) with
      | Some b => b (r mod (m - 1) + 1) (c mod (m - 1) + 1)
      | None => 0%Z
      end))
  else Fault OutOfBounds.
(** se_intersection.m:14-47 *)
Definition se_intersection_matrix (sps : pairs) (m n : nat) : outcome mat :=
  do bs <- oloop (outer_block sps m n) (seq 1 (n - 1)) (fun _ => None);
  block_matrix m n bs.

(** se_spanning_tree.m:345-350, for the edges in turn *)
Fixpoint tree_data (points ze : vec) (m n : nat) (es : list tedge) : outcome (list se_edge) :=
  match es with
  | [] => Done []
  | e :: es =>
      do d <- edge_data points ze m n (t_a e) (t_b e);
      do ds <- tree_data points ze m n es;
      Done (d :: ds)
  end.

Definition get_edge (es : list tedge) (ds : list se_edge) (k : nat) : outcome (tedge * se_edge) :=
  match nth_error es (k - 1), nth_error ds (k - 1) with Some e, Some d => Done (e, d) | _, _ => Fault OutOfBounds end.
(** se_period_matrix.m:115-118: assigning spsm_Matrix *)
Definition put_pair (sps : pairs) (j k : nat) (v : Z * Z) : pairs := fun u w => if (u =? j) && (w =? k) then Some v else sps u w.
Definition pair_step (points ze : vec) (m n : nat) (es : list tedge) (ds : list se_edge) (j : nat) (sps : pairs) (k : nat) : outcome pairs :=
  do e1 <- get_edge es ds j;
  do e2 <- get_edge es ds k;
  do s <- se_intersection_number (t_a (fst e1)) (t_b (fst e1)) (snd e1) (t_a (fst e2)) (t_b (fst e2)) (snd e2) points m n ze;
  Done (put_pair sps j k (fst s mod Z.of_nat m, snd s mod Z.of_nat m)%Z).
Definition row_step (points ze : vec) (m n : nat) (es : list tedge) (ds : list se_edge) (sps : pairs) (j : nat) : outcome pairs :=
  oloop (pair_step points ze m n es ds j) (seq (j + 1) (n - 1 - j)) (put_pair sps j j (1, Z.of_nat m - 1)%Z).
(** se_period_matrix.m:113-124 *)
Definition se_intersections (points ze : vec) (m n : nat) (es : list tedge) (ds : list se_edge) : outcome mat :=
  do sps <- oloop (row_step points ze m n es ds) (seq 1 (n - 1)) (fun _ _ => None);
  se_intersection_matrix sps m n.
