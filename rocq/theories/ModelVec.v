(** Model of arb/constants.c: in-place operations on vectors.  Balls are replaced by exact
    complex numbers.  A pointer into the vector [v] is an offset; accesses outside are
    [Fault OutOfBounds]. *)
From Verif Require Import CBase ModelTree ModelCurve ModelPeriod.
Local Open Scope nat_scope.

(** read, write *)
Definition vread (v : vec) (i : nat) : outcome C :=
  if i <? length v then Done (vget v i) else Fault OutOfBounds.
Definition vwrite (v : vec) (i : nat) (z : C) : outcome vec :=
  if i <? length v then Done (upd v i z) else Fault OutOfBounds.

(** constants.c:15-16, l going down from l for cnt steps *)
Fixpoint shift_pass (cnt l off : nat) (c : C) (v : vec) : outcome vec :=
  match cnt with
  | O => Done v
  | S cnt =>
      do a <- vread v (off + l);
      do b <- vread v (off + l - 1);
      do v <- vwrite v (off + l) (a + b * c)%C;
      shift_pass cnt (l - 1) off c v
  end.
(** constants.c:14-16, k going up from k for todo steps *)
Fixpoint shift_rounds (todo k off len : nat) (c : C) (v : vec) : outcome vec :=
  match todo with
  | O => Done v
  | S todo =>
      do v <- shift_pass (len - k) (len - 1) off c v;
      shift_rounds todo (S k) off len c v
  end.
(** constants.c:10-17 *)
Definition polynomial_shift (v : vec) (off len : nat) (c : C) : outcome vec :=
  shift_rounds (len - 1) 1 off len c v.

(** constants.c:25-29, 37-41 and 49-56 from index k on; [op a c0 k] is the new value *)
Fixpoint geom_rest (op : C -> C -> nat -> C) (todo k off : nat) (c0 c : C) (v : vec) : outcome (vec * C) :=
  match todo with
  | O => Done (v, c0)
  | S todo =>
      let c0 := (c0 * c)%C in
      do a <- vread v (off + k);
      do v <- vwrite v (off + k) (op a c0 k);
      geom_rest op todo (S k) off c0 c v
  end.
Definition geom (op : C -> C -> nat -> C) (v : vec) (off len : nat) (c0 c : C) : outcome (vec * C) :=
  do a <- vread v off;
  do v <- vwrite v off (op a c0 0);
  geom_rest op (len - 1) 1 off c0 c v.
(** constants.c:20-30; c0 is updated too *)
Definition mul_geom := geom (fun a c0 _ => (a * c0)%C).
(** constants.c:32-42 *)
Definition add_geom := geom (fun a c0 _ => (a + c0)%C).
(** constants.c:44-57 *)
Definition sub_geom := geom (fun a c0 k => if Nat.odd k then (a - c0)%C else (a + c0)%C).

(** Arb's _acb_vec_scalar_mul on the slice *)
Definition scalar_mul (v : vec) (off len : nat) (c : C) : outcome vec :=
  if off + len <=? length v then
    Done (vtab (length v) (fun i => if (off <=? i) && (i <? off + len) then (vget v i * c)%C else vget v i))
  else Fault OutOfBounds.

(** constants.c:137-166: blocks j, j+1, ...; the quotient by a power of cab = 0 is not finite
    in the code (constant_cab aborts on 0 beforehand). *)
Fixpoint factor_blocks (ni : list Z) (j : Z) (off : nat) (ba2 ab cab : C) (m j1 : Z) (z : vec) (v : vec) : outcome vec :=
  match ni with
  | [] => Done v
  | n :: ni =>
      let len := Z.to_nat n in
      do v <- polynomial_shift v off len ab;
      do r <- mul_geom v off len ba2 ba2;
      let v := fst r in
      let i := Z.rem (m - j1 - j) m in
      if ((i <? 0) || (Z.of_nat (length z) <=? i))%Z then Fault OutOfBounds
      else
        let zj := (- (vget z (Z.to_nat i) - RtoC 1))%C in
        let cj := (zj / cpow cab (Z.to_nat (j1 + j)))%C in
        do v <- scalar_mul v off len cj;
        factor_blocks ni (j + 1) (off + len) ba2 ab cab m j1 z v
  end.
(** constants.c:121-175 *)
Definition integrals_edge_factors (v : vec) (ba2 ab cab : C) (c : sec) : outcome vec :=
  factor_blocks (sec_ni c) 0 0 ba2 ab cab (sec_m c) (sec_j1 c) (unit_roots (sec_m c)) v.
