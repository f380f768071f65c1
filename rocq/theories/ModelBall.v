(** Model of the computations on balls: arb/constants.c, arb/mth_root_pol.c, arb/gc_int.c,
    arb/de_int.c, arb/integrals_gc.c, arb/integrals_de.c, arb/ydata.c, arb/intersections_tree.c and
    arb/period_matrix.c, as sequences of calls to Arb.

    The functions of Arb are the fields of a record: nothing is assumed about them here.  The first
    argument is the precision.  A real ball (arb_t) is a complex ball whose imaginary part is 0. *)
From Coq Require Import Reals.
From Verif Require Import Base ModelTree ModelCurve ModelBasis ModelInter ModelCache ModelEdge.
Local Open Scope nat_scope.

Record arith := {
  ball : Type;
  b_zero : ball;                           (* acb_zero *)
  b_int : Z -> ball;                       (* acb_set_si, arb_set_si, acb_one *)
  b_add : Z -> ball -> ball -> ball;       (* acb_add, arb_add *)
  b_sub : Z -> ball -> ball -> ball;       (* acb_sub, acb_sub_arb, acb_sub_ui, arb_sub *)
  b_mul : Z -> ball -> ball -> ball;       (* acb_mul, acb_mul_arb, arb_mul *)
  b_div : Z -> ball -> ball -> ball;       (* acb_div, acb_div_ui, arb_div, arb_div_ui *)
  b_addmul : Z -> ball -> ball -> ball -> ball;     (* acb_addmul: z + x y *)
  b_mul_int : Z -> ball -> Z -> ball;      (* acb_mul_fmpz, arb_mul_si, arb_mul_ui *)
  b_addmul_int : Z -> ball -> ball -> Z -> ball;    (* acb_addmul_fmpz *)
  b_neg : ball -> ball;                    (* acb_neg, arb_neg *)
  b_inv : Z -> ball -> ball;               (* acb_inv *)
  b_2exp : ball -> Z -> ball;              (* acb_mul_2exp_si, arb_mul_2exp_si *)
  b_pow : Z -> ball -> nat -> ball;        (* acb_pow_ui, and entries of _acb_vec_set_powers *)
  b_root : Z -> Z -> ball -> ball;         (* acb_root_ui, arb_root_ui; acb_sqrt for 2 *)
  b_log : Z -> ball -> ball;               (* acb_log *)
  b_exp : Z -> ball -> ball;               (* acb_exp *)
  b_unit : Z -> Z -> ball;                 (* acb_unit_root *)
  b_units : Z -> Z -> nat -> ball;         (* entries of _acb_vec_unit_roots *)
  b_re : Z -> ball -> ball;                (* arb_set_round of acb_realref *)
  b_im : Z -> ball -> ball;                (* arb_set_round of acb_imagref *)
  b_pi : Z -> ball;                        (* arb_const_pi *)
  b_arg : Z -> ball -> ball;               (* acb_arg *)
  b_sinh : Z -> ball -> ball;              (* arb_sinh_cosh *)
  b_cosh : Z -> ball -> ball;
  b_real : R -> ball;                      (* arb_set_arf of an exact number *)
  b_err : ball -> option R -> ball;        (* acb_add_error_mag; None is an infinite radius *)
  b_re_nonpos : ball -> bool;              (* arb_is_nonpositive (acb_realref) *)
  b_re_nonneg : ball -> bool;              (* arb_is_nonnegative (acb_realref) *)
  b_re_neg : ball -> bool;                 (* arb_is_negative (acb_realref) *)
  b_im_nonpos : ball -> bool;              (* arb_is_nonpositive (acb_imagref) *)
  b_im_has0 : ball -> bool;                (* arb_contains_zero (acb_imagref) *)
  b_im_sgn : ball -> Z;                    (* arf_sgn (arb_midref (acb_imagref)) *)
  b_has0 : ball -> bool;                   (* acb_contains_zero *)
  b_finite : ball -> bool;                 (* acb_is_finite *)
  b_unique : ball -> option Z              (* arb_get_unique_fmpz *)
}.

Section Run.
Variable A : arith.
Notation bl := (ball A).
Notation bvec := (list (ball A)).
Definition b_one : bl := b_int A 1.
Definition bget (v : bvec) (i : nat) : bl := nth i v (b_zero A).
Definition btab (n : nat) (f : nat -> bl) : bvec := map f (seq 0 n).
(** array accesses *)
Definition bread (v : bvec) (i : nat) : outcome bl :=
  if i <? length v then Done (bget v i) else Fault OutOfBounds.
Definition bwrite (v : bvec) (i : nat) (z : bl) : outcome bvec :=
  if i <? length v then Done (upd v i z) else Fault OutOfBounds.

Section Prec.
Variable p : Z.

(** constants.c:10-17 *)
Fixpoint b_shift_pass (cnt l off : nat) (c : bl) (v : bvec) : outcome bvec :=
  match cnt with
  | O => Done v
  | S cnt =>
      do a <- bread v (off + l);
      do b <- bread v (off + l - 1);
      do v <- bwrite v (off + l) (b_addmul A p a b c);
      b_shift_pass cnt (l - 1) off c v
  end.
Fixpoint b_shift_rounds (todo k off len : nat) (c : bl) (v : bvec) : outcome bvec :=
  match todo with
  | O => Done v
  | S todo =>
      do v <- b_shift_pass (len - k) (len - 1) off c v;
      b_shift_rounds todo (S k) off len c v
  end.
Definition b_polynomial_shift (v : bvec) (off len : nat) (c : bl) : outcome bvec :=
  b_shift_rounds (len - 1) 1 off len c v.

(** constants.c:20-57; [op a c0 k] is the new value of entry k *)
Fixpoint b_geom_rest (op : bl -> bl -> nat -> bl) (todo k off : nat) (c0 c : bl) (v : bvec) : outcome (bvec * bl) :=
  match todo with
  | O => Done (v, c0)
  | S todo =>
      let c0 := b_mul A p c0 c in
      do a <- bread v (off + k);
      do v <- bwrite v (off + k) (op a c0 k);
      b_geom_rest op todo (S k) off c0 c v
  end.
Definition b_geom (op : bl -> bl -> nat -> bl) (v : bvec) (off len : nat) (c0 c : bl) : outcome (bvec * bl) :=
  do a <- bread v off;
  do v <- bwrite v off (op a c0 0);
  b_geom_rest op (len - 1) 1 off c0 c v.
Definition b_mul_geom := b_geom (fun a c0 _ => b_mul A p a c0).
Definition b_add_geom := b_geom (fun a c0 _ => b_add A p a c0).
Definition b_sub_geom := b_geom (fun a c0 k => if Nat.odd k then b_sub A p a c0 else b_add A p a c0).

(** Arb's _acb_vec_scalar_mul and _acb_vec_scalar_mul_arb on a slice *)
Definition b_scalar_mul (v : bvec) (off len : nat) (c : bl) : outcome bvec :=
  if off + len <=? length v then
    Done (btab (length v) (fun i => if (off <=? i) && (i <? off + len) then b_mul A p (bget v i) c else bget v i))
  else Fault OutOfBounds.

(** _acb_vec_unit_roots(z, m, m) *)
Definition b_unit_roots (m : Z) : bvec := btab (Z.to_nat m) (b_units A p m).
(** constants.c:137-166 *)
Fixpoint b_factor_blocks (ni : list Z) (j : Z) (off : nat) (ba2 ab cab : bl) (m j1 : Z) (z : bvec) (v : bvec) : outcome bvec :=
  match ni with
  | [] => Done v
  | n :: ni =>
      let len := Z.to_nat n in
      do v <- b_polynomial_shift v off len ab;
      do r <- b_mul_geom v off len ba2 ba2;
      let v := fst r in
      let i := Z.rem (m - j1 - j) m in
      if ((i <? 0) || (Z.of_nat (length z) <=? i))%Z then Fault OutOfBounds
      else
        let zj := b_neg A (b_sub A p (bget z (Z.to_nat i)) b_one) in
        let cj := b_div A p zj (b_pow A p cab (Z.to_nat (j1 + j))) in
        do v <- b_scalar_mul v off len cj;
        b_factor_blocks ni (j + 1) (off + len) ba2 ab cab m j1 z v
  end.
(** constants.c:121-175 *)
Definition b_edge_factors (v : bvec) (ba2 ab cab : bl) (c : sec) : outcome bvec :=
  b_factor_blocks (sec_ni c) 0 0 ba2 ab cab (sec_m c) (sec_j1 c) (b_unit_roots (sec_m c)) v.

(** mth_root_pol.c:41-43, 61-63, 105-107 *)
Definition b_factor_at (u : bvec) (d1 k : nat) (x : bl) : outcome bl :=
  do q <- bread u k;
  let t := b_sub A p q x in
  Done (if d1 <=? k then b_neg A t else t).
(** mth_root_pol.c:11-49 *)
Fixpoint b_def_loop (m : Z) (u : bvec) (d1 : nat) (x : bl) (todo k : nat) (y : bl) : outcome bl :=
  match todo with
  | O => Done y
  | S todo =>
      do t <- b_factor_at u d1 k x;
      b_def_loop m u d1 x todo (S k) (b_mul A p y (b_root A p m t))
  end.
Definition b_pol_def (m : Z) (u : bvec) (d1 d : nat) (x : bl) : outcome bl := b_def_loop m u d1 x d 0 b_one.
(** mth_root_pol.c:51-71; the logarithms are taken with 4 more bits *)
Fixpoint b_log_loop (u : bvec) (d1 : nat) (x : bl) (todo k : nat) (y : bl) : outcome bl :=
  match todo with
  | O => Done y
  | S todo =>
      do t <- b_factor_at u d1 k x;
      b_log_loop u d1 x todo (S k) (b_add A (p + 4) y (b_log A (p + 4) t))
  end.
Definition b_pol_prod (m : Z) (u : bvec) (d1 d : nat) (x : bl) : outcome bl :=
  do y <- b_log_loop u d1 x d 0 (b_zero A);
  Done (b_exp A p (b_div A (p + 4) y (b_int A m))).
(** mth_root_pol.c:73-80 *)
Definition b_sgn_imag (z : bl) : Z :=
  if b_im_has0 A z then (if b_re_nonneg A z then 1 else 0)%Z else b_im_sgn A z.
(** mth_root_pol.c:82-136; FAIL is 2147483647 *)
Fixpoint b_turn_loop (u : bvec) (d1 : nat) (x : bl) (todo k : nat) (y : bl) (sy q : Z) : outcome (Z * bl) :=
  match todo with
  | O => Done (q, y)
  | S todo =>
      if (sy =? 0)%Z then Done (2147483647%Z, y)
      else
        do t <- b_factor_at u d1 k x;
        let y := b_mul A p y t in
        let st := b_sgn_imag t in
        if (st =? 0)%Z then Done (2147483647%Z, y)
        else
          let sy' := b_sgn_imag y in
          let q := if (sy =? st)%Z && negb (sy' =? st)%Z then (if (0 <? st)%Z then q + 1 else q - 1)%Z else q in
          b_turn_loop u d1 x todo (S k) y sy' q
  end.
Definition b_prod_turn (u : bvec) (d1 d : nat) (x : bl) : outcome (Z * bl) :=
  do q <- bread u 0;
  let y := b_sub A p q x in
  let y := if d1 =? 0 then b_neg A y else y in
  b_turn_loop u d1 x (d - 1) 1 y (b_sgn_imag y) 0.
(** mth_root_pol.c:138-152 *)
Definition b_sqrt_turn (u : bvec) (d1 d : nat) (x : bl) : outcome bl :=
  do r <- b_prod_turn u d1 d x;
  if (fst r =? 2147483647)%Z then b_pol_def 2 u d1 d x
  else
    let y := b_root A p 2 (snd r) in
    Done (if (Z.rem (fst r) 2 =? 0)%Z then y else b_neg A y).
(** mth_root_pol.c:154-169 *)
Definition b_pol_turn (m : Z) (u : bvec) (d1 d : nat) (x : bl) (z : bvec) : outcome bl :=
  do r <- b_prod_turn u d1 d x;
  if (fst r =? 2147483647)%Z then b_pol_def m u d1 d x
  else
    let y := b_root A p m (snd r) in
    let q := Z.rem (Z.rem (fst r) m + m) m in
    if (q =? 0)%Z then Done y
    else do w <- bread z (Z.to_nat q); Done (b_mul A p y w).
(** integrals_de.c:32-41 *)
Definition b_de_root (rdef rprod rturn : bool) (m : Z) (u : bvec) (d1 d : nat) (x : bl) : outcome bl :=
  if rdef then b_pol_def m u d1 d x
  else if rprod then b_pol_prod m u d1 d x
  else if rturn then b_pol_turn m u d1 d x (b_unit_roots m)
  else if (1000 <? p)%Z && (5 <? d) then b_pol_turn m u d1 d x (b_unit_roots m)
  else b_pol_prod m u d1 d x.
(** integrals_gc.c:27-31 *)
Definition b_gc_root (rdef rturn : bool) (u : bvec) (d1 d : nat) (x : bl) : outcome bl :=
  if rdef then b_pol_def 2 u d1 d x else b_sqrt_turn u d1 d x.

(** gc_int.c:27-31 *)
Fixpoint b_cos_loop (todo k len s : nat) (x : bvec) (c : bvec) : outcome bvec :=
  match todo with
  | O => Done c
  | S todo =>
      do a <- bread x (2 * k + 1);
      do c <- bwrite c k (b_re A p a);
      do b <- bread x (2 * k + 1 + s);
      if len <? k + 1 then Fault OutOfBounds
      else
        do c <- bwrite c (len - k - 1) (b_im A p b);
        b_cos_loop todo (S k) len s x c
  end.
(** gc_int.c:10-46; [wp] is the precision of the powers, prec + 6 + twice a bit count *)
Definition b_vec_cos_pi (wp : Z) (len n : nat) : outcome bvec :=
  let x := btab (len + 1) (b_pow A wp (b_unit A wp (4 * Z.of_nat n))) in
  do c <- b_cos_loop (len / 2) 0 len (n mod 2) x (repeat (b_zero A) len);
  if 2 <=? n mod 4 then
    do a <- bread x (n / 2);
    bwrite c (n / 4) (b_re A p a)
  else Done c.
Definition b_gc_int_init (wp : Z) (n : nat) : outcome bvec :=
  if n =? 0 then Done [] else b_vec_cos_pi wp (n / 2) n.

(** integrals_gc.c:38-53 *)
Fixpoint b_gc_nodes (root : bl -> outcome bl) (g : nat) (xs : bvec) (res : bvec) : outcome bvec :=
  match xs with
  | [] => Done res
  | x :: xs =>
      do y <- root x;
      do r <- b_add_geom res 0 g (b_inv A p y) x;
      let x' := b_neg A x in
      do y <- root x';
      do r <- b_add_geom (fst r) 0 g (b_inv A p y) x';
      b_gc_nodes root g xs (fst r)
  end.
(** integrals_gc.c:9-84 *)
Definition b_gc_integrals (rdef rturn : bool) (u : bvec) (d1 d g n : nat) (xs : bvec) : outcome bvec :=
  do res <- b_gc_nodes (b_gc_root rdef rturn u d1 d) g xs (btab g (fun _ => b_zero A));
  do res <- (if n mod 2 =? 0 then Done res
             else
               do y <- b_pol_def 2 u d1 d (b_zero A);
               do a <- bread res 0;
               bwrite res 0 (b_add A p a (b_inv A p y)));
  b_scalar_mul res 0 g (b_div A p (b_pi A p) (b_int A (Z.of_nat n))).

(** de_int.c:69-90 *)
Record b_node := { bn_x : bl; bn_dx : bl; bn_ch2m : bl }.
Definition b_de_node (h lambda : R) (m : Z) (k : nat) : b_node :=
  if k =? 0 then {| bn_x := b_zero A; bn_dx := b_one; bn_ch2m := b_one |}
  else
    let kh := b_mul_int A p (b_real A h) (Z.of_nat k) in
    let sh := b_mul A p (b_sinh A p kh) (b_real A lambda) in
    let chsh := b_cosh A p sh in
    let chsh2 := b_mul A p chsh chsh in
    {| bn_x := b_div A p (b_sinh A p sh) chsh; bn_dx := b_div A p (b_cosh A p kh) chsh2; bn_ch2m := b_root A p m chsh2 |}.
Definition b_de_init (h lambda : R) (n : nat) (m : Z) : list b_node * bl :=
  (map (b_de_node h lambda m) (seq 0 n), b_mul A p (b_real A lambda) (b_real A h)).

(** integrals_de.c:65-72 and 95-102 *)
Fixpoint b_de_blocks (add : bvec -> nat -> nat -> bl -> bl -> outcome (bvec * bl)) (ni : list Z) (first : bool)
    (off : nat) (wy y x : bl) (res : bvec) : outcome bvec :=
  match ni with
  | [] => Done res
  | n :: ni =>
      let wy := if first then wy else b_mul A p wy y in
      do r <- add res off (Z.to_nat n) wy x;
      b_de_blocks add ni false (off + Z.to_nat n) wy y x (fst r)
  end.
(** integrals_de.c:52-63 and 83-93 *)
Definition b_de_start (y : bl) (c : sec) (nd : b_node) : bl * bl :=
  let y := b_div A p (bn_ch2m nd) y in
  let wy := if (1 <? sec_j1 c)%Z then b_mul A p (b_pow A p y (Z.to_nat (sec_j1 c))) (bn_dx nd)
            else b_mul A p y (bn_dx nd) in
  (y, wy).
(** integrals_de.c:45-103 *)
Fixpoint b_de_nodes (root : bl -> outcome bl) (c : sec) (l : nat) (nds : list b_node) (res : bvec) : outcome bvec :=
  match nds with
  | [] => Done res
  | nd :: nds =>
      do y <- root (bn_x nd);
      let '(y1, wy) := b_de_start y c nd in
      do res <- b_de_blocks b_add_geom (sec_ni c) true 0 wy y1 (bn_x nd) res;
      do res <- (if l =? 0 then Done res
                 else do y <- root (b_neg A (bn_x nd));
                      let '(y2, wy) := b_de_start y c nd in
                      b_de_blocks b_sub_geom (sec_ni c) true 0 wy y2 (bn_x nd) res);
      b_de_nodes root c (S l) nds res
  end.
(** integrals_de.c:9-117 *)
Definition b_de_integrals (rdef rprod rturn : bool) (u : bvec) (d1 d : nat) (c : sec) (de : list b_node * bl) : outcome bvec :=
  let g := Z.to_nat (sec_g c) in
  do res <- b_de_nodes (b_de_root rdef rprod rturn (sec_m c) u d1 d) c 0 (fst de) (btab g (fun _ => b_zero A));
  b_scalar_mul res 0 g (snd de).

(** constants.c:69-76 and Arb's _acb_vec_scalar_addmul on a slice; [f r x] is the new entry *)
Definition b_slice (f : bl -> bl -> bl) (r x : bvec) (off len : nat) : outcome bvec :=
  if ((off + len <=? length r) && (off + len <=? length x))%nat then
    Done (btab (length r) (fun k =>
      if ((off <=? k) && (k <? off + len))%nat then f (bget r k) (bget x k) else bget r k))
  else Fault OutOfBounds.
(** period_matrix.c:30-40 *)
Fixpoint b_shifted_blocks (ni : list Z) (j : Z) (off : nat) (m j1 l : Z) (coeff : Z)
   (z : bvec) (row res : bvec) : outcome bvec :=
  match ni with
  | [] => Done res
  | n :: ni =>
      let lj := Z.rem ((m - l) * (j1 + j)) m in
      if ((lj <? 0) || (Z.of_nat (length z) <=? lj))%Z then Fault OutOfBounds
      else
        let tmp := b_mul_int A p (bget z (Z.to_nat lj)) coeff in
        do res <- b_slice (fun r x => b_addmul A p r x tmp) res row off (Z.to_nat n);
        b_shifted_blocks ni (j + 1)%Z (off + Z.to_nat n) m j1 l coeff z row res
  end.
(** period_matrix.c:18-42 *)
Definition b_periods_term (c : sec) (integrals : list bvec) (z : bvec) (x : gamma) (res : bvec) : outcome bvec :=
  if ((gindex x <? 0) || (Z.of_nat (length integrals) <=? gindex x))%Z then Fault OutOfBounds
  else
    let row := nth (Z.to_nat (gindex x)) integrals [] in
    do coeff <- slong_as_fmpz (gcoeff x);
    if (gshift x =? 0)%Z then b_slice (fun r x => b_addmul_int A p r x coeff) res row 0 (Z.to_nat (sec_g c))
    else b_shifted_blocks (sec_ni c) 0 0 (sec_m c) (sec_j1 c) (gshift x) coeff z row res.
Fixpoint b_periods_terms (c : sec) (integrals : list bvec) (z : bvec) (l : list gamma) (res : bvec) : outcome bvec :=
  match l with
  | [] => Done res
  | x :: l => do res <- b_periods_term c integrals z x res; b_periods_terms c integrals z l res
  end.
Definition b_periods_loop (c : sec) (integrals : list bvec) (z : bvec) (l : list gamma) : outcome bvec :=
  b_periods_terms c integrals z l (btab (Z.to_nat (sec_g c)) (fun _ => b_zero A)).
Fixpoint b_periods_rows (c : sec) (integrals : list bvec) (z : bvec) (basis : list (list gamma)) : outcome (list bvec) :=
  match basis with
  | [] => Done []
  | l :: basis =>
      do r <- b_periods_loop c integrals z l;
      do rest <- b_periods_rows c integrals z basis;
      Done (r :: rest)
  end.
(** period_matrix.c:47-61 *)
Definition b_period_matrix (c : sec) (basis : list (list gamma)) (integrals : list bvec) : outcome (list bvec) :=
  do rows <- b_periods_rows c integrals (b_unit_roots (sec_m c)) basis;
  let g := Z.to_nat (sec_g c) in
  Done (map (fun i => btab g (fun k => bget (nth k rows []) i)) (seq 0 g)).

(** ydata.c:10-35 *)
Definition b_constant_cab (ba2 : bl) (n1 n : nat) (m : Z) : outcome bl :=
  let c := b_pow A p ba2 n in
  let k := b_re_neg A c in
  let c := b_root A p m (if k then b_neg A c else c) in
  let c := if Nat.even ((if k then 1 else 0) + n1) then b_mul A p c (b_unit A p (2 * m)) else c in
  if b_has0 A c then Abort else Done c.
(** abel_jacobi.h:68-83 *)
Record b_ydata := { by_u : bvec; by_n1 : nat; by_ba2 : bl; by_ab : bl; by_c : bl; by_ya : bl; by_yb : bl }.
(** ydata.c:43-77 and 98-123 *)
Definition b_ydata_init_edge (x : bvec) (a b : nat) (m : Z) : outcome b_ydata :=
  let n := length x in
  if negb ((a <? n) && (b <? n))%nat then Fault OutOfBounds
  else
    let ab := b_add A p (bget x b) (bget x a) in
    let ba := b_sub A p (bget x b) (bget x a) in
    let u := map (fun k => b_div A p (b_sub A p (b_2exp A (bget x k) 1) ab) ba) (other_points n a b) in
    if negb (length u + 2 =? n)%nat then Abort
    else
      let '(u, l) := arrange (b_zero A) (b_re_nonpos A) (length u) u 0 in
      let ba2 := b_2exp A ba (-1) in
      do c <- b_constant_cab ba2 l n m;
      do ya <- b_pol_def m u l (length u) (b_int A (-1));
      do yb <- b_pol_def m u l (length u) (b_int A 1);
      Done {| by_u := u; by_n1 := l; by_ba2 := ba2; by_ab := b_div A p ab ba; by_c := c;
              by_ya := b_mul A p ya c; by_yb := b_mul A p yb c |}.
(** ydata.c:131-138 *)
Fixpoint b_tree_ydata (x : bvec) (m : Z) (es : list edge) : outcome (list b_ydata) :=
  match es with
  | [] => Done []
  | e :: es =>
      do y <- b_ydata_init_edge x (ea e) (eb e) m;
      do ys <- b_tree_ydata x m es;
      Done (y :: ys)
  end.

(** intersections_tree.c:42-76 *)
Definition b_angle (ab cd : bl) : outcome bl :=
  let t := b_div A p ab cd in
  if negb (b_finite A t) then Abort
  else
    let rho := if b_re_nonpos A t then
                 let rho := b_arg A p (b_neg A t) in
                 if b_re_nonneg A rho then b_sub A p rho (b_pi A p) else b_add A p rho (b_pi A p)
               else b_arg A p t in
    Done (b_2exp A (b_div A p rho (b_pi A p)) (-1)).
(** intersections_tree.c:78-94 *)
Definition b_get_si (a : bl) : outcome Z :=
  match b_unique A a with Some s => Done s | None => Abort end.
(** intersections_tree.c:98-129 *)
Definition b_shift_number (yab ycd : b_ydata) (m : Z) (t : incidence) : outcome Z :=
  do rho <- b_angle (by_ba2 yab) (by_ba2 ycd);
  do psi <- b_angle (by_ya ycd) (match t with ABAD => by_ya yab | ABBD => by_yb yab end);
  let rho := b_add A p rho (b_mul_int A p psi m) in
  b_get_si (match t with ABAD => rho | ABBD => b_add A p rho (b_2exp A b_one (-1)) end).
(** intersections_tree.c:131-142 *)
Definition b_is_neg_abad (ab2 cd2 : bl) : bool := b_im_nonpos A (b_div A p ab2 cd2).
(** intersections_tree.c:144-194; the precision is 64 there *)
Definition b_no_ydata : b_ydata :=
  {| by_u := []; by_n1 := 0; by_ba2 := b_zero A; by_ab := b_zero A; by_c := b_zero A; by_ya := b_zero A; by_yb := b_zero A |}.
Definition b_intersection (ys : list b_ydata) (es : list edge) (m : Z) : outcome imat :=
  intersection_tree (fun k l t => b_shift_number (nth k ys b_no_ydata) (nth l ys b_no_ydata) m t)
    (fun k l => b_is_neg_abad (by_ba2 (nth k ys b_no_ydata)) (by_ba2 (nth l ys b_no_ydata))) es m.

(** integrals_gc.c:95-112; [params] is gc_params on the points of the edge: number of points and
    error radius; [wp n] is the precision of the nodes *)
Definition b_edge_gc (rdef rturn : bool) (params : bvec -> outcome (Z * option R)) (wp : Z -> Z) (c : sec) (cached : Z) (ye : b_ydata)
  : outcome (bvec * Z) :=
  let d := Z.to_nat (sec_n c - 2) in
  let g := Z.to_nat (sec_g c) in
  do q <- params (firstn d (by_u ye));
  let '(n, e) := q in
  do s <- gc_scheme c cached n;
  do xs <- b_gc_int_init (wp s) (Z.to_nat s);
  do v <- b_gc_integrals rdef rturn (by_u ye) (by_n1 ye) d g (Z.to_nat s) xs;
  do v <- b_edge_factors (map (fun z => b_err A z e) v) (by_ba2 ye) (by_ab ye) (by_c ye) c;
  Done (v, s).
(** integrals_gc.c:120-139 *)
Definition b_tree_gc {Key : Type} (qsort : list (Key * nat) -> list (Key * nat)) (rdef rturn : bool) (params : bvec -> outcome (Z * option R))
    (wp : Z -> Z) (c : sec) (ys : list b_ydata) (keys : list Key) (rows : list bvec) : outcome (list bvec) :=
  integrals_tree 0%Z (fun s k => b_edge_gc rdef rturn params wp c s (nth k ys b_no_ydata)) qsort keys rows.

(** integrals_de.c:141-174; [params] is de_params: number of points, step, lambda, error radius *)
Record b_store := { bs_n : Z; bs_h : R; bs_l : R; bs_e : option R }.
Definition b_no_store : b_store := {| bs_n := 0; bs_h := 0; bs_l := 0; bs_e := Some 0%R |}.
Definition b_edge_de (rdef rprod rturn same : bool) (params : bvec -> outcome b_store) (c : sec) (cached : b_store) (ye : b_ydata)
  : outcome (bvec * b_store) :=
  let d := Z.to_nat (sec_n c - 2) in
  do s <- (if (bs_n cached =? 0)%Z || negb same then
             do q <- params (firstn d (by_u ye));
             Done (if (bs_n cached =? 0)%Z || (wrap (wrap (bs_n cached - bs_n q) * wrap (sec_n c + sec_g c)) >? wrap (bs_n q))%Z
                   then q else cached)
           else Done cached);
  do v <- b_de_integrals rdef rprod rturn (by_u ye) (by_n1 ye) d c (b_de_init (bs_h s) (bs_l s) (Z.to_nat (bs_n s)) (sec_m c));
  do v <- b_edge_factors (map (fun z => b_err A z (bs_e s)) v) (by_ba2 ye) (by_ab ye) (by_c ye) c;
  Done (v, s).
(** integrals_de.c:176-200 *)
Definition b_tree_de {Key : Type} (qsort : list (Key * nat) -> list (Key * nat)) (rdef rprod rturn same : bool) (params : bvec -> outcome b_store)
    (c : sec) (ys : list b_ydata) (keys : list Key) (rows : list bvec) : outcome (list bvec) :=
  integrals_tree b_no_store (fun s k => b_edge_de rdef rprod rturn same params c s (nth k ys b_no_ydata)) qsort keys rows.
End Prec.
End Run.
