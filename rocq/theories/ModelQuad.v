(** Model of the quadrature loops: arb/gc_int.c, arb/integrals_gc.c:9-84, arb/de_int.c:32-100,
    arb/integrals_de.c:9-117 and 202-230.  Balls are replaced by exact numbers; rounding and
    error radii are not modelled here. *)
From Verif Require Import CArg ModelTree ModelCurve ModelPeriod ModelVec.
Local Open Scope nat_scope.

Definition rget (c : list R) (i : nat) : R := nth i c 0%R.
Definition rwrite (c : list R) (i : nat) (z : R) : outcome (list R) :=
  if i <? length c then Done (upd c i z) else Fault OutOfBounds.

(** gc_int.c:27-31, k going up from k for todo steps *)
Fixpoint cos_loop (todo k len s : nat) (x : vec) (c : list R) : outcome (list R) :=
  match todo with
  | O => Done c
  | S todo =>
      do a <- vread x (2 * k + 1);
      do c <- rwrite c k (fst a);
      do b <- vread x (2 * k + 1 + s);
      if len <? k + 1 then Fault OutOfBounds
      else
        do c <- rwrite c (len - k - 1) (snd b);
        cos_loop todo (S k) len s x c
  end.
(** gc_int.c:10-36; x holds the powers of exp(2 i pi / 4n), c is zero initialised *)
Definition vec_cos_pi (len n : nat) : outcome (list R) :=
  let x := vtab (len + 1) (fun k => root (4 * Z.of_nat n) (Z.of_nat k)) in
  do c <- cos_loop (len / 2) 0 len (n mod 2) x (repeat 0%R len);
  if 2 <=? n mod 4 then
    do a <- vread x (n / 2);
    rwrite c (n / 4) (fst a)
  else Done c.
(** gc_int.c:38-46 *)
Definition gc_int_init (n : nat) : outcome (list R) :=
  if n =? 0 then Done [] else vec_cos_pi (n / 2) n.

(** integrals_gc.c:38-53; [y] is the selected square root product.  acb_inv of 0 is not
    finite; 1/0 is 0 here. *)
Fixpoint gc_nodes (y : R -> C) (g : nat) (xs : list R) (res : vec) : outcome vec :=
  match xs with
  | [] => Done res
  | x :: xs =>
      do r <- add_geom res 0 g (/ y x)%C (RtoC x);
      do r <- add_geom (fst r) 0 g (/ y (- x)%R)%C (RtoC (- x));
      gc_nodes y g xs (fst r)
  end.
(** integrals_gc.c:9-84; [y0] is the value at 0 of sqrt_pol_def, used for the middle node *)
Definition gc_integrals_precomp (y : R -> C) (y0 : C) (g n : nat) (xs : list R) : outcome vec :=
  let res := vtab g (fun _ => RtoC 0) in
  do res <- gc_nodes y g xs res;
  do res <- (if n mod 2 =? 0 then Done res
             else do a <- vread res 0; vwrite res 0 (a + / y0)%C);
  scalar_mul res 0 g (RtoC (PI / INR n)).
(** integrals_gc.c:86-93 *)
Definition gc_integrals (y : R -> C) (y0 : C) (g n : nat) : outcome vec :=
  do xs <- gc_int_init n;
  gc_integrals_precomp y y0 g n xs.

(** de_int.c:69-90: one node: abscissa, weight, m-th root of the squared cosh *)
Record de_node := { de_x : R; de_dx : R; de_ch2m : R }.
Definition de_int_node (h lambda : R) (m : Z) (k : nat) : de_node :=
  if k =? 0 then {| de_x := 0; de_dx := 1; de_ch2m := 1 |}
  else
    let kh := (h * INR k)%R in
    let sh := (sinh kh * lambda)%R in
    let shsh := sinh sh in let chsh := cosh sh in
    let chsh2 := (chsh * chsh)%R in
    {| de_x := (shsh / chsh)%R; de_dx := (cosh kh / chsh2)%R; de_ch2m := rroot m chsh2 |}.
(** de_int.c:32-100: table and factor *)
Definition de_int_init (h lambda : R) (n : nat) (m : Z) : list de_node * R :=
  (map (de_int_node h lambda m) (seq 0 n), (lambda * h)%R).

(** integrals_de.c:65-72 and 95-102 *)
Fixpoint de_blocks (add : vec -> nat -> nat -> C -> C -> outcome (vec * C)) (ni : list Z) (first : bool)
    (off : nat) (wy y x : C) (res : vec) : outcome vec :=
  match ni with
  | [] => Done res
  | n :: ni =>
      let wy := if first then wy else (wy * y)%C in
      do r <- add res off (Z.to_nat n) wy x;
      de_blocks add ni false (off + Z.to_nat n) wy y x (fst r)
  end.
(** integrals_de.c:52-63 and 83-93 *)
Definition de_start (y : C) (c : sec) (nd : de_node) : C * C :=
  let y := (RtoC (de_ch2m nd) / y)%C in
  let wy := if (1 <? sec_j1 c)%Z then (cpow y (Z.to_nat (sec_j1 c)) * RtoC (de_dx nd))%C
            else (y * RtoC (de_dx nd))%C in
  (y, wy).
(** integrals_de.c:45-103; [y] is the selected m-th root product *)
Fixpoint de_nodes (y : R -> C) (c : sec) (l : nat) (nds : list de_node) (res : vec) : outcome vec :=
  match nds with
  | [] => Done res
  | nd :: nds =>
      let '(y1, wy) := de_start (y (de_x nd)) c nd in
      do res <- de_blocks add_geom (sec_ni c) true 0 wy y1 (RtoC (de_x nd)) res;
      do res <- (if l =? 0 then Done res
                 else let '(y2, wy) := de_start (y (- de_x nd)%R) c nd in
                      de_blocks sub_geom (sec_ni c) true 0 wy y2 (RtoC (de_x nd)) res);
      de_nodes y c (S l) nds res
  end.
(** integrals_de.c:9-117 *)
Definition de_integrals_precomp (y : R -> C) (c : sec) (de : list de_node * R) : outcome vec :=
  let g := Z.to_nat (sec_g c) in
  do res <- de_nodes y c 0 (fst de) (vtab g (fun _ => RtoC 0));
  scalar_mul res 0 g (RtoC (snd de)).

(** integrals_de.c:202-230, before integrals_edge_factors; [gamma] is Arb's arb_gamma_fmpq *)
Definition integral_d2_raw (gamma : R -> R) (c : sec) : vec :=
  vtab (Z.to_nat (sec_g c)) (fun p =>
    let jm := (IZR (sec_g c - Z.of_nat p) / IZR (sec_m c))%R in
    RtoC (sqrt PI * gamma jm / gamma (jm + / 2))%R).
