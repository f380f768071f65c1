(** Model of arb/period_matrix.c.  Complex balls are replaced by exact complex
    numbers: the model says which number each ball is meant to enclose. *)
From Verif Require Import CBase ModelCurve ModelBasis.

Definition vec := list C.
Definition cmat := list vec.

(** utils.c, _acb_vec_scalar_addmul and _acb_vec_scalar_addmul_fmpz on the slice
    [off, off+len) : r[k] += x[k] * c *)
Definition addmul_slice (r x : vec) (off len : nat) (c : C) : outcome vec :=
  if ((off + len <=? length r) && (off + len <=? length x))%nat then
    Done (vtab (length r) (fun k =>
      if ((off <=? k) && (k <? off + len))%nat then (vget r k + vget x k * c)%C else vget r k))
  else Fault OutOfBounds.

(** Arb's _acb_vec_unit_roots(z, m, m): z[k] = exp(2 i pi k / m) *)
Definition unit_roots (m : Z) : vec := vtab (Z.to_nat m) (fun k => root m (Z.of_nat k)).

(** period_matrix.c:30-40; j counts the blocks, off is the distance r - res *)
Fixpoint shifted_blocks (ni : list Z) (j : Z) (off : nat) (m j1 l : Z) (coeff : Z)
   (z : vec) (row res : vec) : outcome vec :=
  match ni with
  | [] => Done res
  | n :: ni =>
      let lj := Z.rem ((m - l) * (j1 + j)) m in
      if (lj <? 0) || (Z.of_nat (length z) <=? lj) then Fault OutOfBounds
      else
        let tmp := (vget z (Z.to_nat lj) * ZC coeff)%C in
        do res <- addmul_slice res row off (Z.to_nat n) tmp;
        shifted_blocks ni (j + 1) (off + Z.to_nat n) m j1 l coeff z row res
  end.

(** period_matrix.c:18-42: one term of the loop.  The coefficient is an slong read
    through an fmpz pointer (line 21). *)
Definition periods_term (c : sec) (integrals : cmat) (z : vec) (x : gamma) (res : vec) : outcome vec :=
  if (gindex x <? 0) || (Z.of_nat (length integrals) <=? gindex x) then Fault OutOfBounds
  else
    let row := nth (Z.to_nat (gindex x)) integrals [] in
    do coeff <- slong_as_fmpz (gcoeff x);
    if gshift x =? 0 then addmul_slice res row 0 (Z.to_nat (sec_g c)) (ZC coeff)
    else shifted_blocks (sec_ni c) 0 0 (sec_m c) (sec_j1 c) (gshift x) coeff z row res.

Fixpoint periods_terms (c : sec) (integrals : cmat) (z : vec) (l : list gamma) (res : vec) : outcome vec :=
  match l with
  | [] => Done res
  | x :: l => do res <- periods_term c integrals z x res; periods_terms c integrals z l res
  end.

(** period_matrix.c:9-45: _acb_vec_zero(res, g), then the terms *)
Definition periods_loop (c : sec) (integrals : cmat) (z : vec) (l : list gamma) : outcome vec :=
  periods_terms c integrals z l (vtab (Z.to_nat (sec_g c)) (fun _ => RtoC 0)).

Fixpoint periods_rows (c : sec) (integrals : cmat) (z : vec) (basis : list (list gamma)) : outcome cmat :=
  match basis with
  | [] => Done []
  | l :: basis =>
      do r <- periods_loop c integrals z l;
      do rest <- periods_rows c integrals z basis;
      Done (r :: rest)
  end.

(** acb_mat_transpose on a g x g matrix *)
Definition transpose (g : nat) (a : cmat) : cmat :=
  map (fun i => vtab g (fun k => vget (nth k a []) i)) (seq 0 g).

(** period_matrix.c:47-61; basis has g loops *)
Definition period_matrix (c : sec) (basis : list (list gamma)) (integrals : cmat) : outcome cmat :=
  do rows <- periods_rows c integrals (unit_roots (sec_m c)) basis;
  Done (transpose (Z.to_nat (sec_g c)) rows).
