(** Model of the integration of gp/gcperiods.gp: sqrt_affinereduction_gc, integrals_gc, ab_points_gc,
    polshift, integrals_edge_gc.

    Numbers are exact; sqrt is the principal square root.  Indices start from 0 (from 1 in the code).  A
    division by zero is [Abort].  The number of points n = gc_n(u) is a parameter.  Messages are left
    out. *)
From Verif Require Import CArg ModelTree.

(** gcperiods.gp:28-33, with flag = 1 as set in line 31: the branch in lines 34-52 is never taken *)
Definition gp_root_factor (z p : C) : C :=
  (if Rlt_dec 0 (fst p) then Ci * croot 2 (p - z) else croot 2 (z - p))%C.
Definition sqrt_affinereduction_gc (u : list C) (z : C) : C := fold_right (fun p r => (gp_root_factor z p * r)%C) (RtoC 1) u.

(** gcperiods.gp:62-63: add t, t x, t x^2, ... *)
Fixpoint add_powers (res : list C) (t x : C) : list C :=
  match res with [] => [] | r :: res => (r + t)%C :: add_powers res (t * x)%C x end.
(** gcperiods.gp:59-64: the points number k, k+1, ... *)
Fixpoint gc_points (u : list C) (n todo k : nat) (res : list C) : outcome (list C) :=
  match todo with
  | O => Done res
  | S todo =>
      let x := RtoC (cos ((2 * INR k + 1) * PI / (2 * INR n))) in
      let y := sqrt_affinereduction_gc u x in
      if Ceq_dec y (RtoC 0) then Abort else gc_points u n todo (S k) (add_powers res (RtoC 1 / y)%C x)
  end.
(** gcperiods.gp:57-66 *)
Definition integrals_gc (u : list C) (g n : nat) : outcome (list C) :=
  do res <- gc_points u n n 0 (repeat (RtoC 0) g);
  Done (map (fun r => (r * RtoC PI / RtoC (INR n))%C) res).

(** gcperiods.gp:68-73 *)
Definition ab_points_gc (A : list C) (ia ib : nat) : list C :=
  let a := vget A ia in let b := vget A ib in
  map (fun i => ((RtoC 2 * vget A i - a - b) / (b - a))%C) (filter (fun i => negb ((i =? ia) || (i =? ib))%nat) (seq 0 (length A))).

(** gcperiods.gp:74, polshift: the inner loop, j = i + cnt - 1, ..., i *)
Fixpoint shift_down (c : C) (i cnt : nat) (v : nat -> C) : nat -> C :=
  match cnt with
  | O => v
  | S cnt => let j := (i + cnt)%nat in shift_down c i cnt (fun l => if (l =? j)%nat then (v j + c * v (j - 1)%nat)%C else v l)
  end.
Definition polshift (len : nat) (v : nat -> C) (c : C) : nat -> C :=
  fold_left (fun v i => shift_down c i (len - i) v) (seq 1 (len - 1)) v.

(** gcperiods.gp:75-98; [i1] and [i2] are the numbers of the ends *)
Definition integrals_edge_gc (A : list C) (g n i1 i2 : nat) : outcome ((nat -> C) * C * C) :=
  let a := vget A i1 in let b := vget A i2 in
  if Ceq_dec (b - a)%C (RtoC 0) then Abort else
  let u := ab_points_gc A i1 i2 in
  do res <- integrals_gc u g n;
  let c := ((b + a) / (b - a))%C in
  let shifted := polshift g (vget res) c in
  let geom := ((b - a) / RtoC 2)%C in
  let s := cpow (croot 2 geom) (length u) in
  let fact := (Ci / s)%C in
  Done (fun j => (shifted j * (fact * cpow geom j))%C,
        (sqrt_affinereduction_gc u (RtoC (-1)) * s / geom)%C,
        (sqrt_affinereduction_gc u (RtoC 1) * s / geom)%C).
