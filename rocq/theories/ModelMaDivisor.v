(** Model of the divisors of the Magma package and of their Abel-Jacobi map:
    magma/se_periods/se_curve.m:412-477 and se_abel_jacobi.m:17-25, 130-247.

    A divisor is an object: a variable holds a reference to it, so that a function can change the
    divisor of its caller.  The objects are a list, the heap; a reference is a position in it.
    Not modelled: the precision of the fields, the choice of the integration scheme, and the integrals
    themselves, which are the parameter [integ] (one vector for a point and the branch point next to it);
    [inf] gives the vectors AJM_InftyPoints.  Rational and real matrices with one column are functions of
    the row. *)
From Verif Require Import CArg ModelTree ModelVec ModelPeriod ModelMaRoot ModelMaInter ModelMaPoint.
Local Open Scope R_scope.

(** se_curve.m:438-463: the point of a divisor as the caller gives it, a sequence of one, two, three or
    another number of coordinates *)
Inductive raw_point := RInf (k : Z) | RAff (x y : C) | RProj (x y z : C) | ROther.
(** the point as it is stored *)
Inductive point := PInf (k : Z) | PFin (x y : C).

(** se_curve.m:415 *)
Record divisor := { d_curve : nat * list C; d_supp : list (point * Z); d_deg : Z }.
Definition heap := list divisor.

(** se_curve.m:423 *)
Definition curve_key (c : se_curve) : nat * list C := (sc_m c, sc_f c).
(** equality of such pairs *)
Definition same_curve (a b : nat * list C) : bool :=
  (fst a =? fst b)%nat && (if list_eq_dec Ceq_dec (snd a) (snd b) then true else false).

(** se_curve.m:443-449, 454-460 *)
Definition store_finite (c : se_curve) (check : bool) (x y : C) (v : Z) : outcome (point * Z) :=
  do ok <- (if check then is_point c x y (point_error c) else Done true);
  if ok : bool then Done (PFin x y, v) else Abort.
(** se_curve.m:437-463; multiplicities are integers here, line 437 also checks that *)
Definition store_point (c : se_curve) (check : bool) (p : raw_point * Z) : outcome (point * Z) :=
  let '(p, v) := p in
  if (v =? 0)%Z then Abort
  else match p with
  | RInf k => if ((1 <=? k) && (k <=? sc_delta c))%Z then Done (PInf k, v) else Abort
  | RAff x y => store_finite c check x y v
  | RProj x y z => if Ceq_dec z (RtoC 0) then Abort else store_finite c check (x / z)%C (y / z)%C v
  | ROther => Abort
  end.
(** se_curve.m:435-465 *)
Fixpoint store_points (c : se_curve) (check : bool) (l : list (raw_point * Z)) : outcome (list (point * Z)) :=
  match l with
  | [] => Done []
  | p :: l => do q <- store_point c check p; do r <- store_points c check l; Done (q :: r)
  end.
(** se_curve.m:418-467: a new object; the sum of an empty sequence is an error (line 422) *)
Definition new_divisor (h : heap) (c : se_curve) (check : bool) (l : list (raw_point * Z)) : outcome (heap * nat) :=
  match l with
  | [] => Abort
  | _ :: _ =>
      do s <- store_points c check l;
      Done (h ++ [{| d_curve := curve_key c; d_supp := s; d_deg := fold_right Z.add 0%Z (map snd l) |}], length h)
  end.

(** se_curve.m:471-477 *)
Definition add_divisors (h : heap) (i j : nat) : outcome (heap * nat) :=
  do d1 <- tget h i;
  do d2 <- tget h j;
  if same_curve (d_curve d1) (d_curve d2) then
    Done (upd h i {| d_curve := d_curve d1; d_supp := d_supp d1 ++ d_supp d2; d_deg := d_deg d1 + d_deg d2 |}, i)
  else Abort.

(** What SE_AbelJacobi reads in the curve besides: AJM_RamificationPoints, ReductionMatrix and
    DifferentialChangeMatrix *)
Record aj_data := { aj_ram : list (nat -> R); aj_red : nat -> nat -> R; aj_dcm : nat -> nat -> C }.

Section Map.
Variable integ : C -> C -> nat -> nat -> C.
Variable inf : Z -> nat -> R.

(** se_abel_jacobi.m:161-184: rational and real integrals and the edges still to integrate *)
Fixpoint sort_points (c : se_curve) (a : aj_data) (s : list (point * Z)) (rat real : nat -> R) (edges : list (C * C * nat * Z))
  : outcome ((nat -> R) * (nat -> R) * list (C * C * nat * Z)) :=
  match s with
  | [] => Done (rat, real, edges)
  | (PInf k, v) :: s =>
      if negb ((1 <=? k) && (k <=? sc_delta c))%Z then Abort
      else if (sc_delta c =? 1)%Z then sort_points c a s (fun i => rat i + IZR v * inf 1 i) real edges
      else sort_points c a s rat (fun i => real i + IZR v * inf k i) edges
  | (PFin x y, v) :: s =>
      do di <- distance x (sc_pts c);
      do r <- tget (aj_ram a) (snd di);
      let edges := if Rlt_dec (sc_error c) (fst di) then edges ++ [(x, y, snd di, v)] else edges in
      sort_points c a s (fun i => rat i + IZR v * r i) real edges
  end.

Definition round_off (x : R) : R := x - IZR (round_near x).
(** a sum over the columns *)
Fixpoint rsum_to (n : nat) (f : nat -> R) : R := match n with O => 0 | S k => rsum_to k f + f k end.
(** se_abel_jacobi.m:17-25 *)
Definition lattice_reduction (g : nat) (a : aj_data) (v : nat -> C) (i : nat) : R :=
  let w k := if (k <? g)%nat then fst (v k) else snd (v (k - g)%nat) in
  round_off (rsum_to (2 * g) (fun k => aj_red a i k * w k)).

(** se_abel_jacobi.m:216-234 *)
Definition edge_integrals (edges : list (C * C * nat * Z)) (j : nat) : C :=
  fold_left (fun s e => let '(x, y, k, v) := e in (s + RtoC (IZR v) * integ x y k j)%C) edges (RtoC 0).

(** se_abel_jacobi.m:149-247 *)
Definition abel_jacobi (c : se_curve) (a : aj_data) (d : divisor) : outcome (list R) :=
  if negb (same_curve (d_curve d) (curve_key c)) then Abort
  else if negb (d_deg d =? 0)%Z then Abort
  else
    do r <- sort_points c a (d_supp d) (fun _ => 0) (fun _ => 0) [];
    let '(rat, real, edges) := r in
    let g := sc_g c in
    match edges with
    | [] => Done (map (fun i => round_off (real i + rat i)) (seq 0 (2 * g)))
    | _ :: _ =>
        let ci := edge_integrals edges in
        let ci j := csum g (fun k => aj_dcm a j k * ci k)%C in
        Done (map (fun i => round_off (lattice_reduction g a ci i + (rat i + real i))) (seq 0 (2 * g)))
    end.

(** se_abel_jacobi.m:149-247 for a reference *)
Definition aj_zero (h : heap) (c : se_curve) (a : aj_data) (i : nat) : outcome (list R) :=
  do d <- tget h i; abel_jacobi c a d.
(** se_abel_jacobi.m:137-146 *)
Definition aj_base (h : heap) (c : se_curve) (a : aj_data) (i : nat) (p0 : raw_point) : outcome (heap * list R) :=
  do d <- tget h i;
  if negb (d_deg d =? 0)%Z then
    do hj <- new_divisor h c true [(p0, (- d_deg d)%Z)];
    do hi <- add_divisors (fst hj) i (snd hj);
    do r <- aj_zero (fst hi) c a (snd hi);
    Done (fst hi, r)
  else
    do r <- aj_zero h c a i;
    Done (h, r).
(** se_abel_jacobi.m:130-134 *)
Definition aj_points (h : heap) (c : se_curve) (a : aj_data) (p q : raw_point) : outcome (heap * list R) :=
  do hj <- new_divisor h c true [(q, 1%Z); (p, (-1)%Z)];
  do r <- aj_zero (fst hj) c a (snd hj);
  Done (fst hj, r).
End Map.

(** A session: the calls a user makes, one after the other, each on references obtained before *)
Inductive call :=
  | New (c : se_curve) (check : bool) (l : list (raw_point * Z))
  | Add (i j : nat)
  | AjBase (c : se_curve) (a : aj_data) (i : nat) (p0 : raw_point)
  | AjPoints (c : se_curve) (a : aj_data) (p q : raw_point).
(** The heap after a call.  A call that fails leaves what was done before: the test of '+' is its first
    line, and in line 141 of se_abel_jacobi.m the sum is computed before SE_AbelJacobi can fail *)
Definition heap_after (h : heap) (k : call) : heap :=
  match k with
  | New c check l => match new_divisor h c check l with Done (h, _) => h | _ => h end
  | Add i j => match add_divisors h i j with Done (h, _) => h | _ => h end
  | AjBase c _ i p0 =>
      match (do d <- tget h i;
             if negb (d_deg d =? 0)%Z then
               do hj <- new_divisor h c true [(p0, (- d_deg d)%Z)]; add_divisors (fst hj) i (snd hj)
             else Done (h, i)) with Done (h, _) => h | _ => h end
  | AjPoints c _ p q => match new_divisor h c true [(q, 1%Z); (p, (-1)%Z)] with Done (h, _) => h | _ => h end
  end.
