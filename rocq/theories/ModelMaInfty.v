(** Model of the Abel-Jacobi map of the points at infinity in the Magma package:
    magma/se_periods/se_infty_points.m:15-200.

    Numbers are exact: comparisons with Error are comparisons with zero, no coefficient is dropped, and there is
    no change of precision.  Not modelled: the integrations for M = 1 when the sum of the branch points is not
    zero (lines 56-162), whose results are the argument [good], None if that case does not apply.  The
    coefficients a and b of Xgcd are arguments. *)
From Verif Require Import CArg ModelTree ModelVec ModelPeriod ModelTurn ModelMaInter ModelMaDivisor SpecEdge.
Local Open Scope nat_scope.

(** se_infty_points.m:30-33 *)
Fixpoint make_negative (fuel : nat) (m n a b : Z) : outcome (Z * Z) :=
  match fuel with
  | O => OutOfFuel
  | S fuel => if (0 <=? a)%Z then make_negative fuel m n (a - n)%Z (b + m)%Z else Done (a, b)
  end.

(** se_infty_points.m:166, as a function of t *)
Definition infty_poly (x : list C) (delta M b : nat) (r t : C) : C :=
  (cprod (fun p => RtoC 1 - p * cpow (r + t) b * cpow t M) x - cpow (r + t) delta)%C.
(** se_infty_points.m:177-183 *)
Definition infty_affine (m : nat) (lc : C) (M N : nat) (a b : Z) (r t : C) : C * C :=
  let lrt := clog (r + t)%C in
  let lt := clog t in
  (cexp (- (RtoC (IZR b) * lrt + RtoC (INR M) * lt))%C,
   (cexp (RtoC (IZR a) * lrt - RtoC (INR N) * lt) * cexp (RtoC (1 / INR m) * clog lc))%C).
Definition nonzero (t : C) : bool := if Ceq_dec t (RtoC 0) then false else true.

Section Infty.
(** RootsNonExact, for the polynomial as a function; SE_AbelJacobi of a divisor with the base point of the curve *)
Variable roots : (C -> C) -> list C.
Variable aj : list (point * Z) -> nat -> R.

(** se_infty_points.m:164-197.  Line 170 asks whether 0 is a simple root *)
Definition infty_bad (x : list C) (m : nat) (lc : C) (delta M N : nat) (a b : Z) (sum : nat -> R) (k : nat) : outcome (nat -> R) :=
  let n := length x in
  let r := root (Z.of_nat delta) (Z.of_nat k) in
  let nb := Z.to_nat b in
  let ts := roots (infty_poly x delta M nb r) in
  let deg := length ts in
  if negb ((deg =? n * (M + nb)) || (deg =? (n - 1) * (M + nb))) then Abort
  else
    let ps := filter nonzero ts in
    if S (length ps) <? deg then Abort
    else
      let pts := map (fun t => let p := infty_affine m lc M N a b r t in (PFin (fst p) (snd p), 1%Z)) ps in
      if negb ((length pts =? n * nb + n * M - 1) || (length pts =? n * nb + n * M - nb - M - 1)) then Abort
      else
        let pts := pts ++ (if deg =? (n - 1) * (M + nb) then [(PFin (RtoC 0) (RtoC 0), Z.of_nat (N * m + M + nb))] else []) in
        Done (fun i => round_off (- aj pts i - IZR b * sum i)).

(** the entries of AJM_InftyPoints other than the one asked for *)
Definition others {A} (k : nat) (l : list A) : list A := firstn (k - 1) l ++ skipn k l.
Definition all_defined (l : list (option (nat -> R))) : bool := forallb (fun o => match o with Some _ => true | None => false end) l.
Definition total_of (l : list (option (nat -> R))) (i : nat) : R :=
  fold_right (fun o s => match o with Some v => v i + s | None => s end)%R 0%R l.

(** se_infty_points.m:15-200: the list AJM_InftyPoints, k counted from 1 *)
Definition infty_point (x : list C) (m : nat) (lc : C) (delta : nat) (a0 b0 : Z) (good : option (list (nat -> R))) (sum : nat -> R)
  (k : nat) (l : list (option (nat -> R))) : outcome (list (option (nat -> R))) :=
  let n := length x in
  if negb ((1 <=? k) && (k <=? delta)) then Abort
  else match nth (k - 1) l None with
  | Some _ => Done l
  | None =>
      if delta =? 1 then Done [Some sum]
      else if all_defined (others k l) then Done (upd l (k - 1) (Some (fun i => round_off (sum i - total_of (others k l) i)%R)))
      else
        do ab <- make_negative (Z.to_nat a0 + 2) (Z.of_nat m) (Z.of_nat n) a0 b0;
        if negb ((fst ab * Z.of_nat m + snd ab * Z.of_nat n =? Z.of_nat delta)%Z) then Abort
        else
          let M := m / delta in
          let N := n / delta in
          match (if M =? 1 then good else None) with
          | Some vs => Done (map Some vs)
          | None => do v <- infty_bad x m lc delta M N (fst ab) (snd ab) sum k; Done (upd l (k - 1) (Some v))
          end
  end.
End Infty.

(** two calls for a curve with two points at infinity, none of which has been asked for before:
    se_infty_points.m:15-200 *)
Definition twice (roots : (C -> C) -> list C) (aj : list (point * Z) -> nat -> R) (x : list C) (m : nat) (lc : C) (a0 b0 : Z)
  (good : option (list (nat -> R))) (sum : nat -> R) (k1 k2 : nat) : outcome (list (option (nat -> R))) :=
  do l <- infty_point roots aj x m lc 2 a0 b0 good sum k1 [None; None];
  infty_point roots aj x m lc 2 a0 b0 good sum k2 l.
