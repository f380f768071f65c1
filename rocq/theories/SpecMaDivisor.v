(** Specification for divisors and their Abel-Jacobi map *)
From Verif Require Import CArg ModelMaPoint ModelMaDivisor.
Local Open Scope R_scope.

(** the sum of the multiplicities *)
Fixpoint degree_of (s : list (point * Z)) : Z := match s with [] => 0%Z | (_, v) :: s => (v + degree_of s)%Z end.
(** linear extension of a map on points *)
Fixpoint extend (phi : point -> R) (s : list (point * Z)) : R :=
  match s with [] => 0 | (p, v) :: s => IZR v * phi p + extend phi s end.

(** coordinates of a vector of integrals in the period lattice, from the curve's reduction matrix: real
    parts, then imaginary parts, of the change matrix times the vector *)
Definition coords (g : nat) (a : aj_data) (v : nat -> C) (i : nat) : R :=
  let w j := csum g (fun k => aj_dcm a j k * v k)%C in
  rsum_to (2 * g) (fun k => aj_red a i k * (if (k <? g)%nat then fst (w k) else snd (w (k - g)%nat))).

(** x is closer to the branch point number j than to the others *)
Definition next_to (pts : list C) (x : C) (j : nat) (p : C) : Prop :=
  nth_error pts j = Some p /\ forall k q, nth_error pts k = Some q -> k <> j -> Cmod (x - p)%C < Cmod (x - q)%C.

(** phi gives the value of each point: for those at infinity the values of the curve; for the others the
    value of the next branch point, and if they are further away than the error also the integral from it *)
Definition point_values (integ : C -> C -> nat -> nat -> C) (inf : Z -> nat -> R) (c : se_curve) (a : aj_data)
  (phi : nat -> point -> R) : Prop :=
  (forall i k, phi i (PInf k) = inf k i) /\
  (forall i x y j p r, next_to (sc_pts c) x j p -> nth_error (aj_ram a) j = Some r ->
    phi i (PFin x y) = r i + (if Rlt_dec (sc_error c) (Cmod (x - p)%C) then coords (sc_g c) a (integ x y j) i else 0)).

Definition integer (x : R) : Prop := exists z, x = IZR z.

(** a divisor of degree zero on the curve *)
Definition zero_divisor_on (c : se_curve) (d : divisor) : Prop :=
  d_curve d = curve_key c /\ d_deg d = 0%Z /\ forall k v, In (PInf k, v) (d_supp d) -> (1 <= k <= sc_delta c)%Z.
Definition complete (c : se_curve) (a : aj_data) : Prop := sc_pts c <> [] /\ length (aj_ram a) = length (sc_pts c).

(** the value r of the map, of 2g numbers between -1/2 and 1/2, is s up to integers *)
Definition value_is (g : nat) (r : list R) (s : nat -> R) : Prop :=
  length r = (2 * g)%nat /\ forall i, (i < 2 * g)%nat -> Rabs (nth i r 0) <= / 2 /\ integer (nth i r 0 - s i).

(** a divisor whose degree is that of its points *)
Definition sound (d : divisor) : Prop :=
  d_deg d = degree_of (d_supp d) /\ d_supp d <> [] /\ forall p v, In (p, v) (d_supp d) -> v <> 0%Z.
