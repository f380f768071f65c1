(** Specification vocabulary for the symplectic reduction. *)
From Verif Require Import Base ModelSymp.

(** Contract of FLINT's fmpz_xgcd: g is the non-negative gcd and u a + v b = g. *)
Definition xgcd_ok (xgcd : Z -> Z -> Z * Z * Z) : Prop :=
  forall a b, let '(g, u, v) := xgcd a b in g = Z.gcd a b /\ u * a + v * b = g.

(** r x r matrix *)
Definition square (r : nat) (m : mat) : Prop :=
  length m = r /\ forall row, In row m -> length row = r.

Definition antisymmetric (r : nat) (m : mat) : Prop :=
  forall i j, (i < r)%nat -> (j < r)%nat -> get m i j = - get m j i.

(** M' = P * M * transpose P *)
Definition congruent (r : nat) (p m m' : mat) : Prop :=
  forall i j, (i < r)%nat -> (j < r)%nat ->
    get m' i j = zsum r (fun k => zsum r (fun l => get p i k * get m k l * get p j l)).

Definition delta (i j : nat) : Z := if (i =? j)%nat then 1 else 0.

(** P has a two-sided inverse with integer entries *)
Definition unimodular (r : nat) (p : mat) : Prop :=
  exists q : mat, square r q /\
    forall i j, (i < r)%nat -> (j < r)%nat ->
      zsum r (fun k => get p i k * get q k j) = delta i j /\
      zsum r (fun k => get q i k * get p k j) = delta i j.

(** rows 0 .. 2g-1 are blocks [0,d;-d,0] with d <> 0 (and hence, the matrix being
    antisymmetric, so are the columns) *)
Definition block_rows (r g : nat) (m : mat) : Prop :=
  forall e, (e < g)%nat ->
    get m (2 * e) (2 * e + 1) <> 0 /\
    get m (2 * e + 1) (2 * e) = - get m (2 * e) (2 * e + 1) /\
    (forall j, (j < r)%nat -> j <> (2 * e + 1)%nat -> get m (2 * e) j = 0) /\
    (forall j, (j < r)%nat -> j <> (2 * e)%nat -> get m (2 * e + 1) j = 0).

(** m has (at least) k rows without linear relation, i.e. rank >= k *)
Definition independent_rows (r k : nat) (m : mat) : Prop :=
  exists idx : nat -> nat, (forall a, (a < k)%nat -> (idx a < r)%nat) /\
    forall c : nat -> Z,
      (forall j, (j < r)%nat -> zsum k (fun a => c a * get m (idx a) j) = 0) ->
      forall a, (a < k)%nat -> c a = 0.

(** m N m = m for some integer matrix N: the elementary divisors of m are 0 or 1,
    i.e. the form is unimodular modulo its radical. *)
Definition saturated (r : nat) (m : mat) : Prop :=
  exists n : mat, forall a b, (a < r)%nat -> (b < r)%nat ->
    zsum r (fun k => zsum r (fun l => get m a k * get n k l * get m l b)) = get m a b.

(** rows 0 .. 2g-1 are g blocks [0,1;-1,0] on the diagonal *)
Definition canonical (r g : nat) (m : mat) : Prop :=
  forall e, (e < g)%nat ->
    get m (2 * e) (2 * e + 1) = 1 /\
    get m (2 * e + 1) (2 * e) = -1 /\
    (forall j, (j < r)%nat -> j <> (2 * e + 1)%nat -> get m (2 * e) j = 0) /\
    (forall j, (j < r)%nat -> j <> (2 * e)%nat -> get m (2 * e + 1) j = 0).
