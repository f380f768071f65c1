(** Model of AJWeierstrass of gp/periods.gp: the images of the Weierstrass points under the
    Abel-Jacobi map, as vectors of coordinates in a basis of the homology.

    Coordinates are in units of 1/2, so they are integers here.  Points and edges are numbered from 0
    (from 1 in the code).  [M r v] is row r and column v. *)
From Verif Require Import Base.

(** gp/periods.gp:972-985, the loop over the edges of the tree; [i] is the number of the first edge of
    [tree].  The number of edges is 2g, the number of rows. *)
Fixpoint aj_loop (i : nat) (tree : list (nat * nat)) (taken : nat -> bool) (M : nat -> nat -> Z) : nat -> nat -> Z :=
  match tree with
  | [] => M
  | (a, b) :: tree =>
      let '(s, e) := if taken a then (a, b) else (b, a) in
      aj_loop (S i) tree (fun v => if (v =? e)%nat then true else taken v)
        (fun r v => if (v =? e)%nat then (if (r =? i)%nat then 1 else M r s) else M r v)
  end.

(** gp/periods.gp:966-993, AJWeierstrass(C,1): coordinates in the basis of the loops around the edges.
    [p0] is C[iP0].  tree[1] of an empty tree is an error. *)
Definition aj_loops (tree : list (nat * nat)) (p0 : nat) : outcome (nat -> nat -> Z) :=
  match tree with
  | [] => Fault OutOfBounds
  | (a, _) :: _ =>
      let M := aj_loop 0 tree (fun v => (v =? a)%nat) (fun _ _ => 0) in
      Done (fun r v => M r v - M r p0)
  end.

(** gp/periods.gp:995-996, AJWeierstrass(C): coordinates in the symplectic basis.  [Q] is ABtoC^(-1), an
    integral matrix with N = 2g rows; frac of a half integer is 0 or 1/2. *)
Definition AJWeierstrass (N : nat) (Q : nat -> nat -> Z) (tree : list (nat * nat)) (p0 : nat) : outcome (nat -> nat -> Z) :=
  do M <- aj_loops tree p0 ;
  Done (fun l v => zsum N (fun r => Q l r * M r v) mod 2).
