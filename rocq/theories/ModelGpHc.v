(** Model of the Abel-Jacobi map of gp/periods.gp: choose_integration_path, hcModABlattice, hcAbelJacobi.

    Numbers are exact; frac(x) = x - floor(x).  Indices start from 0 (from 1 in the code).  The values of
    tau_3, the integrals to the branch points and the stored images of the branch points are parameters.
    The variable besti without a value is a fault.  Messages are left out. *)
From Verif Require Import CArg.
Local Open Scope R_scope.

(** sum of f(0), ..., f(n-1) *)
Fixpoint lsum (n : nat) (f : nat -> R) : R := match n with O => 0 | S n => lsum n f + f n end.

(** periods.gp:808-812: the value of branch point i among n, from the first cnt of them *)
Fixpoint path_value (t3 : nat -> nat -> R) (i cnt : nat) : R :=
  match cnt with
  | O => 4
  | S cnt => if (cnt =? i)%nat then path_value t3 i cnt else Rmin (path_value t3 i cnt) (t3 i cnt)
  end.
(** periods.gp:807-818, the loop from i on; [best] is besti with besttau *)
Fixpoint path_loop (t3 : nat -> nat -> R) (n : nat) (tau : R) (todo i : nat) (bi : option nat) (bt : R) : outcome nat :=
  match todo with
  | O => match bi with Some b => Done b | None => Fault BadIndex end
  | S todo =>
      let v := path_value t3 i n in
      let '(bi, bt) := if Rlt_dec bt v then (Some i, v) else (bi, bt) in
      if Rlt_dec tau bt then match bi with Some b => Done b | None => Fault BadIndex end
      else path_loop t3 n tau todo (S i) bi bt
  end.
(** periods.gp:803-823 *)
Definition choose_integration_path (t3 : nat -> nat -> R) (n : nat) (tau : R) : outcome nat := path_loop t3 n tau n 0 None 0.

(** concat(real(z), imag(z)) *)
Definition real_coords (g : nat) (z : nat -> C) (l : nat) : R := if (l <? g)%nat then fst (z l) else snd (z (l - g)%nat).
(** periods.gp:824-830; [P] is C[iReduce] *)
Definition hcModABlattice (g : nat) (P : nat -> nat -> R) (z : nat -> C) (i : nat) : R :=
  frac_part (lsum (2 * g) (fun l => P i l * real_coords g z l)).

(** periods.gp:849-853: the first branch point with this x *)
Fixpoint find_root (A : list C) (x : C) : option nat :=
  match A with [] => None | a :: A => if Ceq_dec x a then Some O else option_map S (find_root A x) end.
(** periods.gp:838-859 for p = [x_p, y_p]; [int i] is int_AbelJacobi_affinereduction(C,i,x_p,y_p), [W i] column i of C[iAJRoots] *)
Definition hcAbelJacobi (A : list C) (g : nat) (t3 : nat -> nat -> R) (tau : R) (P : nat -> nat -> R)
  (int : nat -> outcome (nat -> C)) (W : nat -> nat -> R) (x : C) : outcome (nat -> R) :=
  match find_root A x with
  | Some i => Done (W i)
  | None =>
      do i <- choose_integration_path t3 (length A) tau;
      do z <- int i;
      Done (fun j => frac_part (hcModABlattice g P z j + W i j))
  end.

(** periods.gp:432-441: the y of a point given by its x; [each] is flag = 0, a root of each factor, and its negation is flag = 1
    (other flags return nothing and are not modelled) *)
Definition hcUpperSheet (A : list C) (x : C) (each : bool) : C :=
  if each then fold_right (fun a r => (croot 2 (x - a) * r)%C) (RtoC 1) A
  else croot 2 (fold_right (fun a r => ((x - a) * r)%C) (RtoC 1) A).
(** periods.gp:1277-1284, in hcInit: the real matrix whose inverse is stored; a row and a column below 2g *)
Definition period_rows (g : nat) (Omega0 Omega1 : nat -> nat -> C) (l j : nat) : R :=
  let z := if (j <? g)%nat then Omega0 (if (l <? g)%nat then l else l - g)%nat j else Omega1 (if (l <? g)%nat then l else l - g)%nat (j - g)%nat in
  if (l <? g)%nat then fst z else snd z.
