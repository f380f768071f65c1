(** Model of the Abel-Jacobi map of the ramification points in the Magma package:
    magma/se_periods/se_abel_jacobi.m:104-127.

    Numbers are exact.  BestApproximation and Xgcd are Magma's own: the first is a parameter, the coefficient
    of the second an argument. *)
From Verif Require Import CArg ModelTree ModelVec ModelPeriod ModelSymp ModelMaTree ModelMaInter ModelMaPath ModelMaDivisor ModelMaPeriod.
Local Open Scope nat_scope.

(** se_abel_jacobi.m:113-117, component i *)
Definition ram_vector (row : list Z) (elem : list vec) (i : nat) : C := path_integral row (map (fun e => vget e i) elem).
(** the attribute ReductionMatrix *)
Definition red_data (rd : list (list R)) : aj_data := {| aj_ram := []; aj_red := fun i k => nth k (nth i rd []) 0%R; aj_dcm := fun _ _ => RtoC 0 |}.
(** se_abel_jacobi.m:111-121 *)
Definition ram_points (best : nat -> R -> R) (m g : nat) (rd : list (list R)) (tm : list (list Z)) (elem : list vec) : list (nat -> R) :=
  map (fun row k => best m (lattice_reduction g (red_data rd) (ram_vector row elem) k)) tm.
(** se_abel_jacobi.m:125-126 *)
Definition sum_of_infty (b : Z) (ram : list (nat -> R)) (k : nat) : R := round_off (IZR b * fold_right Rplus 0%R (map (fun v => v k) ram)).

(** se_period_matrix.m:50-199, then se_abel_jacobi.m:48-79 and 111-121 *)
Definition se_ramification rank inv rinv best (sort : list tedge -> list tedge) (choose : sptree * itype -> list nat * list scheme)
  (o : option_type) (p x : vec) (m : nat) (lc : C) (small : bool) (err : R) (base : nat) : outcome (periods * list (list Z) * list (nat -> R)) :=
  do r <- se_curve_periods rank inv rinv sort choose o p x m lc small true err;
  do t <- spanning_tree_ma sort (chosen_type m o) p;
  do tm <- tree_matrix (length x) base (s_edges (fst t));
  match p_red r with
  | Some rd => Done (r, tm, ram_points best m (length (p_big r)) rd tm (p_elem r))
  | None => Abort
  end.
