(** Model of the choice of integration schemes in the Magma package:
    magma/se_periods/se_help_funcs.m:9-26 and se_spanning_tree.m:156-192, 243-281.

    Real numbers are exact.  Magma's indices start from 1 and those of the model from 0.  An index
    out of range is [Fault OutOfBounds]; a failed assertion, or the least element of no elements,
    is [Abort].  The bounds M, M1, M2 stored with the parameters are not modelled. *)
From Verif Require Import CArg ModelTree ModelPeriod ModelMaTree.
Local Open Scope R_scope.

(** Ceiling *)
Definition ceiling (r : R) : Z := (- Int_part (- r))%Z.
(** Min of a list *)
Definition rmin_list (l : list R) : outcome R :=
  match l with [] => Abort | r :: l => Done (fold_left Rmin l r) end.

Definition append_at (gs : list (list R)) (t : nat) (r : R) : outcome (list (list R)) :=
  do g <- tget gs t; Done (upd gs t (g ++ [r])).

(** se_help_funcs.m:10-24: the group of a number *)
Definition int_group (m : nat) (rm r : R) : nat :=
  let below d := if Rlt_dec r (rm + d) then true else false in
  if (2 <? m)%nat then if below (4 / 10) then 0%nat else 3%nat
  else if below (1 / 10) then 0%nat else if below (2 / 10) then 1%nat else if below (4 / 10) then 2%nat
  else if below (8 / 10) then 3%nat else if below (16 / 10) then 4%nat else 5%nat.
Fixpoint fill_groups (f : R -> nat) (rs : list R) (gs : list (list R)) : outcome (list (list R)) :=
  match rs with
  | [] => Done gs
  | r :: rs => do gs <- append_at gs (f r) r; fill_groups f rs gs
  end.
(** se_help_funcs.m:9-26 *)
Definition int_groups (rs : list R) (rm : R) (m : nat) : outcome (list (list R)) :=
  fill_groups (int_group m rm) rs (repeat [] (if (2 <? m)%nat then 4%nat else 6%nat)).

(** [g(Min) : g in groups | #g gt k] *)
Fixpoint mins_of (k : nat) (f : R -> R) (gs : list (list R)) : outcome (list R) :=
  match gs with
  | [] => Done []
  | g :: gs =>
      if (k <? length g)%nat then do r <- rmin_list g; do rs <- mins_of k f gs; Done (f r :: rs)
      else mins_of k f gs
  end.

(** se_spanning_tree.m:179: the last scheme with a smaller parameter *)
Fixpoint last_below (r : R) (lr : list R) (k : nat) : option nat :=
  match lr with
  | [] => None
  | q :: lr => match last_below r lr (S k) with Some l => Some l | None => if Rlt_dec q r then Some k else None end
  end.
Fixpoint schemes_gj (rs : list R) (lr : list R) : outcome (list nat) :=
  match rs with
  | [] => Done []
  | r :: rs =>
      match last_below r lr 0 with
      | None => Abort
      | Some l => do ls <- schemes_gj rs lr; Done (l :: ls)
      end
  end.
(** se_spanning_tree.m:156-192: parameters of the schemes, and scheme of each edge *)
Definition params_gj (t : sptree) (m : nat) : outcome (list R * list nat) :=
  if Rlt_dec (s_min t - 1) (3 / 1000) then Abort
  else
    let rs := map t_r (s_edges t) in
    let rm := s_min t in
    do gs <- int_groups rs rm m;
    let first := if Rlt_dec rm (1 + 1 / 250) then 1 / 2 * (rm + 1) else rm - 1 / 500 in
    do rest <- mins_of 1 (fun r => r - 1 / 500) (tl gs);
    do ls <- schemes_gj rs (first :: rest);
    Done (first :: rest, ls).

(** se_spanning_tree.m:268-271: going down from scheme l *)
Fixpoint go_down (r : R) (lr : list R) (l : nat) : outcome nat :=
  do q <- tget lr l;
  if Rlt_dec r q then match l with O => Fault OutOfBounds | S l => go_down r lr l end else Done l.
Fixpoint schemes_de (rs : list R) (lr : list R) : outcome (list nat) :=
  match rs with
  | [] => Done []
  | r :: rs => do l <- go_down r lr (length lr - 1); do ls <- schemes_de rs lr; Done (l :: ls)
  end.
(** se_spanning_tree.m:243-281 *)
Definition params_de (t : sptree) : outcome (list R * list nat) :=
  let rs := map t_r (s_edges t) in
  let n := Z.to_nat (Z.max (ceiling (20 * (s_max t - s_min t))) 1) in
  do gs <- fill_groups (fun r => (Z.to_nat (Z.max (ceiling (20 * (r - s_min t))) 1) - 1)%nat) rs (repeat [] n);
  do rest <- mins_of 0 (fun r => 29 / 30 * r) (tl gs);
  let lr := 29 / 30 * s_min t :: rest in
  if Rlt_dec (s_max t) (PI / 2) then
    if Rlt_dec 0 (s_min t) then do ls <- schemes_de rs lr; Done (lr, ls) else Abort
  else Abort.

(** se_spanning_tree.m:449-461 *)
Definition tree_params (sort : list tedge -> list tedge) (ty : itype) (pts : list C) (m : nat) : outcome (sptree * itype * (list R * list nat)) :=
  do res <- spanning_tree_ma sort ty pts;
  let '(t, ty) := res in
  do ps <- (match ty with GJ => params_gj t m | DE => params_de t end);
  Done (t, ty, ps).
