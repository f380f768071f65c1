(** Model of the analytic continuation in the Magma package:
    magma/se_periods/se_anal_cont.m:8-67, and the data of an edge it reads,
    se_help_funcs.m:29-40, se_spanning_tree.m:59-100 and se_curve.m:287.

    Complex numbers are exact; Sqrt, Log, Exp and Arg are the principal ones.
    Magma's indices start from 1 and those of the model from 0.  An index out of
    range is [Fault OutOfBounds], a division by zero [Abort]. *)
From Verif Require Import CArg ModelTree ModelVec ModelPeriod ModelTurn.
Local Open Scope nat_scope.

(** se_anal_cont.m:8-14 *)
Definition im_sgn (z : C) : Z :=
  if Req_EM_T (snd z) 0 then 1%Z else if Rlt_dec 0 (snd z) then 1%Z else (-1)%Z.

(** se_help_funcs.m:29-40 *)
Definition sort_step (acc : list C * nat) (z : C) : list C * nat :=
  let '(o, up) := acc in
  if Rle_dec (fst z) 0 then (o ++ [z], up) else (z :: o, S up).
Definition sort_by_real_part (v : list C) : list C * nat :=
  fold_left sort_step v ([], 0).

(** se_curve.m:287 *)
Definition zetas (m : nat) : vec := map (fun k => cis (INR k * PI / INR m)) (seq 0 (2 * m)).

(** se_spanning_tree.m:24-32, the attributes that are read here *)
Record se_edge := { e_data : list C; e_up : nat; e_isgn : list Z }.

Definition sread (l : list Z) (i : nat) : outcome Z :=
  match nth_error l i with Some s => Done s | None => Fault OutOfBounds end.

(** se_anal_cont.m:19-23 and 26-30 *)
Definition ac_factor (e : se_edge) (k : nat) (x : R) : outcome C :=
  do p <- vread (e_data e) k;
  Done (if k <? e_up e then (p - RtoC x)%C else (RtoC x - p)%C).

(** se_anal_cont.m:25-43, [todo] steps from k *)
Fixpoint ac_loop (e : se_edge) (x : R) (todo k : nat) (z : C) (isgnz w : Z) : outcome (C * Z) :=
  match todo with
  | O => Done (z, w)
  | S todo =>
      do t <- ac_factor e k x;
      let z := (z * t)%C in
      do s <- sread (e_isgn e) k;
      let isgnz' := im_sgn z in
      let w := if (isgnz =? s)%Z && negb (isgnz' =? s)%Z then (if (s =? 1)%Z then w + 2 else w - 2)%Z else w in
      ac_loop e x todo (S k) z isgnz' w
  end.

(** se_anal_cont.m:16-53; [ze] is the list Zetas, n the number of points *)
Definition ac_mth_root (x : R) (e : se_edge) (ze : vec) (m n : nat) : outcome C :=
  do z <- ac_factor e 0 x;
  do s <- sread (e_isgn e) 0;
  do zw <- ac_loop e x (n - 1) 1 z s 0;
  let '(z, w) := zw in
  let neg := if Req_EM_T (snd z) 0 then (if Rlt_dec (fst z) 0 then true else false) else false in
  let z := if neg then (- z)%C else z in
  let w := if neg then (w + 1)%Z else w in
  if m =? 2 then
    do r <- vread ze (Z.to_nat (w mod 4)); Done (r * croot 2 z)%C
  else
    do r <- vread ze (Z.to_nat (w mod (2 * Z.of_nat m))); Done (r * cexp (clog z / RtoC (INR m)))%C.

(** se_anal_cont.m:54-67 *)
Definition ac_mth_root2 (x : R) (e : se_edge) (m n : nat) : outcome C :=
  (fix go (todo k : nat) (z : C) : outcome C :=
    match todo with
    | O => Done (cexp (z / RtoC (INR m))%C)
    | S todo => do t <- ac_factor e k x; go todo (S k) (z + clog t)%C
    end) n 0 (RtoC 0).

(** Magma's Remove *)
Definition remove_at (l : list C) (i : nat) : list C := firstn i l ++ skipn (S i) l.

(** se_spanning_tree.m:68-70 and 86-88: points in the coordinate of the edge, sorted, with
    their signs; the bound n-2 (or n-1) of the lists of signs is the number of points *)
Definition sorted_points (pts : list C) (a b : C) : list C * nat * list Z :=
  let bpa := (b + a)%C in
  let bmainv := (RtoC 1 / (b - a))%C in
  let '(ccv, up) := sort_by_real_part (map (fun x => ((RtoC 2 * x - bpa) * bmainv)%C) pts) in
  (ccv, up, map im_sgn (firstn up ccv) ++ map (fun z => (- im_sgn z)%Z) (skipn up ccv)).

(** se_spanning_tree.m:73-78 *)
Definition c_ab (bma : C) (up m n : nat) (ze : vec) : outcome C :=
  do z <- vread ze ((up + 1) mod 2);
  let q := RtoC (INR n / INR m) in
  let real_negative := if Req_EM_T (snd bma) 0 then (if Rlt_dec (fst bma) 0 then true else false) else false in
  Done (if real_negative then (cexp (q * (clog (- bma) + (0%R, PI))) * z)%C
        else (cexp (q * clog bma) * z)%C).

(** se_spanning_tree.m:59-82: edge between two branch points *)
Definition edge_data (points : list C) (ze : vec) (m n i j : nat) : outcome se_edge :=
  do a <- vread points i;
  do b <- vread points j;
  let pts := if i <? j then remove_at (remove_at points i) (j - 1)
             else remove_at (remove_at points j) (i - 1) in
  let bma := (b - a)%C in
  if Req_EM_T (Cmod bma) 0 then Abort
  else
    let '(ccv, up, isgn) := sorted_points pts a b in
    do c <- c_ab bma up m n ze;
    Done {| e_data := ccv ++ [(bma / RtoC 2)%C; ((b + a) / bma)%C; c]; e_up := up; e_isgn := isgn |}.

(** se_spanning_tree.m:83-92: edge from a branch point to the point of abscissa b *)
Definition edge_data_to (points : list C) (i : nat) (b : C) : outcome se_edge :=
  do a <- vread points i;
  let pts := remove_at points i in
  let bma := (b - a)%C in
  if Req_EM_T (Cmod bma) 0 then Abort
  else
    let '(ccv, up, isgn) := sorted_points pts a b in
    Done {| e_data := ccv ++ [(bma / RtoC 2)%C; ((b + a) / bma)%C]; e_up := up; e_isgn := isgn |}.
