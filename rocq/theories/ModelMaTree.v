(** Model of the spanning tree of the Magma package:
    magma/se_periods/se_spanning_tree.m:44-57, 97-137 and 353-463,
    for the edges between branch points.

    Real numbers are exact.  Magma's indices start from 1 and those of the model from 0.  An index
    out of range is [Fault OutOfBounds], a failed assertion [Abort]. *)
From Verif Require Import CArg ModelTree ModelPeriod ModelDeq.
Local Open Scope R_scope.

(** se_spanning_tree.m:24-32, the attributes EP and r *)
Record tedge := { t_a : nat; t_b : nat; t_r : R }.

(** se_spanning_tree.m:102-108 *)
Definition compare_edge (e f : tedge) : Z := if Rle_dec (t_r e) (t_r f) then 1%Z else (-1)%Z.

(** se_spanning_tree.m:97-99 *)
Definition flip_edge (e : tedge) : tedge := {| t_a := t_b e; t_b := t_a e; t_r := t_r e |}.

(** se_spanning_tree.m:386-403; the other branch of the test is never taken, EuclideanDistance
    being true (lines 378-384) *)
Definition all_edges (pts : list C) : list tedge :=
  flat_map (fun k => map (fun l => {| t_a := k; t_b := l; t_r := - Cmod (vget pts k - vget pts l)%C |})
                         (seq (S k) (length pts - S k))) (seq 0 (length pts)).

(** se_spanning_tree.m:119 and 130: position of point k with respect to an edge *)
Definition u_k (pts : list C) (a b k : nat) : C :=
  ((RtoC 2 * vget pts k - vget pts b - vget pts a) / (vget pts b - vget pts a))%C.
(** se_spanning_tree.m:118 and 129 *)
Definition others (len a b : nat) : list nat :=
  filter (fun k => negb ((k =? a) || (k =? b))%nat) (seq 0 len).

(** se_spanning_tree.m:115-137: [DE] is double-exponential integration, [GJ] Gauss-Jacobi
    integration.  [de_tau u] is |Im(Argsinh(Argtanh(u)/Lambda))|, Lambda = pi/2.  5 is the initial
    value of r (line 418) and the one appended at line 136 *)
Inductive itype := DE | GJ.
Definition ellipse (u : C) : R := (Cmod (u + RtoC 1)%C + Cmod (u - RtoC 1)%C) / 2.
Definition edge_weight (ty : itype) (pts : list C) (a b : nat) : R :=
  let ks := others (length pts) a b in
  match ty with
  | DE => fold_left (fun r k => Rmin r (de_tau (u_k pts a b k))) ks 5
  | GJ => fold_left (fun r k => Rmin r (ellipse (u_k pts a b k))) ks 5
  end.

(** se_spanning_tree.m:411-416 *)
Fixpoint scan_edges (es : list tedge) (taken : list bool) : outcome tedge :=
  match es with
  | [] => Fault OutOfBounds
  | e :: es =>
      do ta <- tget taken (t_a e);
      do tb <- tget taken (t_b e);
      if Bool.eqb ta tb then scan_edges es taken else Done e
  end.

(** se_spanning_tree.m:355-360; extreme edges that are not set are None *)
Record sptree := { s_edges : list tedge; s_min : R; s_max : R; s_worst : option nat; s_best : option nat }.

(** se_spanning_tree.m:408-446, from edge k on *)
Fixpoint grow_tree (ty : itype) (pts : list C) (es : list tedge) (todo : nat) (taken : list bool) (t : sptree) : outcome sptree :=
  match todo with
  | O => Done t
  | S todo =>
      let k := length (s_edges t) in
      do e <- (if (k =? 0)%nat then tget es 0 else scan_edges es taken);
      let e := {| t_a := t_a e; t_b := t_b e; t_r := edge_weight ty pts (t_a e) (t_b e) |} in
      do tb <- tget taken (t_b e);
      let e := if tb then flip_edge e else e in
      do _ <- tget taken (t_a e);
      let taken := upd (upd taken (t_a e) true) (t_b e) true in
      let worse := if Rlt_dec (t_r e) (s_min t) then true else false in
      let better := if Rlt_dec (s_max t) (t_r e) then true else false in
      grow_tree ty pts es todo taken
        {| s_edges := s_edges t ++ [e];
           s_min := if worse then t_r e else s_min t; s_max := if better then t_r e else s_max t;
           s_worst := if worse then Some k else s_worst t; s_best := if better then Some k else s_best t |}
  end.

(** se_spanning_tree.m:362-447; [sort] is Sort with RS_CompareEdge *)
Definition build_tree (sort : list tedge -> list tedge) (ty : itype) (pts : list C) : outcome sptree :=
  grow_tree ty pts (sort (all_edges pts)) (length pts - 1) (repeat false (length pts))
    {| s_edges := []; s_min := 5; s_max := 0; s_worst := None; s_best := None |}.

(** se_spanning_tree.m:362-463: the tree and the integration type it is for.  The parameters (lines
    455, 460) are in ModelMaGroups.v *)
Definition spanning_tree_ma (sort : list tedge -> list tedge) (ty : itype) (pts : list C) : outcome (sptree * itype) :=
  do t <- build_tree sort ty pts;
  match ty with
  | GJ => if Rlt_dec (s_min t - 1) (3 / 1000) then do t <- build_tree sort DE pts; Done (t, DE) else Done (t, GJ)
  | DE => Done (t, DE)
  end.
