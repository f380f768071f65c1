(** Model of the integration of the edges of a tree by the double exponential rule,
    arb/integrals_de.c:9-117 and 141-200, with the evaluation of roots selected by the flags and
    the parameters of the edge.  Balls are replaced by their exact centres; the error radius,
    which is added to the moments before the factors of the edge, is not kept here (ModelDe). *)
From Coq Require Import Reals.
From Verif Require Import CArg ModelTree ModelCurve ModelPeriod ModelVec ModelQuad ModelCache ModelEdge ModelTurn ModelDe.
Local Open Scope nat_scope.

(** C99 catanh and casinh on exact numbers, with their usual ranges; catanh(1) and catanh(-1) are
    not finite, they are arbitrary numbers here *)
Definition c_atanh (w : C) : C := (clog ((RtoC 1 + w) / (RtoC 1 - w)) / RtoC 2)%C.
Definition c_asinh (s : C) : C :=
  let p := Cmod (s + Ci)%C in let q := Cmod (s - Ci)%C in
  let x := ln ((p + q) / 2 + sqrt ((p + q) / 2 * ((p + q) / 2) - 1))%R in
  ((if Rle_dec 0 (fst s) then x else - x)%R, asin ((p - q) / 2)%R).
(** de_params_d.c:65-78 and spanning_tree.c:26-33: |Im asinh(atanh(w)/lambda)|, lambda = pi/2 *)
Definition de_tau (w : C) : R := Rabs (snd (c_asinh (c_atanh w / RtoC (PI / 2))%C)).

(** integrals_de.c:45-103 *)
Fixpoint de_nodes_run (root : R -> outcome C) (c : sec) (l : nat) (nds : list de_node) (res : vec) : outcome vec :=
  match nds with
  | [] => Done res
  | nd :: nds =>
      do y <- root (de_x nd);
      let '(y1, wy) := de_start y c nd in
      do res <- de_blocks add_geom (sec_ni c) true 0 wy y1 (RtoC (de_x nd)) res;
      do res <- (if l =? 0 then Done res
                 else do y <- root (- de_x nd)%R;
                      let '(y2, wy) := de_start y c nd in
                      de_blocks sub_geom (sec_ni c) true 0 wy y2 (RtoC (de_x nd)) res);
      de_nodes_run root c (S l) nds res
  end.
(** integrals_de.c:9-117 *)
Definition de_integrals_run (rdef rprod rturn : bool) (prec : Z) (u : vec) (d1 d : nat) (c : sec) (de : list de_node * R) : outcome vec :=
  let g := Z.to_nat (sec_g c) in
  do res <- de_nodes_run (de_root rdef rprod rturn prec (sec_m c) u d1 d) c 0 (fst de) (vtab g (fun _ => RtoC 0));
  scalar_mul res 0 g (RtoC (snd de)).

(** what [de] keeps from one edge to the next: number of points and step *)
Record de_store := { st_n : Z; st_h : R }.
Definition no_store : de_store := {| st_n := 0; st_h := 0 |}.
(** integrals_de.c:141-166: the scheme that is used is the one found, or a new one; [same] is the
    flag AJ_DE_SAME; de->n is an ulong, so the difference and the product wrap *)
Definition edge_scheme_de (same : bool) (c : sec) (cached : de_store) (u : vec) (prec : Z) : outcome de_store :=
  if (st_n cached =? 0)%Z || negb same then
    do p <- de_params_d (map de_tau (firstn (Z.to_nat (sec_n c - 2)) u)) (sec_m c) prec;
    let '(_, h, n) := p in
    if (st_n cached =? 0)%Z || (wrap (wrap (st_n cached - n) * wrap (sec_n c + sec_g c)) >? wrap n)%Z
    then Done {| st_n := n; st_h := h |} else Done cached
  else Done cached.
(** integrals_de.c:168: moments, and the scheme left in [de] *)
Definition edge_moments_de (rdef rprod rturn same : bool) (c : sec) (cached : de_store) (ye : ydata) (prec : Z)
  : outcome (vec * de_store) :=
  do s <- edge_scheme_de same c cached (y_u ye) prec;
  do v <- de_integrals_run rdef rprod rturn prec (y_u ye) (y_n1 ye) (Z.to_nat (sec_n c - 2)) c
            (de_int_init (st_h s) (PI / 2) (Z.to_nat (st_n s)) (sec_m c));
  Done (v, s).
(** integrals_de.c:141-174: row of the matrix, and the scheme left in [de] *)
Definition edge_integrals_de (rdef rprod rturn same : bool) (c : sec) (cached : de_store) (ye : ydata) (prec : Z)
  : outcome (vec * de_store) :=
  do r <- edge_moments_de rdef rprod rturn same c cached ye prec;
  do v <- integrals_edge_factors (fst r) (y_ba2 ye) (y_ab ye) (y_c ye) c;
  Done (v, snd r).
(** integrals_de.c:176-200; [keys] are the numbers the edges are sorted by, [rows] the matrix
    before *)
Definition tree_integrals_de {Key : Type} (qsort : list (Key * nat) -> list (Key * nat)) (rdef rprod rturn same : bool) (c : sec)
    (ys : list ydata) (prec : Z) (keys : list Key) (rows : cmat) : outcome cmat :=
  integrals_tree no_store (fun s k => edge_integrals_de rdef rprod rturn same c s (nth k ys no_ydata) prec) qsort keys rows.
(** spanning_tree.c:35-49, param_edge with param_de_tau: the least of the numbers of the points,
    -1 if there is none *)
Fixpoint param_min (ts : list R) (p : R) : R :=
  match ts with
  | [] => p
  | t :: ts => param_min ts (if Rlt_dec p 0 then t else if Rlt_dec t p then t else p)
  end.
Definition edge_key (u : vec) : R := param_min (map de_tau u) (-1).
