(** Model of the integrals from a branch point to a point of the curve, for the Abel-Jacobi map of
    the Magma package: magma/se_periods/se_de_int.m:135-137, 336-446, se_gj_int.m:542-576 and the
    change of differentials se_curve.m:276-277, se_abel_jacobi.m:236.

    Numbers are exact; Sqrt, Log, Exp and Arg are the principal ones.  Magma's indices start from 1
    and those of the model from 0; an index out of range is [Fault OutOfBounds], a division by zero
    [Abort]. *)
From Verif Require Import CArg ModelTree ModelVec ModelPeriod ModelTurn ModelMaRoot ModelMaDiff ModelMaFactor ModelMaSum ModelMaInter.
Local Open Scope nat_scope.

(** se_de_int.m:136: the pair for the abscissa of a node *)
Definition extra (m : nat) (x : R) : R * R := (Rpower (1 - x) (1 / INR m), Rpower (1 + x) (1 / INR m)).
(** se_de_int.m:136: ExtraFactors *)
Definition extra_factors (m : nat) (nodes : list (R * (R * R))) : list (R * R) :=
  (1, 1)%R :: map (fun nd => extra m (fst nd)) (tl nodes).

(** se_de_int.m:406-431, [todo] steps from index t *)
Fixpoint de_loop_ajm (y : R -> outcome C) (d : ma_diff) (nodes : list (R * (R * R))) (ex : list (R * R)) (todo t : nat) (v : vec) : outcome vec :=
  match todo with
  | O => Done v
  | S todo =>
      match nth_error nodes t, nth_error ex t with
      | Some (x, (w1, w2)), Some (e1, e2) =>
          do y1 <- over_root y (e1 * w2)%R x;
          do y2 <- over_root y (e2 * w2)%R (- x)%R;
          let wy1 := (cpow y1 (Z.to_nat (md_jm d)) * RtoC w1)%C in
          let wy2 := (cpow y2 (Z.to_nat (md_jm d)) * RtoC w1)%C in
          do v <- pair_blocks (md_df d) 0 wy1 wy2 y1 y2 x v;
          de_loop_ajm y d nodes ex todo (S t) v
      | _, _ => Fault OutOfBounds
      end
  end.

(** se_de_int.m:384-435; [fac] is Factor, N is NPoints *)
Definition de_integrals_ajm (y : R -> outcome C) (d : ma_diff) (nodes : list (R * (R * R))) (ex : list (R * R)) (N : nat) (fac : R) : outcome vec :=
  let v := repeat (RtoC 0) (Z.to_nat (md_g d)) in
  match nth_error nodes 0, nth_error ex 0 with
  | Some (_, (w1, w2)), Some (e1, _) =>
      do y0 <- over_root y (e1 * w2)%R 0%R;
      do v <- zero_blocks (md_df d) 0 (cpow y0 (Z.to_nat (md_jm d)) * RtoC w1)%C y0 v;
      do v <- de_loop_ajm y d nodes ex (N - 1) 1 v;
      Done (map (fun z => z * RtoC fac)%C v)
  | _, _ => Fault OutOfBounds
  end.

(** se_gj_int.m:551-562 from block j, with node t *)
Fixpoint gj_blocks_ajm (y : R -> outcome C) (df : list Z) (j ct : nat) (sch : list gj_scheme) (jpows : list Z) (t : nat) (v : vec) : outcome vec :=
  match df with
  | [] => Done v
  | k :: df =>
      match nth_error sch j with
      | None => Fault OutOfBounds
      | Some s =>
          do x <- rread (fst s) t;
          do y1 <- over_root y 1%R x;
          do w <- rread (snd s) t;
          do jp <- sread jpows ct;
          do v <- add_powers (S (Z.to_nat k - 1)) ct (RtoC w * cpow y1 (Z.to_nat jp))%C (RtoC 0) x v;
          gj_blocks_ajm y df (S j) (ct + Z.to_nat k) sch jpows t v
      end
  end.
(** se_gj_int.m:549-563, [todo] steps from t *)
Fixpoint gj_loop_ajm (y : R -> outcome C) (d : ma_diff) (sch : list gj_scheme) (todo t : nat) (v : vec) : outcome vec :=
  match todo with
  | O => Done v
  | S todo => do v <- gj_blocks_ajm y (md_df d) 0 0 sch (md_jpows d) t v; gj_loop_ajm y d sch todo (S t) v
  end.
(** se_gj_int.m:542-565; N is NPoints *)
Definition gj_integrals_ajm (y : R -> outcome C) (d : ma_diff) (sch : list gj_scheme) (N : nat) : outcome vec :=
  gj_loop_ajm y d sch N 0 (repeat (RtoC 0) (Z.to_nat (md_g d))).

(** se_de_int.m:365: the value of y at the point for shift 0; lc is LeadingCoeff *)
Definition end_value (e : se_edge) (ze : vec) (m n : nat) (h lc : C) : outcome C :=
  do z <- zeta ze m (Z.of_nat (e_up e));
  do r <- ac_mth_root 1%R e ze m (n - 1);
  Done (cexp (RtoC (INR n / INR m) * clog (RtoC 2 * h) + RtoC (1 / INR m) * clog lc) * z * r)%C.
(** se_de_int.m:368 *)
Definition end_shift (m : nat) (py v : C) : Z := round_near (INR m / (2 * PI) * (carg py - carg v))%R.

(** se_de_int.m:373-377, [todo] steps from ij *)
Fixpoint ajm_block (up : nat) (s : Z) (m : nat) (jpows : list Z) (ze f1 f2 : vec) (todo ij ct : nat) (v : vec) : outcome vec :=
  match todo with
  | O => Done v
  | S todo =>
      do jp <- sread jpows ct;
      do z <- zeta ze m (- (Z.of_nat up + 2 * s) * jp);
      do p <- vread f1 ij;
      do q <- (if (jp <? 1)%Z then Fault OutOfBounds else vread f2 (Z.to_nat (jp - 1)));
      do x <- vread v ct;
      do v <- vwrite v ct (x * (z * p * q))%C;
      ajm_block up s m jpows ze f1 f2 todo (S ij) (S ct) v
  end.
(** se_de_int.m:371-378 *)
Fixpoint ajm_blocks (df : list Z) (up : nat) (s : Z) (m : nat) (jpows : list Z) (ze f1 f2 : vec) (ct : nat) (v : vec) : outcome vec :=
  match df with
  | [] => Done v
  | k :: df =>
      do v <- ajm_block up s m jpows ze f1 f2 (Z.to_nat k) 0 ct v;
      ajm_blocks df up s m jpows ze f1 f2 (ct + Z.to_nat k) v
  end.

(** se_de_int.m:336-381; py is the ordinate of the point *)
Definition factor_ajm (v : vec) (e : se_edge) (m n : nat) (d : ma_diff) (ze : vec) (lc py : C) : outcome vec :=
  do h <- vread (e_data e) (n - 1);
  do last <- sread (md_df d) (Z.to_nat (md_num d - 1));
  let f1 := h :: powers (Z.to_nat last) h (h * h)%C in
  let z := cexp (RtoC (INR n / INR m) * - clog h)%C in
  let f2 := z :: powers (Z.to_nat (md_num d + md_jm d - 2)) z (z * z)%C in
  do s <- vread (e_data e) n;
  do v <- shift_blocks (md_df d) 0 s v;
  do pv <- end_value e ze m n h lc;
  ajm_blocks (md_df d) (e_up e) (end_shift m py pv) m (md_jpows d) ze f1 f2 0 v.

(** se_curve.m:276-277: diagonal of DifferentialChangeMatrix, and its product with the integrals *)
Fixpoint change_differentials (m : nat) (lc : C) (jpows : list Z) (v : vec) {struct v} : outcome vec :=
  match v, jpows with
  | [], _ => Done []
  | _ :: _, [] => Fault OutOfBounds
  | z :: v, jp :: jpows =>
      do r <- change_differentials m lc jpows v;
      Done ((cexp (RtoC (IZR jp) * (- RtoC (1 / INR m) * clog lc)) * z)%C :: r)
  end.

(** se_de_int.m:438-446 for the edge from branch point i to <b,py> (se_spanning_tree.m:299-301), with
    a scheme of step h (Factor = Lambda*Steplength, 178); then se_abel_jacobi.m:236, for one point
    of multiplicity 1 *)
Definition de_to_point (points : list C) (m : nat) (lc : C) (d : ma_diff) (i : nat) (b py : C) (h lam : R) (N : nat) : outcome vec :=
  let n := length points in
  do e <- edge_data_to points i b;
  let nodes := de_scheme h lam N m in
  do v <- de_integrals_ajm (fun x => ac_mth_root x e (zetas m) m (n - 1)) d nodes (extra_factors m nodes) N (lam * h)%R;
  do v <- factor_ajm v e m n d (zetas m) lc py;
  change_differentials m lc (md_jpows d) v.
(** se_gj_int.m:567-576, likewise *)
Definition gj_to_point (points : list C) (m : nat) (lc : C) (d : ma_diff) (i : nat) (b py : C) (sch : list gj_scheme) (N : nat) : outcome vec :=
  let n := length points in
  do e <- edge_data_to points i b;
  do v <- gj_integrals_ajm (fun x => ac_mth_root x e (zetas m) m (n - 1)) d sch N;
  do v <- factor_ajm v e m n d (zetas m) lc py;
  change_differentials m lc (md_jpows d) v.
