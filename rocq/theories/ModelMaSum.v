(** Model of the quadrature sums over an edge in the Magma package:
    magma/se_periods/se_de_int.m:106-138, 250-315 and se_gj_int.m:165-216, 256-262, 464-516.

    Numbers are exact.  Magma's indices start from 1 and those of the model from 0; an index out
    of range is [Fault OutOfBounds], a division by zero [Abort].  [y] is the function
    x -> AC_mthRoot(x,Edge,...), see [ac_mth_root]. *)
From Verif Require Import CArg ModelTree ModelVec ModelPeriod ModelTurn ModelMaRoot ModelMaDiff ModelMaFactor.
Local Open Scope nat_scope.

(** V[i] +:= z *)
Definition vadd (v : vec) (i : nat) (z : C) : outcome vec := do a <- vread v i; vwrite v i (a + z)%C.
Definition rread (l : list R) (i : nat) : outcome R :=
  match nth_error l i with Some r => Done r | None => Fault OutOfBounds end.
(** num / AC_mthRoot(x,...) *)
Definition over_root (y : R -> outcome C) (num : R) (x : R) : outcome C :=
  do r <- y x; if Req_EM_T (Cmod r) 0 then Abort else Done (RtoC num / r)%C.

(** se_de_int.m:123-137: nodes <abscissa, <weight, weight>>, [todo] steps *)
Fixpoint de_points (todo : nat) (eh ehi ekh ekhi lam mi : R) : list (R * (R * R)) :=
  match todo with
  | O => []
  | S todo =>
      let ekh := (ekh * eh)%R in
      let ekhi := (ekhi * ehi)%R in
      let sh := (1 / 2 * (ekh - ekhi))%R in
      let ch := (sh + ekhi)%R in
      let esh := exp (lam * sh) in
      let eshi := (1 / esh)%R in
      let chsh := (1 / 2 * (esh + eshi))%R in
      let shsh := (chsh - eshi)%R in
      let chsh2 := (chsh * chsh)%R in
      (shsh / chsh, (ch / chsh2, Rpower chsh2 mi))%R :: de_points todo eh ehi ekh ekhi lam mi
  end.
(** se_de_int.m:106-138, without the factors for the Abel-Jacobi map; N is NPoints *)
Definition de_scheme (h lam : R) (N m : nat) : list (R * (R * R)) :=
  (0, (1, 1))%R :: de_points N (exp h) (1 / exp h)%R 1 1 lam (1 / INR m)%R.

(** se_de_int.m:262-270 *)
Fixpoint zero_blocks (df : list Z) (ct : nat) (wy y : C) (v : vec) : outcome vec :=
  match df with
  | [] => Done v
  | k :: df => do v <- vadd v ct wy; zero_blocks df (ct + Z.to_nat k) (wy * y)%C y v
  end.

(** se_de_int.m:287-294: the first addition, then those of the loop over k *)
Fixpoint add_powers (todo ct : nat) (w1 w2 : C) (x : R) (v : vec) : outcome vec :=
  match todo with
  | O => Done v
  | S todo =>
      do v <- vadd v ct (w1 + w2)%C;
      add_powers todo (S ct) (w1 * RtoC x)%C (w2 * RtoC (- x))%C x v
  end.
(** se_de_int.m:280-295 *)
Fixpoint pair_blocks (df : list Z) (ct : nat) (wy1 wy2 y1 y2 : C) (x : R) (v : vec) : outcome vec :=
  match df with
  | [] => Done v
  | k :: df =>
      do v <- add_powers (S (Z.to_nat k - 1)) ct wy1 wy2 x v;
      pair_blocks df (ct + Z.to_nat k) (wy1 * y1)%C (wy2 * y2)%C y1 y2 x v
  end.

(** se_de_int.m:272-296, [todo] steps from index t *)
Fixpoint de_loop (y : R -> outcome C) (d : ma_diff) (nodes : list (R * (R * R))) (todo t : nat) (v : vec) : outcome vec :=
  match todo with
  | O => Done v
  | S todo =>
      match nth_error nodes t with
      | None => Fault OutOfBounds
      | Some (x, (w1, w2)) =>
          do y1 <- over_root y w2 x;
          do y2 <- over_root y w2 (- x)%R;
          let wy1 := (cpow y1 (Z.to_nat (md_jm d)) * RtoC w1)%C in
          let wy2 := (cpow y2 (Z.to_nat (md_jm d)) * RtoC w1)%C in
          do v <- pair_blocks (md_df d) 0 wy1 wy2 y1 y2 x v;
          de_loop y d nodes todo (S t) v
      end
  end.

(** se_de_int.m:250-301; [fac] is Factor, N is NPoints *)
Definition de_integrals (y : R -> outcome C) (d : ma_diff) (nodes : list (R * (R * R))) (N : nat) (fac : R) : outcome vec :=
  let v := repeat (RtoC 0) (Z.to_nat (md_g d)) in
  match nth_error nodes 0 with
  | None => Fault OutOfBounds
  | Some (_, (w1, w2)) =>
      do y0 <- over_root y w2 0%R;
      do v <- zero_blocks (md_df d) 0 (cpow y0 (Z.to_nat (md_jm d)) * RtoC w1)%C y0 v;
      do v <- de_loop y d nodes (N - 1) 1 v;
      Done (map (fun z => z * RtoC fac)%C v)
  end.

(** se_de_int.m:304-315 with a scheme of step h (Factor = Lambda*Steplength, 178) *)
Definition de_integrals_edge (e : se_edge) (m n : nat) (d : ma_diff) (ze : vec) (h lam : R) (N : nat) : outcome (list (list C) * list C) :=
  do v <- de_integrals (fun x => ac_mth_root x e ze m (n - 2)) d (de_scheme h lam N m) N (lam * h)%R;
  de_integrals_factor v e m n d ze.

(** se_gj_int.m:256-262 for [-1/2,-1/2]: abscissas *)
Definition gc_abscissas (N : nat) : list R :=
  map (fun k => cos (INR (2 * k - 1) * (1 / (2 * INR N) * PI))) (seq 1 ((N + 1) / 2)).

(** se_gj_int.m:190-196: the first addition and the loop over j, as in [add_powers] *)
(** se_gj_int.m:181-197, [todo] steps from k *)
Fixpoint gc_loop (y : R -> outcome C) (g : nat) (xs : list R) (todo k : nat) (v : vec) : outcome vec :=
  match todo with
  | O => Done v
  | S todo =>
      do x <- rread xs k;
      do y1 <- over_root y 1%R x;
      do y2 <- over_root y 1%R (- x)%R;
      do v <- add_powers (S (g - 1)) 0 y1 y2 x v;
      gc_loop y g xs todo (S k) v
  end.
(** se_gj_int.m:165-203 *)
Definition gc_integrals (y : R -> outcome C) (g N : nat) (xs : list R) (w : R) : outcome vec :=
  let v := repeat (RtoC 0) g in
  do v <- (if (N mod 2 =? 1) then do y0 <- over_root y 1%R 0%R; vadd v 0 y0 else Done v);
  do v <- gc_loop y g xs (N / 2) 0 v;
  Done (map (fun z => z * RtoC w)%C v).
(** se_gj_int.m:206-216, with the scheme of lines 256-262 (N = 0 is a division by zero) *)
Definition gc_integrals_edge (e : se_edge) (n g : nat) (ze : vec) (N : nat) : outcome (vec * vec) :=
  if N =? 0 then Abort
  else
    do v <- gc_integrals (fun x => ac_mth_root x e ze 2 (n - 2)) g N (gc_abscissas N) (2 * (1 / (2 * INR N) * PI))%R;
    gc_integrals_factor v e n g.

(** a Gauss-Jacobi scheme: Abscissas, Weights (computed by Newton's method: parameters here) *)
Definition gj_scheme := (list R * list R)%type.
(** se_gj_int.m:476-480 from block j *)
Fixpoint gj_zero (df : list Z) (j ct : nat) (sch : list gj_scheme) (jpows : list Z) (N2 : nat) (y0 : C) (v : vec) : outcome vec :=
  match df with
  | [] => Done v
  | k :: df =>
      match nth_error sch j with
      | None => Fault OutOfBounds
      | Some s =>
          do w <- rread (snd s) N2;
          do jp <- sread jpows ct;
          do v <- vadd v ct (RtoC w * cpow y0 (Z.to_nat jp))%C;
          gj_zero df (S j) (ct + Z.to_nat k) sch jpows N2 y0 v
      end
  end.
(** se_gj_int.m:486-500 from block j, with node t *)
Fixpoint gj_blocks (y : R -> outcome C) (df : list Z) (j ct : nat) (sch : list gj_scheme) (jpows : list Z) (t : nat) (v : vec) : outcome vec :=
  match df with
  | [] => Done v
  | k :: df =>
      match nth_error sch j with
      | None => Fault OutOfBounds
      | Some s =>
          do x <- rread (fst s) t;
          do y1 <- over_root y 1%R x;
          do y2 <- over_root y 1%R (- x)%R;
          do w <- rread (snd s) t;
          do jp <- sread jpows ct;
          do v <- add_powers (S (Z.to_nat k - 1)) ct (RtoC w * cpow y1 (Z.to_nat jp))%C (RtoC w * cpow y2 (Z.to_nat jp))%C x v;
          gj_blocks y df (S j) (ct + Z.to_nat k) sch jpows t v
      end
  end.
(** se_gj_int.m:484-501, [todo] steps from t *)
Fixpoint gj_loop (y : R -> outcome C) (d : ma_diff) (sch : list gj_scheme) (todo t : nat) (v : vec) : outcome vec :=
  match todo with
  | O => Done v
  | S todo => do v <- gj_blocks y (md_df d) 0 0 sch (md_jpows d) t v; gj_loop y d sch todo (S t) v
  end.
(** se_gj_int.m:464-503 *)
Definition gj_integrals (y : R -> outcome C) (d : ma_diff) (sch : list gj_scheme) (N : nat) : outcome vec :=
  let v := repeat (RtoC 0) (Z.to_nat (md_g d)) in
  do v <- (if (N mod 2 =? 1) then do y0 <- over_root y 1%R 0%R; gj_zero (md_df d) 0 0 sch (md_jpows d) (N / 2) y0 v else Done v);
  gj_loop y d sch (N / 2) 0 v.
(** se_gj_int.m:506-516 *)
Definition gj_integrals_edge (e : se_edge) (m n : nat) (d : ma_diff) (ze : vec) (sch : list gj_scheme) (N : nat) : outcome (list (list C) * list C) :=
  do v <- gj_integrals (fun x => ac_mth_root x e ze m (n - 2)) d sch N;
  de_integrals_factor v e m n d ze.
