(** Model of the constants that turn the integrals over [-1,1] into those over an edge, Magma
    package: magma/se_periods/se_de_int.m:202-247, se_gj_int.m:131-162 and 526-527.

    Complex numbers are exact; Sqrt, Log and Exp are the principal ones.  Magma's indices start
    from 1 and those of the model from 0; an index out of range is [Fault OutOfBounds].
    PolynomialShiftVector (se_help_funcs.m:41-50) is the same double loop as
    arb/constants.c:10-17 and is modelled by [polynomial_shift]. *)
From Verif Require Import CArg ModelTree ModelVec ModelPeriod ModelTurn ModelMaRoot ModelMaDiff.
Local Open Scope nat_scope.

(** se_de_int.m:212-214 and 217-219: the entries appended, each z times the previous one *)
Fixpoint powers (todo : nat) (z cur : C) : list C :=
  match todo with O => [] | S todo => cur :: powers todo z (z * cur)%C end.

(** se_de_int.m:222-226; the loop over DFF[2] = number of blocks is one over the list DFF[3] *)
Fixpoint shift_blocks (df : list Z) (ct : nat) (s : C) (v : vec) : outcome vec :=
  match df with
  | [] => Done v
  | k :: df => do v <- polynomial_shift v ct (Z.to_nat k) s; shift_blocks df (ct + Z.to_nat k) s v
  end.

(** Zetas[w mod (2*m) + 1] *)
Definition zeta (ze : vec) (m : nat) (w : Z) : outcome C := vread ze (Z.to_nat (w mod (2 * Z.of_nat m))).

(** se_de_int.m:238-241, [todo] steps from l *)
Fixpoint sheet_rows (ze : vec) (m : nat) (jp : Z) (y : C) (todo l : nat) : outcome (list C) :=
  match todo with
  | O => Done []
  | S todo =>
      do z <- zeta ze m (-2 * Z.of_nat l * jp);
      do r <- sheet_rows ze m jp y todo (S l);
      Done ((z * y)%C :: r)
  end.

(** se_de_int.m:232-241: row of Integrals and entry of ElementaryIntegrals; VectorIntegral[ct]
    is not read afterwards *)
Definition de_entry (v : vec) (up m : nat) (jpows : list Z) (ze f1 f2 : vec) (ij ct : nat) : outcome (list C * C) :=
  do jp <- sread jpows ct;
  do z <- zeta ze m (- Z.of_nat ((up + 1) mod 2) * jp);
  do p <- vread f1 ij;
  do q <- (if (jp <? 1)%Z then Fault OutOfBounds else vread f2 (Z.to_nat (jp - 1)));
  do x <- vread v ct;
  let x := (x * (z * p * q))%C in
  do z2 <- zeta ze m (-2 * jp);
  let y := (x * (RtoC 1 - z2))%C in
  do r <- sheet_rows ze m jp y (m - 2) 1;
  Done (y :: r, x).

(** se_de_int.m:231-244, [todo] steps from ij *)
Fixpoint de_block (v : vec) (up m : nat) (jpows : list Z) (ze f1 f2 : vec) (todo ij ct : nat) : outcome (list (list C) * list C) :=
  match todo with
  | O => Done ([], [])
  | S todo =>
      do re <- de_entry v up m jpows ze f1 f2 ij ct;
      do rest <- de_block v up m jpows ze f1 f2 todo (S ij) (S ct);
      Done (fst re :: fst rest, snd re :: snd rest)
  end.
(** se_de_int.m:229-245 *)
Fixpoint de_blocks (df : list Z) (v : vec) (up m : nat) (jpows : list Z) (ze f1 f2 : vec) (ct : nat) : outcome (list (list C) * list C) :=
  match df with
  | [] => Done ([], [])
  | k :: df =>
      do b <- de_block v up m jpows ze f1 f2 (Z.to_nat k) 0 ct;
      do rest <- de_blocks df v up m jpows ze f1 f2 (ct + Z.to_nat k);
      Done (fst b ++ fst rest, snd b ++ snd rest)
  end.

(** se_de_int.m:202-247 *)
Definition de_integrals_factor (v : vec) (e : se_edge) (m n : nat) (d : ma_diff) (ze : vec) : outcome (list (list C) * list C) :=
  do h <- vread (e_data e) (n - 2);
  do last <- sread (md_df d) (Z.to_nat (md_num d - 1));
  let f1 := h :: powers (Z.to_nat last) h (h * h)%C in
  let z := cexp (RtoC (INR n / INR m) * - clog h)%C in
  let f2 := z :: powers (Z.to_nat (md_num d + md_jm d - 2)) z (z * z)%C in
  do s <- vread (e_data e) (n - 1);
  do v <- shift_blocks (md_df d) 0 s v;
  de_blocks (md_df d) v (e_up e) m (md_jpows d) ze f1 f2 0.

(** se_gj_int.m:155-159, [todo] steps from k *)
Fixpoint gc_powers (v : vec) (h c2 : C) (todo k : nat) : outcome vec :=
  match todo with
  | O => Done v
  | S todo =>
      let c2 := (c2 * h)%C in
      do x <- vread v k;
      do v <- vwrite v k (x * c2)%C;
      gc_powers v h c2 todo (S k)
  end.

(** se_gj_int.m:131-162; division by zero is Abort *)
Definition gc_integrals_factor (v : vec) (e : se_edge) (n g : nat) : outcome (vec * vec) :=
  do s <- vread (e_data e) (n - 1);
  do v <- polynomial_shift v 0 g s;
  do h <- vread (e_data e) (n - 2);
  let c1 := cpow h (n / 2) in
  let c1 := if (n mod 2 =? 1) then (c1 * croot 2 h)%C else c1 in
  if Req_EM_T (Cmod c1) 0 then Abort
  else
    let c1 := (RtoC 2 / c1)%C in
    let c1 := if (e_up e mod 2 =? 0) then (c1 * - Ci)%C else c1 in
    do v <- gc_powers (map (fun x => c1 * x)%C v) h (RtoC 1) g 0;
    Done (v, map (fun x => RtoC 1 / RtoC 2 * x)%C v).
(** se_gj_int.m:526-527: rows appended to Periods when m = 2 *)
Definition gc_rows (v : vec) : list (list C) := map (fun x => [x]) v.
