(** Model of arb/mth_root_pol.c: the three evaluations of the product of m-th roots.

    Balls are replaced by exact numbers (radius zero): a sign test then decides.  The array
    u has the d points of the edge followed by the other constants of the edge
    (arb/ydata.c:104-117), so it may be longer than d. *)
From Verif Require Import CArg ModelTree ModelVec ModelPeriod.
Local Open Scope nat_scope.

(** mth_root_pol.c:41-43, 61-63, 105-107 *)
Definition factor_at (u : vec) (d1 k : nat) (x : R) : outcome C :=
  do p <- vread u k;
  let t := (p - RtoC x)%C in
  Done (if d1 <=? k then (- t)%C else t).

(** mth_root_pol.c:39-46, todo steps from k *)
Fixpoint def_loop (m : Z) (u : vec) (d1 : nat) (x : R) (todo k : nat) (y : C) : outcome C :=
  match todo with
  | O => Done y
  | S todo =>
      do t <- factor_at u d1 k x;
      def_loop m u d1 x todo (S k) (y * croot m t)%C
  end.
(** mth_root_pol.c:31-49; acb_root_ui is the principal root *)
Definition pol_def (m : Z) (u : vec) (d1 d : nat) (x : R) : outcome C := def_loop m u d1 x d 0 (RtoC 1).
(** mth_root_pol.c:11-29; acb_sqrt is the principal square root *)
Definition sqrt_def (u : vec) (d1 d : nat) (x : R) : outcome C := def_loop 2 u d1 x d 0 (RtoC 1).

(** acb_log and acb_exp; acb_log of 0 is not finite, it is an arbitrary number here *)
Definition clog (z : C) : C := (ln (Cmod z), carg z).
Definition cexp (z : C) : C := (RtoC (exp (fst z)) * cis (snd z))%C.
(** mth_root_pol.c:59-66 *)
Fixpoint log_loop (u : vec) (d1 : nat) (x : R) (todo k : nat) (y : C) : outcome C :=
  match todo with
  | O => Done y
  | S todo =>
      do t <- factor_at u d1 k x;
      log_loop u d1 x todo (S k) (y + clog t)%C
  end.
(** mth_root_pol.c:51-71 *)
Definition pol_prod (m : Z) (u : vec) (d1 d : nat) (x : R) : outcome C :=
  do y <- log_loop u d1 x d 0 (RtoC 0);
  Done (cexp (y / RtoC (IZR m))%C).

(** mth_root_pol.c:73-80 *)
Definition sgn_imag (z : C) : Z :=
  if Req_EM_T (snd z) 0 then (if Rle_dec 0 (fst z) then 1 else 0)%Z
  else (if Rlt_dec 0 (snd z) then 1 else -1)%Z.

(** mth_root_pol.c:9 *)
Definition FAIL : Z := 2147483647.
(** mth_root_pol.c:95-133 and 135: the number returned and the value left in y *)
Fixpoint turn_loop (u : vec) (d1 : nat) (x : R) (todo k : nat) (y : C) (sy q : Z) : outcome (Z * C) :=
  match todo with
  | O => Done (q, y)
  | S todo =>
      if (sy =? 0)%Z then Done (FAIL, y)
      else
        do t <- factor_at u d1 k x;
        let y := (y * t)%C in
        let st := sgn_imag t in
        if (st =? 0)%Z then Done (FAIL, y)
        else
          let sy' := sgn_imag y in
          let q := if (sy =? st)%Z && negb (sy' =? st)%Z then (if (0 <? st)%Z then q + 1 else q - 1)%Z else q in
          turn_loop u d1 x todo (S k) y sy' q
  end.
(** mth_root_pol.c:82-136; the first entry is read even when d = 0 *)
Definition prod_turn (u : vec) (d1 d : nat) (x : R) : outcome (Z * C) :=
  do p <- vread u 0;
  let y := (p - RtoC x)%C in
  let y := if d1 =? 0 then (- y)%C else y in
  turn_loop u d1 x (d - 1) 1 y (sgn_imag y) 0.
(** mth_root_pol.c:138-152 *)
Definition sqrt_turn (u : vec) (d1 d : nat) (x : R) : outcome C :=
  do r <- prod_turn u d1 d x;
  if (fst r =? FAIL)%Z then sqrt_def u d1 d x
  else
    let y := croot 2 (snd r) in
    Done (if (Z.rem (fst r) 2 =? 0)%Z then y else (- y)%C).
(** mth_root_pol.c:154-169; z holds the m-th roots of unity *)
Definition pol_turn (m : Z) (u : vec) (d1 d : nat) (x : R) (z : vec) : outcome C :=
  do r <- prod_turn u d1 d x;
  if (fst r =? FAIL)%Z then pol_def m u d1 d x
  else
    let y := croot m (snd r) in
    let q := Z.rem (Z.rem (fst r) m + m) m in
    if (q =? 0)%Z then Done y
    else do w <- vread z (Z.to_nat q); Done (y * w)%C.

(** integrals_de.c:32-41: the evaluation used at the nodes; [rdef], [rprod], [rturn] are the
    three bits of flag *)
Definition de_root (rdef rprod rturn : bool) (prec : Z) (m : Z) (u : vec) (d1 d : nat) (x : R) : outcome C :=
  if rdef then pol_def m u d1 d x
  else if rprod then pol_prod m u d1 d x
  else if rturn then pol_turn m u d1 d x (unit_roots m)
  else if (1000 <? prec)%Z && (5 <? d) then pol_turn m u d1 d x (unit_roots m)
  else pol_prod m u d1 d x.
(** integrals_gc.c:27-31 *)
Definition gc_root (rdef rturn : bool) (u : vec) (d1 d : nat) (x : R) : outcome C :=
  if rdef then sqrt_def u d1 d x else sqrt_turn u d1 d x.
