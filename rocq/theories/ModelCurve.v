(** Model of the curve initialisation: arb/se_curve.c and the two inline
    functions of arb/abel_jacobi.h. *)
From Verif Require Import Base.

(** slong is a signed 64-bit word; ulong is unsigned.
    Simplification: overflow is only checked where the products of m and n are
    formed (the only place where realistic arguments can overflow). *)
Definition fits_slong (z : Z) : bool := (- 2 ^ 63 <=? z) && (z <? 2 ^ 63).
Definition to_ulong (z : Z) : Z := z mod 2 ^ 64.

(** abel_jacobi.h:43-58, the fields of [sec_t] used by the model. *)
Record sec := {
  sec_m : Z;      (* exponent of y *)
  sec_n : Z;      (* degree of the polynomial *)
  sec_delta : Z;  (* gcd(m,n) *)
  sec_g : Z;      (* genus *)
  sec_j1 : Z;     (* smallest exponent j in the basis *)
  sec_nj : Z;     (* number of exponents j *)
  sec_ni : list Z (* for each j, number of differentials x^i dx / y^j *)
}.

(** abel_jacobi.h:125-129.  C division truncates towards zero. *)
Definition jmin (m n d : Z) : outcome Z :=
  if n =? 0 then Fault DivByZero else Done (1 + Z.quot (m + d - 1) n).

(** abel_jacobi.h:130-135 (m >= 2 here, so no division by zero). *)
Definition imax (j m n d : Z) : Z :=
  let i := Z.quot (j * n - d) m in
  if i <? n then i else n - 1.

(** se_curve.c:20-52.  [n_gcd] works on ulong, so a negative degree is
    converted.  A negative [nj] makes [flint_malloc (nj * sizeof(slong))] ask
    for nearly 2^64 bytes (se_curve.c:42). *)
Definition sec_init (m n : Z) : outcome sec :=
  if m <? 2 then Abort
  else if negb (fits_slong ((m - 1) * (n - 1)) && fits_slong (m * n))
  then Fault SignedOverflow
  else
    let delta := Z.gcd m (to_ulong n) in
    let g := Z.quot ((m - 1) * (n - 1) - delta + 1) 2 in
    do j1 <- jmin m n delta;
    let nj := m - j1 in
    if nj <? 0 then Fault HugeAlloc
    else Done {| sec_m := m; sec_n := n; sec_delta := delta; sec_g := g;
                 sec_j1 := j1; sec_nj := nj;
                 sec_ni := map (fun j => imax (j1 + Z.of_nat j) m n delta)
                               (seq 0 (Z.to_nat nj)) |}.

(** se_curve.c:11-18: the degree of the zero polynomial is -1 in FLINT.
    A polynomial is its list of coefficients, lowest degree first. *)
Fixpoint degree (p : list Z) : Z :=
  match p with
  | [] => -1
  | a :: q => let d := degree q in
              if d <? 0 then (if a =? 0 then -1 else 0) else d + 1
  end.
Definition sec_init_poly (m : Z) (p : list Z) : outcome sec := sec_init m (degree p).

(** aj_struct.c:42: number of edges of the tree. *)
Definition tree_edges (c : sec) : Z :=
  sec_n c - 1 - (if sec_delta c =? sec_m c then 1 else 0).

(** aj_struct.c:24-42, up to the creation of the tree; [squarefree] is the
    answer of FLINT's test (aj_struct.c:32). *)
Definition aj_init (m : Z) (p : list Z) (squarefree : bool) : outcome (sec * Z) :=
  do c <- sec_init_poly m p;
  if sec_g c <? 1 then Abort
  else if negb squarefree then Abort
  else Done (c, tree_edges c).
