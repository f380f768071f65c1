(** Model of the degrees, the genus and the holomorphic differentials of the Magma package:
    magma/se_periods/se_curve.m:91-100, 217-234 and 277. *)
From Verif Require Import Base.
Local Open Scope Z_scope.

(** se_curve.m:99, 219: Ceiling of a quotient, Round of a half (a half integer would be rounded up) *)
Definition ceil_div (a b : Z) : Z := - ((- a) / b).
Definition round_half (a : Z) : Z := (a + 1) / 2.

(** se_curve.m:100, 233-234: attributes Genus and HolomorphicDifferentials *)
Record ma_diff := { md_g : Z; md_jm : Z; md_num : Z; md_df : list Z; md_jpows : list Z }.

(** se_curve.m:220-231: while loop; the result is the final j with DF and jPows *)
Fixpoint diff_loop (fuel : nat) (m n delta j : Z) (df jpows : list Z) : outcome (Z * list Z * list Z) :=
  match fuel with
  | O => OutOfFuel
  | S fuel =>
      if j <? m then
        let k := (j * n - delta) / m in
        if k <=? n - 1 then diff_loop fuel m n delta (j + 1) (df ++ [k]) (jpows ++ repeat j (Z.to_nat k))
        else Done (j, df, jpows)
      else Done (j, df, jpows)
  end.

(** se_curve.m:91-100, 217-234; the matrix of line 277 reads the first Genus entries of jPows *)
Definition ma_differentials (m n : Z) : outcome ma_diff :=
  let delta := Z.gcd m n in
  if negb ((2 <=? m) && (3 <=? n)) then Abort
  else
    let g := round_half ((m - 1) * (n - 1) - delta + 1) in
    let jm := Z.max 1 (ceil_div (m + delta) n) in
    do r <- diff_loop (Z.to_nat m + 1) m n delta jm [] [];
    let '(j, df, jpows) := r in
    if negb (j - jm =? Z.of_nat (length df)) then Abort
    else if Z.of_nat (length jpows) <? g then Fault OutOfBounds
    else Done {| md_g := g; md_jm := jm; md_num := Z.of_nat (length df); md_df := df; md_jpows := jpows |}.
