(** Model of the choice of the working precision: arb/ydata.c:149-232 and arb/aj_struct.c:107-111.

    Real balls are replaced by exact numbers.  [up] is the upward rounding of arb_get_mag, and
    [lg] the approximation of the base 2 logarithm by mag_get_d_log2_approx. *)
From Verif Require Import CArg ModelTree ModelCurve SpecVec.
Local Open Scope R_scope.

Section Extra.
Context (up lg : R -> R).

(** ydata.c:187-201: l from l for cnt steps *)
Fixpoint constants_l (cnt l i : nat) (mab mi acc : R) : R :=
  match cnt with
  | O => acc
  | S cnt => constants_l cnt (S l) i mab mi (Rmax acc (up (INR (binom (i - 1) l) * mab ^ (i - 1 - l) * mi)))
  end.
(** ydata.c:184-202: i from i for cnt steps *)
Fixpoint constants_i (cnt i : nat) (mab mba mi acc : R) : R :=
  match cnt with
  | O => acc
  | S cnt => let mi := mi * mba in constants_i cnt (S i) mab mba mi (constants_l i 0 i mab mi acc)
  end.
(** ydata.c:181-203 *)
Fixpoint constants_j (ni : list Z) (j : Z) (mab mba mc acc : R) : R :=
  match ni with
  | [] => acc
  | n :: ni => constants_j ni (j + 1) mab mba mc (constants_i (Z.to_nat n) 1 mab mba (mc ^ Z.to_nat j) acc)
  end.
(** ydata.c:150-209, for distinct points *)
Definition mag_constants_edge (x : list C) (e : edge) (c : sec) : R :=
  let mab := Cmod (vget x (eb e) + vget x (ea e))%C in
  let mba := Cmod (vget x (eb e) - vget x (ea e))%C in
  let mab := mab / mba in
  let mba := mba / 2 in
  let mc := / rroot (sec_m c) (mba ^ Z.to_nat (sec_n c)) in
  constants_j (sec_ni c) (sec_j1 c) mab mba mc 0.
(** ydata.c:212-223 *)
Definition mag_constants_tree (x : list C) (es : list edge) (c : sec) : R :=
  fold_left (fun acc e => Rmax acc (mag_constants_edge x e c)) es 0.
(** conversion of a double to a long *)
Definition trunc (r : R) : Z := if Rle_dec 0 r then Int_part r else (- Int_part (- r))%Z.
(** ydata.c:225-233 *)
Definition extraprec_tree (x : list C) (es : list edge) (c : sec) : Z := (trunc (lg (mag_constants_tree x es c)) + 1)%Z.
(** aj_struct.c:108-109 *)
Definition intprec (prec : Z) (x : list C) (es : list edge) (c : sec) : Z := (prec + extraprec_tree x es c)%Z.
(** aj_struct.c:110 *)
Definition cstprec (prec : Z) (x : list C) (es : list edge) (c : sec) : Z := (intprec prec x es c + 10)%Z.
End Extra.
