(** C89: genus and differentials of the Magma package.  Statements only. *)
From Verif Require Import Base ModelCurve SpecCurve ModelMaDiff ProofMaDiff.
Local Open Scope Z_scope.

(** For all degrees: either they are rejected (m < 2 or n < 3), or the genus is the Riemann-Hurwitz genus
    and at least 1, the counts are those of the holomorphic differentials x^(i-1) dx / y^j, they add up
    to the genus, and the list of exponents has the exponent of each of them, in order. *)
Theorem C89_differentials :
  forall m n, (2 <= m /\ 3 <= n -> exists d, ma_differentials m n = Done d /\
    2 * md_g d = (m - 1) * (n - 1) - Z.gcd m n + 1 /\ 1 <= md_g d /\
    md_num d = Z.of_nat (length (md_df d)) /\ md_jm d + md_num d = m /\
    (forall i j, holomorphic m n i j <-> md_jm d <= j < m /\ 1 <= i <= nth (Z.to_nat (j - md_jm d)) (md_df d) 0) /\
    fold_right Z.add 0 (md_df d) = md_g d /\ Z.of_nat (length (md_jpows d)) = md_g d /\
    md_jpows d = concat (map (fun l => repeat (md_jm d + Z.of_nat l) (Z.to_nat (nth l (md_df d) 0))) (seq 0 (length (md_df d))))) /\
  (~ (2 <= m /\ 3 <= n) -> ma_differentials m n = Abort).
Proof. exact diff_final. Qed.
Print Assumptions C89_differentials.

(** The two implementations agree: same genus, same first exponent, same counts. *)
Theorem C89_same_as_library :
  forall m n c, 3 <= n -> sec_init m n = Done c -> small_curve m n ->
  exists d, ma_differentials m n = Done d /\ md_g d = sec_g c /\ md_jm d = sec_j1 c /\ md_df d = sec_ni c.
Proof. exact same_as_library. Qed.
Print Assumptions C89_same_as_library.

Example C89_nonvacuous : exists d c, ma_differentials 6 9 = Done d /\ md_g d = 19 /\ md_df d = [1; 2; 4; 5; 7] /\
  md_jpows d = [1; 2; 2; 3; 3; 3; 3; 4; 4; 4; 4; 4; 5; 5; 5; 5; 5; 5; 5] /\ sec_init 6 9 = Done c /\ small_curve 6 9.
Proof. do 2 eexists. split; [vm_compute; reflexivity|]. repeat split; vm_compute; reflexivity. Qed.
