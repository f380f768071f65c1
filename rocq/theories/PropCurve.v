(** C01-C05: curve initialisation.  Statements only; proofs in ProofCurve.v. *)
From Verif Require Import Base ModelCurve SpecCurve ProofCurve.

(** C01: whenever a curve of degree n >= 1 is created, its genus is exactly the
    Riemann-Hurwitz genus. *)
Theorem C01_genus_exact :
  forall m n c, sec_init m n = Done c -> 1 <= n ->
    2 * sec_g c = (m - 1) * (n - 1) - Z.gcd m n + 1 /\ 0 <= sec_g c.
Proof. exact genus_exact_final. Qed.
Print Assumptions C01_genus_exact.

Example C01_nonvacuous : exists c, sec_init 6 9 = Done c /\ sec_g c = 19.
Proof. eexists. split; vm_compute; reflexivity. Qed.

(** C02: the stored counts add up to the genus (and there is one count for each
    exponent j1 <= j < m). *)
Theorem C02_number_of_differentials :
  forall m n c, sec_init m n = Done c -> 1 <= n ->
    fold_right Z.add 0 (sec_ni c) = sec_g c /\
    Z.of_nat (length (sec_ni c)) = m - sec_j1 c.
Proof. exact differentials_count_final. Qed.
Print Assumptions C02_number_of_differentials.

Example C02_nonvacuous :
  exists c, sec_init 6 9 = Done c /\ sec_ni c = [1; 2; 4; 5; 7].
Proof. eexists. split; vm_compute; reflexivity. Qed.

(** C03: the stored pairs are exactly the holomorphic differentials. *)
Theorem C03_differentials_are_the_holomorphic_ones :
  forall m n c, sec_init m n = Done c -> 1 <= n ->
    (forall i j, holomorphic m n i j <->
      (sec_j1 c <= j < m /\ 1 <= i <= nth (Z.to_nat (j - sec_j1 c)) (sec_ni c) 0)) /\
    (forall x, In x (sec_ni c) -> 1 <= x <= n - 1) /\
    (forall k l, (k <= l < length (sec_ni c))%nat ->
       nth k (sec_ni c) 0 <= nth l (sec_ni c) 0).
Proof. exact differentials_exact_final. Qed.
Print Assumptions C03_differentials_are_the_holomorphic_ones.

Example C03_nonvacuous : holomorphic 6 9 7 5 /\ ~ holomorphic 6 9 8 5.
Proof. unfold holomorphic. change (Z.gcd 6 9) with 3. lia. Qed.

(** C04: initialisation is safe from degree 2 on ... *)
Theorem C04_initialisation_safe :
  forall m n, 2 <= n -> small_curve m n ->
    (m < 2 -> sec_init m n = Abort) /\ (2 <= m -> exists c, sec_init m n = Done c).
Proof. exact sec_init_safe. Qed.
Print Assumptions C04_initialisation_safe.

(** ... but not for every polynomial: every nonzero constant divides by zero and
    every linear polynomial asks for an allocation of negative size, before the
    genus test that should reject them. *)
Theorem C04_initialisation_safe_refuted :
  (forall m a, 2 <= m -> m < 2 ^ 62 -> a <> 0 ->
     sec_init_poly m [a] = Fault DivByZero) /\
  (forall m a b, 2 <= m -> m < 2 ^ 62 -> b <> 0 ->
     sec_init_poly m [a; b] = Fault HugeAlloc).
Proof. exact (conj constant_poly_faults linear_poly_faults). Qed.
Print Assumptions C04_initialisation_safe_refuted.

(** A curve accepted by the library always has degree >= 2, positive genus and
    at least one edge. *)
Theorem C04_accepted_curves_are_not_degenerate :
  forall m p sqf c t, aj_init m p sqf = Done (c, t) ->
    2 <= m /\ 2 <= degree p /\ 1 <= sec_g c /\ 1 <= t /\ sqf = true.
Proof. exact aj_init_degree. Qed.
Print Assumptions C04_accepted_curves_are_not_degenerate.

Example C04_nonvacuous :
  exists c, aj_init 2 [1; 0; 0; 0; 0; 1] true = Done (c, 4) /\ sec_g c = 2.
Proof. eexists. split; vm_compute; reflexivity. Qed.

(** The degree used above is the usual one. *)
Theorem C04_degree_is_the_degree :
  forall p k, 0 <= k ->
    (degree p = k <->
     nth (Z.to_nat k) p 0 <> 0 /\ forall l, (Z.to_nat k < l)%nat -> nth l p 0 = 0).
Proof. exact degree_correct. Qed.
Print Assumptions C04_degree_is_the_degree.

(** C05: the shifted elementary cycles are numerous enough. *)
Theorem C05_enough_generators :
  forall m n c, sec_init m n = Done c -> 1 <= n ->
    (if Z.gcd m n =? m
     then tree_edges c = n - 2 /\ tree_edges c * (m - 1) = 2 * sec_g c
     else tree_edges c = n - 1 /\ tree_edges c * (m - 1) = 2 * sec_g c + Z.gcd m n - 1)
    /\ 2 * sec_g c <= tree_edges c * (m - 1)
    /\ (1 <= sec_g c -> 1 <= tree_edges c).
Proof. exact generators_count_final. Qed.
Print Assumptions C05_enough_generators.

Example C05_nonvacuous :
  exists c, sec_init 3 6 = Done c /\ tree_edges c = 4 /\ sec_g c = 4.
Proof. eexists. repeat split; vm_compute; reflexivity. Qed.
