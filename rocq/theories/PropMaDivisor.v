(** Properties C93 and C94: divisors and their Abel-Jacobi map in the Magma package *)
From Coq Require Import Permutation.
From Verif Require Import CArg ModelTree ModelMaPoint SpecMaPoint ProofMaPoint ModelMaDivisor SpecMaDivisor ProofMaDivisor.
Local Open Scope R_scope.

(** After any session, the degree of each divisor is the sum of its multiplicities, none of which is zero. *)
Theorem C93_degrees : forall ks, Forall sound (fold_left heap_after ks []).
Proof. exact (fun ks => session_sound ks [] (Forall_nil _)). Qed.
Print Assumptions C93_degrees.

(** The sum has the points of both and the sum of their degrees. *)
Theorem C93_sum : forall h i j d1 d2,
  nth_error h i = Some d1 -> nth_error h j = Some d2 -> d_curve d1 = d_curve d2 ->
  exists h' d, add_divisors h i j = Done (h', i) /\ nth_error h' i = Some d /\ d_supp d = d_supp d1 ++ d_supp d2 /\
    d_deg d = (d_deg d1 + d_deg d2)%Z /\ d_curve d = d_curve d1.
Proof. exact add_value. Qed.
Print Assumptions C93_sum.

(** A call leaves every divisor alone but the first argument of '+' and the argument of SE_AbelJacobi with
    a base point.  Missing: that it leaves those alone, which is false. *)
Theorem C93_calls_leave_divisors_alone_partial : forall h k i d,
  nth_error h i = Some d ->
  (match k with Add i' _ | AjBase _ _ i' _ => i' <> i | _ => True end) ->
  nth_error (heap_after h k) i = Some d.
Proof. exact after_others. Qed.
Print Assumptions C93_calls_leave_divisors_alone_partial.

(** '+' always changes its first argument, and answers with it. *)
Theorem C93_first_argument_changed : forall h i j h' k d2,
  add_divisors h i j = Done (h', k) -> nth_error h j = Some d2 -> sound d2 ->
  k = i /\ nth_error h' i <> nth_error h i.
Proof. exact add_changes. Qed.
Print Assumptions C93_first_argument_changed.

(** After SE_AbelJacobi with a base point, the divisor has degree zero and SE_AbelJacobi answers the same
    whatever base point it is given. *)
Theorem C93_base_point_remembered : forall integ inf h c a i p0 h' r p1,
  aj_base integ inf h c a i p0 = Done (h', r) ->
  aj_base integ inf h' c a i p1 = Done (h', r) /\ exists d, nth_error h' i = Some d /\ d_deg d = 0%Z.
Proof. exact aj_base_again. Qed.
Print Assumptions C93_base_point_remembered.

(** Thus the answer for a divisor and a base point depends on the calls before: on y^2 = x (x - 1) (x - 2),
    for the divisor (1, 0), asking first with base point (0, 0) and then with base point (1, 0) gives a
    value that is not zero modulo the periods. *)
Theorem C93_same_answer_after_other_calls_refuted : exists c a h p0 p1, forall integ inf,
  complete c a /\ new_divisor [] c true [(p1, 1%Z)] = Done (h, 0%nat) /\
  exists h1 h2 r r1, aj_base integ inf h c a 0 p0 = Done (h1, r) /\ aj_base integ inf h1 c a 0 p1 = Done (h1, r) /\
    aj_base integ inf h c a 0 p1 = Done (h2, r1) /\ ~ integer (nth 0 r 0 - nth 0 r1 0).
Proof.
  exact (ex_intro _ half_curve (ex_intro _ half_data (ex_intro _ [half_divisor] (ex_intro _ (RAff (RtoC 0) (RtoC 0))
    (ex_intro _ (RAff (RtoC 1) (RtoC 0)) (fun integ inf => conj half_complete (conj half_new (base_forgotten integ inf)))))))).
Qed.
Print Assumptions C93_same_answer_after_other_calls_refuted.

(** a session with two divisors and their sum *)
Example C93_nonvacuous : exists ks d1 d2, fold_left heap_after ks [] = [d1; d2] /\ length (d_supp d1) = 2%nat /\ d_deg d1 = (-2)%Z.
Proof.
  exists [New half_curve false [(RAff (RtoC 1) (RtoC 0), 1%Z)]; New half_curve false [(RInf 1, (-3)%Z)]; Add 0 1].
  cbn [fold_left heap_after new_divisor store_points store_point Z.eqb store_finite bind map fold_right snd app length andb Z.leb sc_delta half_curve example_curve Z.compare Pos.compare Pos.compare_cont].
  unfold add_divisors. cbn [tget nth_error bind d_curve d_supp d_deg].
  rewrite (proj2 (same_curve_iff _ _) eq_refl). cbn [upd]. eexists _, _. split; [reflexivity|]. split; reflexivity.
Qed.

(** The Abel-Jacobi map: there are values of the points, those of the curve at infinity and at the branch
    points, and elsewhere that of the next branch point plus the integral, such that for every divisor of
    degree zero the answer is the sum of the values of its points with their multiplicities, up to integers,
    as 2g numbers between -1/2 and 1/2. *)
Theorem C94_sum_over_points : forall integ inf c a, complete c a ->
  exists phi, point_values integ inf c a phi /\
    forall d, zero_divisor_on c d ->
    exists r, abel_jacobi integ inf c a d = Done r /\ value_is (sc_g c) r (fun i => extend (phi i) (d_supp d)).
Proof. exact (fun integ inf c a H => ex_intro _ (val integ inf c a) (conj (val_ok integ inf c a H) (aj_ok integ inf c a H))). Qed.
Print Assumptions C94_sum_over_points.

(** It is additive, and does not depend on the order of the points. *)
Theorem C94_additive : forall integ inf c a d1 d2 d,
  complete c a -> zero_divisor_on c d1 -> zero_divisor_on c d2 -> zero_divisor_on c d ->
  Permutation (d_supp d) (d_supp d1 ++ d_supp d2) ->
  exists r1 r2 r, abel_jacobi integ inf c a d1 = Done r1 /\ abel_jacobi integ inf c a d2 = Done r2 /\
    abel_jacobi integ inf c a d = Done r /\
    forall i, (i < 2 * sc_g c)%nat -> integer (nth i r 0 - (nth i r1 0 + nth i r2 0)).
Proof. exact aj_sum. Qed.
Print Assumptions C94_additive.

(** With two points P and Q, or with a divisor of degree d and a base point, on objects that no call has
    changed: the value of Q minus that of P, of the divisor minus d times that of the base point. *)
Theorem C94_points_and_base_points : forall integ inf c a, complete c a ->
  exists phi, point_values integ inf c a phi /\
    (forall h p q p' q', store_point c true (p, (-1)%Z) = Done (p', (-1)%Z) -> store_point c true (q, 1%Z) = Done (q', 1%Z) ->
      exists h' r, aj_points integ inf h c a p q = Done (h', r) /\ value_is (sc_g c) r (fun i => phi i q' - phi i p')) /\
    (forall h i d p0 p0', nth_error h i = Some d -> sound d -> d_deg d <> 0%Z -> d_curve d = curve_key c ->
      (forall k v, In (PInf k, v) (d_supp d) -> (1 <= k <= sc_delta c)%Z) ->
      store_point c true (p0, (- d_deg d)%Z) = Done (p0', (- d_deg d)%Z) ->
      exists h' r, aj_base integ inf h c a i p0 = Done (h', r) /\
        value_is (sc_g c) r (fun n => extend (phi n) (d_supp d) - IZR (d_deg d) * phi n p0')).
Proof.
  exact (fun integ inf c a H => ex_intro _ (val integ inf c a) (conj (val_ok integ inf c a H)
    (conj (fun h p q p' q' => aj_points_value integ inf h c a p q p' q' H)
          (fun h i d p0 p0' => aj_base_value integ inf h c a i p0 p0' d H)))).
Qed.
Print Assumptions C94_points_and_base_points.

(** two branch points of y^2 = x (x - 1) (x - 2) *)
Example C94_nonvacuous : exists c a d, complete c a /\ zero_divisor_on c d /\ length (d_supp d) = 2%nat.
Proof.
  exists half_curve, half_data, {| d_curve := curve_key half_curve; d_supp := [(PFin (RtoC 1) (RtoC 0), 1%Z); (PInf 1, (-1)%Z)]; d_deg := 0 |}.
  split; [apply half_complete|]. split; [|reflexivity]. split; [reflexivity|]. split; [reflexivity|].
  intros k v [E|[E|[]]]; [discriminate|]. injection E as <- _. cbn. lia.
Qed.
