(** C17-C19: the intersection matrix of the shifted cycles.  Statements only.
    [shift k l kind] is the sheet number computed for edges k < l (it may abort), [neg k l]
    the orientation test; both arbitrary. *)
From Verif Require Import Base ModelTree SpecTree ModelInter SpecInter ProofInter ProofInterMain ProofTreeEx ModelSymp SpecSymp.

(** C17 *)
Theorem C17_antisymmetric_small_entries :
  forall shift neg es m c, 2 <= m -> intersection_tree shift neg es m = Done c ->
    isize c = Z.of_nat (length es) * (m - 1) /\
    forall x y, 0 <= x < isize c -> 0 <= y < isize c ->
      cell c y x = - cell c x y /\ cell c x x = 0 /\ (cell c x y = -1 \/ cell c x y = 0 \/ cell c x y = 1).
Proof.
  intros shift neg es m c Hm E. destruct (returned_antisym _ _ _ _ _ Hm E) as [Hs H]. split; [exact Hs|].
  intros x y Hx Hy. destruct (H x y Hx Hy). destruct (H x x Hx Hx). lia.
Qed.
Print Assumptions C17_antisymmetric_small_entries.

(** In the form the symplectic reduction takes it. *)
Theorem C17_input_of_reduction :
  forall shift neg es m c, 2 <= m -> intersection_tree shift neg es m = Done c ->
    let r := (length es * Z.to_nat (m - 1))%nat in
    square r (to_rows c) /\ antisymmetric r (to_rows c).
Proof.
  intros shift neg es m c Hm E. destruct (returned_antisym _ _ _ _ _ Hm E) as [Hs H]. cbn zeta.
  assert (Hr : Z.to_nat (isize c) = (length es * Z.to_nat (m - 1))%nat) by (rewrite Hs, Z2Nat.inj_mul, Nat2Z.id by lia; reflexivity).
  rewrite <- Hr. unfold to_rows. split.
  - split; [rewrite map_length, seq_length; reflexivity|].
    intros row Hrow. apply in_map_iff in Hrow. destruct Hrow as (i & <- & _). rewrite map_length, seq_length. reflexivity.
  - intros i j Hi Hj. unfold get. rewrite !nth_map_seq by assumption.
    apply (H (Z.of_nat j) (Z.of_nat i)); lia.
Qed.
Print Assumptions C17_input_of_reduction.

(** C18: the entry for gamma_k^(u) and gamma_l^(v) is that of the table, for the sheet number
    the angle computation gave ... *)
Theorem C18_table_of_intersections :
  forall shift neg es m c, 2 <= m -> intersection_tree shift neg es m = Done c ->
    forall k l ek el u v, (k < l)%nat -> nth_error es k = Some ek -> nth_error es l = Some el ->
      0 <= u < m - 1 -> 0 <= v < m - 1 ->
      let entry := cell c (Z.of_nat k * (m - 1) + u) (Z.of_nat l * (m - 1) + v) in
      let is sp sm := (entry = 1 <-> (v - u - sp) mod m = 0) /\ (entry = -1 <-> (v - u - sm) mod m = 0) in
      (ea el = ea ek -> exists s, shift k l ABAD = Done s /\
         (if neg k l then is (- s) (-1 - s) else is (1 - s) (- s))) /\
      (ea el <> ea ek -> ea el = eb ek -> exists s, shift k l ABBD = Done s /\ is (- s) (1 - s)) /\
      (ea el <> ea ek -> ea el <> eb ek -> entry = 0).
Proof. exact table_final. Qed.
Print Assumptions C18_table_of_intersections.

(** ... for one edge, +1 one sheet up and -1 one sheet down ... *)
Theorem C18_self_intersections :
  forall shift neg es m c, 3 <= m -> intersection_tree shift neg es m = Done c ->
    forall k u v, (k < length es)%nat -> 0 <= u < m - 1 -> 0 <= v < m - 1 ->
      let entry := cell c (Z.of_nat k * (m - 1) + u) (Z.of_nat k * (m - 1) + v) in
      (entry = 1 <-> v = u + 1) /\ (entry = -1 <-> u = v + 1).
Proof. exact self_final. Qed.
Print Assumptions C18_self_intersections.

(** ... and it depends on the two edges and (v - u) mod m only. *)
Theorem C18_deck_invariance :
  forall shift neg es m c, 2 <= m -> intersection_tree shift neg es m = Done c ->
    forall k l u v u' v', (k < length es)%nat -> (l < length es)%nat ->
      0 <= u < m - 1 -> 0 <= v < m - 1 -> 0 <= u' < m - 1 -> 0 <= v' < m - 1 ->
      (v - u) mod m = (v' - u') mod m ->
      cell c (Z.of_nat k * (m - 1) + u) (Z.of_nat l * (m - 1) + v) =
      cell c (Z.of_nat k * (m - 1) + u') (Z.of_nat l * (m - 1) + v').
Proof.
  intros shift neg es m c Hm E k l u v u' v' Hk Hl Hu Hv Hu' Hv' Hd.
  destruct (returned_spec _ _ _ _ _ Hm E) as [_ H]. rewrite !H by assumption.
  apply intersection_shift; [lia|]. apply mod_zero_eq; [lia|exact Hd].
Qed.
Print Assumptions C18_deck_invariance.

(** C19: no write leaves the matrix, and the only abort is that of the angle computation ... *)
Theorem C19_no_other_failure :
  forall shift neg es m, 2 <= m ->
    (forall k l t, shift k l t = Abort \/ exists z, shift k l t = Done z) ->
    intersection_tree shift neg es m = Abort \/ exists c, intersection_tree shift neg es m = Done c.
Proof. intros shift neg es m Hm Hok. exact (tree_no_fault shift neg m Hok es Hm). Qed.
Print Assumptions C19_no_other_failure.

Theorem C19_no_rejected_pair :
  forall shift neg es m, 2 <= m -> (forall k l t, exists z, shift k l t = Done z) ->
    exists c, intersection_tree shift neg es m = Done c.
Proof. exact no_rejected_final. Qed.
Print Assumptions C19_no_rejected_pair.

(** ... and in a tree grown as the library does, two edges with a common point always get a
    block, whichever of their ends meet. *)
Theorem C19_incident_pairs_have_a_block :
  forall sort param len n r mn es r' mn' shift neg m c, (forall l, Permutation l (sort l)) -> (n < len)%nat ->
    spanning_tree sort param len n r mn = Done (es, r', mn') -> 2 <= m ->
    intersection_tree shift neg es m = Done c ->
    forall k l ek el, (k < l)%nat -> nth_error es k = Some ek -> nth_error es l = Some el -> incident ek el ->
      exists s, (ea el = ea ek /\ shift k l ABAD = Done s) \/ (ea el = eb ek /\ shift k l ABBD = Done s).
Proof. exact incident_final. Qed.
Print Assumptions C19_incident_pairs_have_a_block.

(** a star and a path on five points, m = 4 *)
Definition es_ex : list edge :=
  [{| er := Some 1; ea := 0; eb := 1 |}; {| er := Some 1; ea := 0; eb := 2 |};
   {| er := Some 1; ea := 2; eb := 3 |}; {| er := Some 1; ea := 3; eb := 4 |}].
Example C17_C18_nonvacuous :
  exists c, intersection_tree (fun k l _ => Done (Z.of_nat (k + 2 * l))) (fun k _ => Nat.even k) es_ex 4 = Done c /\
    isize c = 12 /\ hd [] (to_rows c) = [0; 1; 0; 0; -1; 1; 0; 0; 0; 0; 0; 0].
Proof. eexists. split; [vm_compute; reflexivity|]. vm_compute. auto. Qed.
Example C19_nonvacuous :
  exists es r' mn', spanning_tree isort (fun i j k => Some (Z.of_nat ((3 * i * i + 5 * j + 2 * k) mod 11) + 1)) 6 5 (Some 0) 0 = Done (es, r', mn') /\
    exists ek el, nth_error es 0 = Some ek /\ nth_error es 1 = Some el /\ incident ek el.
Proof. do 3 eexists. split; [vm_compute; reflexivity|]. do 2 eexists. conj; [reflexivity|reflexivity|]. vm_compute. auto. Qed.
