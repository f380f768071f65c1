(** C99: reduction modulo periods and ramification points in the Magma package. *)
From Coquelicot Require Import Coquelicot.
From Verif Require Import CArg ModelTree ModelVec ModelPeriod ModelTurn ModelSymp SpecSymp SpecInter ModelMaRoot ModelMaDiff ModelMaFactor ModelMaSum ModelMaTree ModelMaInter ModelMaSymp ModelMaAjm ModelMaPath ModelMaDivisor ModelMaPeriod ModelMaRam SpecVec SpecPeriod SpecCurve SpecTree SpecTurn SpecMaRoot SpecMaFactor SpecQuad SpecMaSum SpecMaTree SpecDeq SpecCross SpecMaInter SpecMaSymp SpecMaPeriod SpecMaPath SpecMaRam ProofMaTree4 ProofMaTree5 ProofMaPeriod5 ProofMaPeriod6 ProofMaRam ProofMaRam2 ProofMaRam3 SpecEdge.
Local Open Scope nat_scope.

(** The reduction of a vector modulo periods lies between -1/2 and 1/2, is the vector itself up to a period, and
    two vectors differ by a period exactly when their reductions differ by integers; no two combinations of the
    columns with different real coefficients agree. *)
Theorem C99_reduction :
  forall rinv g big rd, rinv_ok rinv -> reduction_matrix rinv true g big = Done (Some rd) ->
  (forall v k, (- / 2 <= lattice_reduction g (red_data rd) v k <= / 2)%R) /\
  (forall v, in_lattice g big (fun i => v i - csum (2 * g) (fun k => mget big i k * RtoC (lattice_reduction g (red_data rd) v k)))%C) /\
  (forall v v', in_lattice g big (fun i => v i - v' i)%C <->
     forall k, k < 2 * g -> exists z : Z, (lattice_reduction g (red_data rd) v k - lattice_reduction g (red_data rd) v' k)%R = IZR z) /\
  (forall u u' : nat -> R, (forall i, i < g -> csum (2 * g) (fun k => mget big i k * RtoC (u k))%C = csum (2 * g) (fun k => mget big i k * RtoC (u' k))%C) -> forall k, k < 2 * g -> u k = u' k).
Proof. exact reduction_lattice. Qed.
Print Assumptions C99_reduction.

(** m and n coprime: the fractions in place of the coordinates of the ramification points are exact.  Entry i is
    the integral along the path in the tree from the base point to point i, up to a period, whatever the
    errors of the quadrature rules. *)
Theorem C99_ramification_points_exact :
  forall rank inv rinv best sort choose o p x m lc s small err base r tm ram, rank_ok rank -> inv_ok inv -> rinv_ok rinv -> best_ok best ->
  sort_ok sort -> distinct x -> same_sides p x -> 3 <= length x -> 2 <= m -> lc <> RtoC 0 -> base < length x -> Z.gcd (Z.of_nat m) (Z.of_nat (length x)) = 1%Z ->
  (forall d t, ma_differentials (Z.of_nat m) (Z.of_nat (length x)) = Done d -> spanning_tree_ma sort (chosen_type m o) p = Done t ->
     schemes_fit m d (length x - 1) (choose t) s) ->
  se_ramification rank inv rinv best sort choose o p x m lc small err base = Done (r, tm, ram) ->
  let g := length (p_big r) in
  (exists t ty', spanning_tree_ma sort (chosen_type m o) p = Done (t, ty') /\ forall i, i < length x -> goes (plains (s_edges t)) (nth i tm []) base i) /\
  length ram = length x /\
  (forall i k, i < length x -> k < 2 * g -> (exists z : Z, (INR m * nth i ram (fun _ => 0%R) k)%R = IZR z) /\ (- / 2 <= nth i ram (fun _ => 0%R) k <= / 2)%R) /\
  (forall i, i < length x -> in_lattice g (p_big r) (fun c => ram_vector (nth i tm []) (p_elem r) c - csum (2 * g) (fun k => mget (p_big r) c k * RtoC (nth i ram (fun _ => 0%R) k)))%C).
Proof. exact ram_exact. Qed.
Print Assumptions C99_ramification_points_exact.

(** m and n coprime: the value for the point at infinity is, modulo integers, the only one with
    m times it = 0 (as m times every ramification point) and n times it = the sum of the ramification points,
    whichever coefficients Xgcd gives. *)
Theorem C99_point_at_infinity :
  forall m (a b : Z) ram k, (a * Z.of_nat m + b * Z.of_nat (length ram) = 1)%Z -> (forall v, In v ram -> exists z : Z, (INR m * v k)%R = IZR z) ->
  (exists z : Z, (INR m * sum_of_infty b ram k)%R = IZR z) /\
  (exists z : Z, (INR (length ram) * sum_of_infty b ram k - fold_right Rplus 0 (map (fun v => v k) ram))%R = IZR z) /\
  forall v, (exists z : Z, (INR m * v)%R = IZR z) -> (exists z : Z, (INR (length ram) * v - fold_right Rplus 0 (map (fun v => v k) ram))%R = IZR z) ->
    exists z : Z, (v - sum_of_infty b ram k)%R = IZR z.
Proof. exact infinity_relations. Qed.
Print Assumptions C99_point_at_infinity.

(** the curve y^2 = 4 x (x - 1) (x - 3) meets the hypotheses, with a rule of one node *)
Example C99_nonvacuous : exists rank inv rinv best, rank_ok rank /\ inv_ok inv /\ rinv_ok rinv /\ best_ok best /\
  sort_ok rsort /\ distinct x98 /\ same_sides x98 x98 /\ 3 <= length x98 /\ Z.gcd 2 (Z.of_nat (length x98)) = 1%Z /\
  (forall d t, ma_differentials 2 (Z.of_nat (length x98)) = Done d -> spanning_tree_ma rsort (chosen_type 2 OOpt) x98 = Done t ->
     schemes_fit 2 d (length x98 - 1) (one_node t) (fun _ => GjScheme [] 1)) /\
  exists r tm ram rd, se_ramification rank inv rinv best rsort one_node OOpt x98 x98 2 (RtoC 4) false 0 0 = Done (r, tm, ram) /\ length (p_big r) = 1 /\
    reduction_matrix rinv true 1 (p_big r) = Done (Some rd) /\
    (-1 * 2 + 1 * Z.of_nat (length ram) = 1)%Z /\ forall v k, In v ram -> k < 2 -> exists z : Z, (INR 2 * v k)%R = IZR z.
Proof.
  destruct oracles_exist as (rank & inv & rinv & H1 & H2 & H3). destruct best_exists as (best & H4). exists rank, inv, rinv, best. repeat (split; [assumption|]).
  split; [exact rsort_ok|]. split; [exact x98_distinct|]. split; [exact (same_sides_refl _)|]. split; [cbn; lia|]. split; [reflexivity|].
  assert (Hs : forall d t, ma_differentials 2 (Z.of_nat (length x98)) = Done d -> spanning_tree_ma rsort (chosen_type 2 OOpt) x98 = Done t ->
     schemes_fit 2 d (length x98 - 1) (one_node t) (fun _ => GjScheme [] 1)) by (intros d t _ _; apply one_node_fit).
  split; [exact Hs|]. assert (L4 : RtoC 4 <> RtoC 0) by (intros E; apply RtoC_inj in E; lra).
  destruct (ram_ends rank inv rinv best 0 H1 H2 H3 ltac:(lia)) as (r & tm & ram & E & L & rd & Erd). exists r, tm, ram.
  destruct (ram_exact rank inv rinv best rsort one_node OOpt x98 x98 2 (RtoC 4) _ false 0 0 r tm ram H1 H2 H3 H4 rsort_ok x98_distinct (same_sides_refl _) (le_n 3) (le_n 2) L4 ltac:(cbn; lia) eq_refl Hs E) as (_ & Lr & Hr & _).
  rewrite L in Hr. exists rd. split; [exact E|]. split; [exact L|]. split; [exact Erd|].
  split; [rewrite Lr; reflexivity|]. intros v k Hv Hk. destruct (In_nth _ _ (fun _ => 0%R) Hv) as (i & Hi & <-). rewrite Lr in Hi. exact (proj1 (Hr i k Hi Hk)).
Qed.
