(** C98: period matrices of the Magma package. *)
From Coquelicot Require Import Coquelicot.
From Verif Require Import CArg ModelTree ModelVec ModelPeriod ModelTurn ModelSymp SpecSymp SpecInter ModelMaRoot ModelMaDiff ModelMaFactor ModelMaSum ModelMaTree ModelMaInter ModelMaSymp ModelMaAjm ModelMaPeriod SpecVec SpecPeriod SpecCurve SpecTree SpecTurn SpecMaRoot SpecMaFactor SpecQuad SpecMaSum SpecMaTree SpecDeq SpecCross SpecMaInter SpecMaSymp SpecMaPeriod ProofMaTree4 ProofMaTree5 ProofMaPeriod5 ProofMaPeriod6 SpecEdge.
Local Open Scope nat_scope.

(** Hyperelliptic curves, y^2 = lc (x - x0) ... (x - x(n-1)).  The calculation of the big period matrix always ends.
    Its entries are, for every holomorphic differential x^i dx/y, the sums of the quadrature rules over the loops of
    a symplectic basis b of the homology with the intersection form T, on one sheet w Y of the curve per edge; these are the sheets for
    which T counts the intersections of the loops.  Whenever the other matrices are asked for and returned, the small matrix takes the
    columns of the A-cycles to those of the B-cycles and is symmetric up to the error, and the reduction matrix
    gives the coordinates of every vector in the columns. *)
Theorem C98_hyperelliptic_periods :
  forall rank inv rinv sort choose o p x lc s, rank_ok rank -> inv_ok inv -> rinv_ok rinv ->
  sort_ok sort -> distinct x -> same_sides p x -> 3 <= length x -> lc <> RtoC 0 ->
  (forall d t, ma_differentials 2 (Z.of_nat (length x)) = Done d -> spanning_tree_ma sort (chosen_type 2 o) p = Done t ->
     schemes_fit 2 d (length x - 1) (choose t) s) ->
  exists t ty' d ds T b ya yb Y w,
    spanning_tree_ma sort (chosen_type 2 o) p = Done (t, ty') /\
    ma_differentials 2 (Z.of_nat (length x)) = Done d /\ Z.to_nat (md_g d) = (length x - 1) / 2 /\
    tree_data x (zetas 2) 2 (length x) (s_edges t) = Done ds /\
    sheets 2 x (plains (s_edges t)) ya yb Y /\ data_sheets 2 (length x) ds ya yb Y /\ loop_matrix 2 x (plains (s_edges t)) ya yb Y T /\
    unimodular (length x - 1) b /\ is_symplectic_basis (length x - 1) ((length x - 1) / 2) T b /\
    (w * w)%C = lc /\
    (exists r, se_curve_periods rank inv rinv sort choose o p x 2 lc false false 0 = Done r) /\
    forall small ajm err r, se_curve_periods rank inv rinv sort choose o p x 2 lc small ajm err = Done r -> periods_ok 2 x d (plains (s_edges t)) s w Y b small ajm err r.
Proof. exact hyper_periods. Qed.
Print Assumptions C98_hyperelliptic_periods.

(** Any number of sheets: the calculation ends with an error or with matrices of this kind, for a base of the
    loops that the package has taken for symplectic.  Not proved: that this base is symplectic for m > 2 (see C90);
    when it is, its number of pairs is the genus. *)
Theorem C98_periods_partial :
  forall rank inv rinv sort choose o p x m lc s small ajm err, rank_ok rank -> inv_ok inv -> rinv_ok rinv ->
  sort_ok sort -> distinct x -> same_sides p x -> 3 <= length x -> 2 <= m -> lc <> RtoC 0 ->
  (forall d t, ma_differentials (Z.of_nat m) (Z.of_nat (length x)) = Done d -> spanning_tree_ma sort (chosen_type m o) p = Done t ->
     schemes_fit m d (length x - 1) (choose t) s) ->
  exists t ty' d ds T b ya yb Y w,
    spanning_tree_ma sort (chosen_type m o) p = Done (t, ty') /\
    ma_differentials (Z.of_nat m) (Z.of_nat (length x)) = Done d /\
    tree_data x (zetas m) m (length x) (s_edges t) = Done ds /\
    se_intersections x (zetas m) m (length x) (s_edges t) ds = Done T /\
    sheets m x (plains (s_edges t)) ya yb Y /\ data_sheets m (length x) ds ya yb Y /\ loop_matrix m x (plains (s_edges t)) ya yb Y T /\
    symplectic_basis T = Done b /\ unimodular ((length x - 1) * (m - 1)) b /\
    cpow w m = lc /\
    (forall g', 2 * g' <= (length x - 1) * (m - 1) -> is_symplectic_basis ((length x - 1) * (m - 1)) g' T b -> rank T = 2 * g') /\
    (se_curve_periods rank inv rinv sort choose o p x m lc small ajm err = Abort \/
     rank T = 2 * Z.to_nat (md_g d) /\ exists r, se_curve_periods rank inv rinv sort choose o p x m lc small ajm err = Done r /\ periods_ok m x d (plains (s_edges t)) s w Y b small ajm err r) /\
    (rank T = 2 * Z.to_nat (md_g d) -> small = false -> ajm = false -> exists r, se_curve_periods rank inv rinv sort choose o p x m lc small ajm err = Done r).
Proof. exact ma_periods. Qed.
Print Assumptions C98_periods_partial.

(** The small period matrix does not depend on the leading coefficient: the call with a list of points, which
    drops it, gives the same result as the call with the polynomial. *)
Theorem C98_small_matrix_of_points :
  forall rank inv rinv sort choose o p x m lc s err, inv_ok inv -> sort_ok sort -> distinct x -> same_sides p x -> 3 <= length x -> 2 <= m -> lc <> RtoC 0 ->
  (forall d t, ma_differentials (Z.of_nat m) (Z.of_nat (length x)) = Done d -> spanning_tree_ma sort (chosen_type m o) p = Done t ->
     schemes_fit m d (length x - 1) (choose t) s) ->
  small_of_points rank inv rinv sort choose o p x m lc err = small_of_polynomial rank inv rinv sort choose o p x m lc err.
Proof. exact small_same. Qed.
Print Assumptions C98_small_matrix_of_points.

(** The big one does: what the call with a list of points returns is off by the factor w^j, with w^m = lc, in
    the row of x^i dx/y^j. *)
Theorem C98_big_matrix_of_points :
  forall rank inv rinv sort choose o p x m lc s err, sort_ok sort -> distinct x -> same_sides p x -> 3 <= length x -> 2 <= m -> lc <> RtoC 0 ->
  (forall d t, ma_differentials (Z.of_nat m) (Z.of_nat (length x)) = Done d -> spanning_tree_ma sort (chosen_type m OOpt) p = Done t ->
     schemes_fit m d (length x - 1) (choose t) s) ->
  exists d w, ma_differentials (Z.of_nat m) (Z.of_nat (length x)) = Done d /\ cpow w m = lc /\
  (big_of_polynomial rank inv rinv sort choose OOpt p x m lc err = Abort /\ big_of_points rank inv rinv sort choose o p x m lc err = Abort \/
   exists B B', big_of_polynomial rank inv rinv sort choose OOpt p x m lc err = Done B /\ big_of_points rank inv rinv sort choose o p x m lc err = Done B' /\
     forall q i col, q < length (md_df d) -> (Z.of_nat i < nth q (md_df d) 0)%Z -> col < 2 * Z.to_nat (md_g d) ->
       mget B' (offset (md_df d) q + i) col = (cpow w (Z.to_nat (md_jm d + Z.of_nat q)) * mget B (offset (md_df d) q + i)%nat col)%C).
Proof. exact points_scaled. Qed.
Print Assumptions C98_big_matrix_of_points.

(** The points 0, 1, 3 with leading coefficient 4: the two calls give different matrices. *)
Theorem C98_leading_coefficient_of_points_refuted :
  forall rank inv rinv, rank_ok rank -> inv_ok inv -> rinv_ok rinv ->
  exists B B', big_of_polynomial rank inv rinv rsort one_node OOpt x98 x98 2 (RtoC 4) 0 = Done B /\ big_of_points rank inv rinv rsort one_node OOpt x98 x98 2 (RtoC 4) 0 = Done B' /\
    exists col, col < 2 /\ mget B' 0 col <> mget B 0 col.
Proof. exact points_refuted. Qed.
Print Assumptions C98_leading_coefficient_of_points_refuted.

(** IntegrationType: "DE" and "GJ" are respected, and "Opt" gives the same results as "GJ" for m = 2 and as
    "DE" for m > 2. *)
Theorem C98_integration_type :
  forall rank inv rinv sort choose p x m lc small ajm err,
  chosen_type m ODE = DE /\ chosen_type m OGJ = GJ /\
  se_curve_periods rank inv rinv sort choose OOpt p x m lc small ajm err =
    se_curve_periods rank inv rinv sort choose (if m <=? 2 then OGJ else ODE) p x m lc small ajm err.
Proof.
  intros. unfold chosen_type. split; [destruct (2 <? m); reflexivity|]. split; [destruct (2 <? m); reflexivity|].
  unfold se_curve_periods. replace (chosen_type m OOpt) with (chosen_type m (if m <=? 2 then OGJ else ODE)); [reflexivity|].
  unfold chosen_type. destruct (Nat.leb_spec m 2), (Nat.ltb_spec 2 m); try reflexivity; lia.
Qed.
Print Assumptions C98_integration_type.

(** hypotheses hold: there are such functions Rank and inverse, and for the three points the hyperelliptic
    calculation with a rule of one node for both edges *)
Example C98_nonvacuous : exists rank inv rinv, rank_ok rank /\ inv_ok inv /\ rinv_ok rinv /\
  sort_ok rsort /\ distinct x98 /\ same_sides x98 x98 /\ 3 <= length x98 /\
  (forall d t, ma_differentials 2 (Z.of_nat (length x98)) = Done d -> spanning_tree_ma rsort (chosen_type 2 OOpt) x98 = Done t ->
     schemes_fit 2 d (length x98 - 1) (one_node t) (fun _ => GjScheme [] 1)) /\
  exists r, se_curve_periods rank inv rinv rsort one_node OOpt x98 x98 2 (RtoC 4) false false 0 = Done r /\ length (p_big r) = 1.
Proof.
  destruct oracles_exist as (rank & inv & rinv & H1 & H2 & H3). exists rank, inv, rinv. repeat (split; [assumption|]).
  split; [exact rsort_ok|]. split; [exact x98_distinct|]. split; [exact (same_sides_refl _)|]. split; [cbn; lia|].
  assert (Hs : forall d t, ma_differentials 2 (Z.of_nat (length x98)) = Done d -> spanning_tree_ma rsort (chosen_type 2 OOpt) x98 = Done t ->
     schemes_fit 2 d (length x98 - 1) (one_node t) (fun _ => GjScheme [] 1)) by (intros d t _ _; apply one_node_fit).
  split; [exact Hs|]. assert (L4 : RtoC 4 <> RtoC 0) by (intros E; apply RtoC_inj in E; lra).
  destruct (hyper_periods rank inv rinv rsort one_node OOpt x98 x98 (RtoC 4) _ H1 H2 H3 rsort_ok x98_distinct (same_sides_refl _) (le_n 3) L4 Hs) as (t & ty' & d & ds & T & b & ya & yb & Y & w & _ & _ & G & _ & _ & _ & _ & _ & _ & _ & (r & Er) & H).
  exists r. split; [exact Er|]. destruct (H false false 0%R r Er) as ((L & _) & _). rewrite L, G. reflexivity.
Qed.
