(** C31: fast product of roots.  Statements only.  u holds the points of the edge, possibly
    followed by other constants; the first d1 of the d points are taken with sign +. *)
From Verif Require Import CArg ModelTree ModelVec ModelPeriod ModelEdge ModelTurn SpecTurn ProofTurn.
Local Open Scope R_scope.

(** the evaluation by turns is the product of the principal roots, unless the product of the
    factors is exactly a negative real number *)
Theorem C31_turn_partial :
  forall m u d1 d x, (0 < m)%Z -> (0 < d <= length u)%nat ->
    ~ negative_real (cprod (factors u d1 d x)) ->
    pol_turn m u d1 d x (unit_roots m) = Done (roots_product m (factors u d1 d x)).
Proof.
  intros m u d1 d x Hm Hd Hn. destruct (pol_turn_ok m u d1 d x Hm Hd) as (w & E & [-> | [H _]]); [exact E|contradiction].
Qed.
Print Assumptions C31_turn_partial.

Theorem C31_sqrt_turn_partial :
  forall u d1 d x, (0 < d <= length u)%nat -> ~ negative_real (cprod (factors u d1 d x)) ->
    sqrt_turn u d1 d x = Done (roots_product 2 (factors u d1 d x)).
Proof.
  intros u d1 d x Hd Hn. destruct (sqrt_turn_ok u d1 d x Hd) as (w & E & [-> | [H _]]); [exact E|contradiction].
Qed.
Print Assumptions C31_sqrt_turn_partial.

(** in that last case it may be one turn too far, never more *)
Theorem C31_one_turn :
  forall m u d1 d x, (0 < m)%Z -> (0 < d <= length u)%nat ->
    let l := factors u d1 d x in
    pol_turn m u d1 d x (unit_roots m) = Done (roots_product m l) \/
    pol_turn m u d1 d x (unit_roots m) = Done (root m 1 * roots_product m l)%C.
Proof.
  intros m u d1 d x Hm Hd l. destruct (pol_turn_ok m u d1 d x Hm Hd) as (w & E & [-> | [_ ->]]); [left|right]; exact E.
Qed.
Print Assumptions C31_one_turn.

(** the other evaluations *)
Theorem C31_def :
  forall m u d1 d x, (d <= length u)%nat ->
    pol_def m u d1 d x = Done (roots_product m (factors u d1 d x)).
Proof. exact pol_def_ok. Qed.
Print Assumptions C31_def.

(** the limits at the end points of an edge (C20, C33) use that same product *)
Theorem C31_limits :
  forall m u d1 x, mth_root_pol_def m u d1 (RtoC x) = roots_product m (factors u d1 (length u) x).
Proof. exact edge_def_same. Qed.
Print Assumptions C31_limits.

Theorem C31_logarithms :
  forall m u d1 d x, (0 < m)%Z -> (d <= length u)%nat ->
    (forall z, In z (factors u d1 d x) -> z <> RtoC 0) ->
    pol_prod m u d1 d x = Done (roots_product m (factors u d1 d x)).
Proof. exact pol_prod_ok. Qed.
Print Assumptions C31_logarithms.

(** the options and the precision select an evaluation, not a value *)
Theorem C31_choice_partial :
  forall rdef rprod rturn prec m u d1 d x, (0 < m)%Z -> (0 < d <= length u)%nat ->
    (forall z, In z (factors u d1 d x) -> z <> RtoC 0) -> ~ negative_real (cprod (factors u d1 d x)) ->
    de_root rdef rprod rturn prec m u d1 d x = Done (roots_product m (factors u d1 d x)).
Proof. exact de_root_ok. Qed.
Print Assumptions C31_choice_partial.

Theorem C31_choice_gc_partial :
  forall rdef rturn u d1 d x, (0 < d <= length u)%nat -> ~ negative_real (cprod (factors u d1 d x)) ->
    gc_root rdef rturn u d1 d x = Done (roots_product 2 (factors u d1 d x)).
Proof. exact gc_root_ok. Qed.
Print Assumptions C31_choice_gc_partial.

Example C31_not_vacuous : exists u, let l := factors u 1 3 (1 / 2) in
  ~ negative_real (cprod l) /\ (forall z, In z l -> z <> RtoC 0) /\ (3 <= length u)%nat.
Proof.
  exists [(2, 1); (-2, 1); (-3, -1)]. cbn zeta. unfold factors. cbn [seq map Nat.ltb Nat.leb nth]. split; [|split].
  - unfold negative_real, cprod. cbn [fold_right]. unfold Cmult, Cminus, Cplus, Copp, RtoC. cbn [fst snd]. lra.
  - intros z [<- | [<- | [<- | []]]] E; injection E; unfold Cminus, Cplus, Copp, RtoC; cbn [fst snd]; lra.
  - cbn. lia.
Qed.

(** Refuted in full: at the central node 0 of the double exponential rule, two points on the
    lower imaginary axis ... *)
Theorem C31_turn_refuted :
  forall m, (2 <= m)%Z ->
    exists u w, length u = 2%nat /\ (forall z, In z u -> fst z <= 0) /\
      pol_turn m u 0 2 0 (unit_roots m) = Done w /\ w <> roots_product m (factors u 0 2 0).
Proof.
  intros m Hm. destruct (pol_turn_bad m [(0, -1); (0, -2)] 0 0 Hm eq_refl) as (w & E & Hw).
  - unfold fac, Cminus, Cplus, Copp, RtoC. cbn. f_equal; ring.
  - unfold fac, Cminus, Cplus, Copp, RtoC. cbn. f_equal; ring.
  - exists [(0, -1); (0, -2)], w. split; [reflexivity|]. split; [|split; assumption].
    intros z [<- | [<- | []]]; cbn; lra.
Qed.
Print Assumptions C31_turn_refuted.

(** ... and at any node in ]0, 1[ of the Gauss-Chebyshev rule *)
Theorem C31_sqrt_turn_refuted :
  forall x, 0 < x < 1 ->
    exists u w, length u = 2%nat /\ (forall z, In z u -> 0 < fst z) /\
      sqrt_turn u 2 2 x = Done w /\ w <> roots_product 2 (factors u 2 2 x).
Proof.
  intros x Hx. destruct (sqrt_turn_bad [(x, 1); (x, 2)] 2 x eq_refl) as (w & E & Hw).
  - unfold fac, Cminus, Cplus, Copp, RtoC. cbn. f_equal; ring.
  - unfold fac, Cminus, Cplus, Copp, RtoC. cbn. f_equal; ring.
  - exists [(x, 1); (x, 2)], w. split; [reflexivity|]. split; [|split; assumption].
    intros z [<- | [<- | []]]; cbn; lra.
Qed.
Print Assumptions C31_sqrt_turn_refuted.

(** a curve with two branch points has d = 0: the evaluation by turns then takes the root of
    the constant stored after the (empty) list of points instead of the empty product *)
Theorem C31_no_point_refuted :
  forall m, (2 <= m)%Z -> forall c, exists w,
    pol_turn m [RtoC 2; c] 0 0 0 (unit_roots m) = Done w /\ w <> roots_product m (factors [RtoC 2; c] 0 0 0).
Proof. exact no_point_bad. Qed.
Print Assumptions C31_no_point_refuted.
